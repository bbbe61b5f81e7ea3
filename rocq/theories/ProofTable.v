(** The tables of quadrature points against the zeros of the Legendre polynomials: a sign change is exhibited next to every point. *)
From Coq Require Import ZArith List QArith Qreals Reals Lia Lra Bool Arith.
From Coquelicot Require Import Coquelicot.
From Verif Require Import RSum GaussTable ModelQuad ProofGolub.
Import ListNotations.
Local Close Scope Q_scope.
Local Open Scope Z_scope.

(** the factorial times the power of the denominator times the polynomial, at X / D, for an index and the next one; DD is the square of D *)
Fixpoint leg_z (DD X : Z) (n : nat) : Z * Z :=
  match n with O => (1, X) | S n' => let '(a, b) := leg_z DD X n' in let k := Z.of_nat n in (b, (2 * k + 1) * (X * b) - (k * k) * (DD * a)) end.
Definition grid : Z := Z.shiftl 1 56.
Definition grid2 : Z := Z.shiftl 1 112.
Definition node_z (q : Q) : Z := (2 * Qnum q * grid) / Zpos (Qden q) - grid.
Definition sign_change (n : nat) (q : Q) : bool :=
  let x := node_z q in let a := fst (leg_z grid2 (x - 1) n) in let b := fst (leg_z grid2 (x + 2) n) in Z.eqb (Z.sgn a * Z.sgn b) (-1).
Definition node_check (n : nat) : bool :=
  match gauss_table n with
  | Some (xs, _) => forallb (sign_change n) xs && forallb (fun k => 3 <? node_z (nth (S k) xs 0%Q) - node_z (nth k xs 0%Q)) (seq 0 (length xs - 1))
  | None => true end.
Lemma nodes_checked : forallb node_check (seq 0 21) = true.
Proof. vm_compute. reflexivity. Qed.
Lemma node_checked : forall n xs ws, gauss_table n = Some (xs, ws) -> forallb (sign_change n) xs = true /\ forall k, (S k < length xs)%nat -> 3 < node_z (nth (S k) xs 0%Q) - node_z (nth k xs 0%Q).
Proof.
  intros n xs ws H. assert (K : node_check n = true).
  { destruct (Nat.lt_ge_cases n 21) as [L|L].
    - pose proof nodes_checked as C. rewrite forallb_forall in C. apply C, in_seq. lia.
    - unfold node_check. rewrite H. exfalso. do 21 (destruct n as [|n]; [lia|]). discriminate. }
  unfold node_check in K. rewrite H in K. apply andb_prop in K. destruct K as [K1 K2]. split; [exact K1|]. intros k Hk. rewrite forallb_forall in K2. specialize (K2 k ltac:(apply in_seq; lia)). apply Z.ltb_lt in K2. exact K2.
Qed.
Local Open Scope R_scope.
Lemma leg_z_value : forall D X n, 0 < IZR D -> forall x, x * IZR D = IZR X ->
  IZR (fst (leg_z (D * D) X n)) = INR (fact n) * IZR D ^ n * leg n x /\ IZR (snd (leg_z (D * D) X n)) = INR (fact (S n)) * IZR D ^ (S n) * leg (S n) x.
Proof.
  intros D X n HD x Hx. induction n as [|n [A B]].
  - cbn [leg_z fst snd]. rewrite leg_0, leg_1. cbn [fact Nat.mul Nat.add INR pow]. rewrite <- Hx. split; ring.
  - cbn [leg_z]. destruct (leg_z (D * D) X n) as [a b]. cbn [fst snd] in *. split; [exact B|].
    pose proof (leg_rec n x) as L. rewrite minus_IZR, !mult_IZR, plus_IZR, mult_IZR, A, B, <- INR_IZR_INZ, <- Hx.
    assert (F2 : INR (fact (S (S n))) = (INR n + 2) * INR (fact (S n))) by (change (fact (S (S n))) with ((S (S n)) * fact (S n))%nat; rewrite mult_INR, !S_INR; ring).
    assert (F1 : INR (fact (S n)) = (INR n + 1) * INR (fact n)) by (change (fact (S n)) with ((S n) * fact n)%nat; rewrite mult_INR, S_INR; reflexivity).
    rewrite F2. replace ((INR n + 2) * INR (fact (S n)) * IZR D ^ S (S n) * leg (S (S n)) x) with (INR (fact (S n)) * IZR D ^ S (S n) * ((INR n + 2) * leg (S (S n)) x)) by ring.
    rewrite L, S_INR, F1. cbn [pow]. ring.
Qed.
Lemma leg_sign : forall D X n x, 0 < IZR D -> x * IZR D = IZR X -> IZR (Z.sgn (fst (leg_z (D * D) X n))) * leg n x >= 0 /\ (Z.sgn (fst (leg_z (D * D) X n)) = 0%Z -> leg n x = 0).
Proof.
  intros D X n x HD Hx. destruct (leg_z_value D X n HD x Hx) as [A _]. set (z := fst _) in *. assert (P : 0 < INR (fact n) * IZR D ^ n) by (apply Rmult_lt_0_compat; [apply INR_fact_lt_0|apply pow_lt, HD]).
  set (f := INR (fact n) * IZR D ^ n) in *. set (l := leg n x) in *. clearbody z f l. split.
  - destruct (Z_lt_le_dec 0 z) as [L|L]; [rewrite Z.sgn_pos by exact L; apply IZR_lt in L; nra|]. destruct (Z.eq_dec z 0) as [->|Ne]; [cbn; lra|]. rewrite Z.sgn_neg by lia. assert (z < 0)%Z as L' by lia. apply IZR_lt in L'. nra.
  - intros E. assert (Ez : z = 0%Z) by (destruct z; [reflexivity|discriminate E|discriminate E]). rewrite Ez in A. apply (Rmult_eq_reg_l f); [lra|lra].
Qed.
Lemma node_near : forall q, IZR (node_z q) <= (2 * Q2R q - 1) * IZR grid < IZR (node_z q) + 1.
Proof.
  intros q. unfold node_z. set (a := (2 * Qnum q * grid)%Z). set (b := Zpos (Qden q)). assert (Pb : (0 < b)%Z) by (unfold b; lia). pose proof (Z.div_mod a b ltac:(lia)) as E. pose proof (Z.mod_pos_bound a b Pb) as M.
  assert (Q : (2 * Q2R q - 1) * IZR grid = IZR a / IZR b - IZR grid). { unfold a, b, Q2R. rewrite !mult_IZR. field. apply not_0_IZR. lia. }
  rewrite Q, minus_IZR. apply IZR_lt in Pb. assert (L : IZR (a / b) <= IZR a / IZR b < IZR (a / b) + 1); [|lra].
  split.
  - apply (Rmult_le_reg_r (IZR b)); [exact Pb|]. replace (IZR a / IZR b * IZR b) with (IZR a) by (field; lra). rewrite <- mult_IZR. apply IZR_le. lia.
  - apply (Rmult_lt_reg_r (IZR b)); [exact Pb|]. replace (IZR a / IZR b * IZR b) with (IZR a) by (field; lra). rewrite <- plus_IZR, <- mult_IZR. apply IZR_lt. nia.
Qed.
Lemma grid_pos : 0 < IZR grid. Proof. apply IZR_lt. reflexivity. Qed.
(** a zero of the polynomial in the interval of the grid *)
Lemma zero_near : forall n q, sign_change n q = true -> exists x, leg n x = 0 /\ IZR (node_z q) - 1 <= x * IZR grid <= IZR (node_z q) + 2.
Proof.
  intros n q H. unfold sign_change in H. cbv zeta in H. apply Z.eqb_eq in H. pose proof grid_pos as G. set (N := node_z q) in *.
  change grid2 with (grid * grid)%Z in H.
  set (x1 := IZR (N - 1) / IZR grid). set (x2 := IZR (N + 2) / IZR grid).
  assert (X1 : x1 * IZR grid = IZR (N - 1)) by (unfold x1; field; lra). assert (X2 : x2 * IZR grid = IZR (N + 2)) by (unfold x2; field; lra).
  destruct (leg_sign grid (N - 1) n x1 G X1) as [S1 _]. destruct (leg_sign grid (N + 2) n x2 G X2) as [S2 _].
  rewrite minus_IZR in X1. rewrite plus_IZR in X2.
  assert (Le : x1 <= x2) by (apply (Rmult_le_reg_r (IZR grid)); lra).
  assert (Sg : leg n x1 * leg n x2 <= 0).
  { set (s1 := Z.sgn (fst (leg_z (grid * grid) (N - 1) n))) in *. set (s2 := Z.sgn (fst (leg_z (grid * grid) (N + 2) n))) in *. apply (f_equal IZR) in H. rewrite mult_IZR in H.
    assert (K : s1 = 1%Z /\ s2 = (-1)%Z \/ s1 = (-1)%Z /\ s2 = 1%Z).
    { rewrite <- mult_IZR in H. apply eq_IZR in H. destruct (Z.sgn_spec (fst (leg_z (grid * grid) (N - 1) n))) as [[_ E]|[[_ E]|[_ E]]]; fold s1 in E; rewrite E in *; lia. }
    destruct K as [[-> ->]|[-> ->]]; nra. }
  assert (C : continuity (leg n)) by (intros x; apply continuity_pt_filterlim, leg_cont).
  destruct (IVT_cor (leg n) x1 x2 C Le Sg) as [z [[Z1 Z2] Z0]]. exists z. split; [exact Z0|]. split.
  - rewrite <- X1. apply Rmult_le_compat_r; lra.
  - rewrite <- X2. apply Rmult_le_compat_r; lra.
Qed.
