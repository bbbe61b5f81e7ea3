(** Exactness of the tabulated rules: fixed point arithmetic with rigorous error bounds on the decimal numbers. *)
From Coq Require Import List Arith Lia ZArith Reals Lra QArith Qreals Qabs Qpower.
From Verif Require Import RSum GaussTable ModelQuad.
Import ListNotations.
Local Close Scope Q_scope.
Local Open Scope nat_scope.

(** moments *)
Fixpoint qmoment (x w : list R) (j : nat) : R :=
  match x, w with a :: x, b :: w => (b * a ^ j + qmoment x w j)%R | _, _ => 0%R end.

(** fixed point numbers with 80 binary digits *)
Definition two80 : Z := (2 ^ 80)%Z.
Definition fixed (q : Q) : Z := (Qnum q * two80 / Zpos (Qden q))%Z.
Definition unit_q (q : Q) : bool := ((0 <=? Qnum q)%Z && (Qnum q <=? Zpos (Qden q))%Z)%bool.
Lemma two80_pos : (0 < two80)%Z. Proof. reflexivity. Qed.
Lemma fixed_ok : forall q, unit_q q = true -> (0 <= Q2R q <= 1)%R /\ (0 <= fixed q <= two80)%Z /\
  (IZR (fixed q) <= Q2R q * IZR two80 <= IZR (fixed q) + 1)%R.
Proof.
  intros [a d] H. unfold unit_q, fixed, Q2R in *. cbn [Qnum Qden] in *. apply andb_prop in H. destruct H as [H1 H2].
  apply Z.leb_le in H1, H2. set (D := Z.pos d) in *. assert (HD : (0 < D)%Z) by (unfold D; lia). clearbody D. pose proof two80_pos as HT. generalize dependent two80. intros T HT.
  pose proof (Z.div_mod (a * T) D ltac:(lia)) as E. pose proof (Z.mod_pos_bound (a * T) D HD) as B. set (q := (a * T / D)%Z) in *. set (m := ((a * T) mod D)%Z) in *.
  assert (RD : (0 < IZR D)%R) by (apply IZR_lt; assumption). assert (RT : (0 < IZR T)%R) by (apply IZR_lt; assumption).
  assert (Ra : (0 <= IZR a <= IZR D)%R) by (split; apply IZR_le; assumption).
  assert (E' : (IZR a * IZR T = IZR D * IZR q + IZR m)%R) by (rewrite <- !mult_IZR, <- plus_IZR; f_equal; assumption).
  assert (B' : (0 <= IZR m <= IZR D)%R) by (split; apply IZR_le; lia).
  split; [|split].
  - split; [apply Rmult_le_pos; [lra|left; apply Rinv_0_lt_compat; assumption]|].
    apply (Rmult_le_reg_r (IZR D)); [assumption|]. rewrite Rmult_assoc, Rinv_l by lra. lra.
  - split; [apply Z.div_pos; nia|]. apply Z.div_le_upper_bound; nia.
  - replace (IZR a * / IZR D * IZR T)%R with (IZR q + IZR m * / IZR D)%R.
    + assert (0 <= IZR m * / IZR D <= 1)%R; [|lra]. split; [apply Rmult_le_pos; [lra|left; apply Rinv_0_lt_compat; assumption]|].
      apply (Rmult_le_reg_r (IZR D)); [assumption|]. rewrite Rmult_assoc, Rinv_l by lra. lra.
    + apply (Rmult_eq_reg_r (IZR D)); [|lra]. replace (IZR a * / IZR D * IZR T * IZR D)%R with (IZR a * IZR T)%R by (field; lra). rewrite E'. field. lra.
Qed.
(** one step: multiplication with truncation *)
Definition fmul (p x : Z) : Z := Z.shiftr (p * x) 80.
Lemma fmul_ok : forall p x, (0 <= p <= two80)%Z -> (0 <= x <= two80)%Z ->
  (0 <= fmul p x <= two80)%Z /\ (IZR (fmul p x) <= IZR p * IZR x / IZR two80 <= IZR (fmul p x) + 1)%R.
Proof.
  intros p x Hp Hx. unfold fmul. rewrite Z.shiftr_div_pow2 by lia. change (2 ^ 80)%Z with two80. pose proof two80_pos as HT. generalize dependent two80. intros T Hp Hx HT.
  assert (P : (0 <= p * x <= T * T)%Z) by nia. rewrite <- mult_IZR. set (q := (p * x)%Z) in *. clearbody q.
  pose proof (Z.div_mod q T ltac:(lia)) as E. pose proof (Z.mod_pos_bound q T HT) as B. 
  assert (RT : (0 < IZR T)%R) by (apply IZR_lt; assumption).
  assert (E' : (IZR q = IZR T * IZR (q / T) + IZR (q mod T))%R) by (rewrite <- !mult_IZR, <- plus_IZR; f_equal; assumption).
  assert (B' : (0 <= IZR (q mod T) <= IZR T)%R) by (split; apply IZR_le; lia).
  split; [split; [apply Z.div_pos; lia|apply Z.div_le_upper_bound; lia]|].
  rewrite E'. unfold Rdiv. rewrite Rmult_plus_distr_r. replace (IZR T * IZR (q / T) * / IZR T)%R with (IZR (q / T)) by (field; lra).
  assert (0 <= IZR (q mod T) * / IZR T <= 1)%R; [|lra]. split; [apply Rmult_le_pos; [lra|left; apply Rinv_0_lt_compat; assumption]|].
  apply (Rmult_le_reg_r (IZR T)); [assumption|]. rewrite Rmult_assoc, Rinv_l by lra. lra.
Qed.
Fixpoint zip_mul (p x : list Z) : list Z := match p, x with a :: p, b :: x => fmul a b :: zip_mul p x | _, _ => [] end.
Fixpoint zsum (p : list Z) : Z := match p with a :: p => (a + zsum p)%Z | [] => 0%Z end.
(** p approximates the terms w_k x_k^j up to 2 j + 1 units *)
Definition close1 (j : nat) (p : Z) (v : R) : Prop := (0 <= p <= two80)%Z /\ (0 <= v <= 1)%R /\ (Rabs (v * IZR two80 - IZR p) <= 2 * INR j + 1)%R.
Inductive closes (j : nat) : list Z -> list Q -> list Q -> Prop :=
| closes_nil : closes j [] [] []
| closes_cons : forall p a b ps x w, close1 j p (Q2R b * Q2R a ^ j)%R -> unit_q a = true -> closes j ps x w -> closes j (p :: ps) (a :: x) (b :: w).
Lemma closes_step : forall j p x w, closes j p x w -> closes (S j) (zip_mul p (map fixed x)) x w.
Proof.
  intros j p x w H. induction H as [|p a b ps x w [Hp [Hv He]] Ua H IH]; cbn [map zip_mul]; constructor; try assumption.
  destruct (fixed_ok a Ua) as [Ra [Fa Ea]]. destruct (fmul_ok p (fixed a) Hp Fa) as [Hm Em].
  split; [assumption|]. split.
  - cbn [pow]. replace (Q2R b * (Q2R a * Q2R a ^ j))%R with ((Q2R b * Q2R a ^ j) * Q2R a)%R by ring.
    split; [apply Rmult_le_pos; lra|]. apply Rle_trans with (1 * 1)%R; [apply Rmult_le_compat; lra|lra].
  - cbn [pow]. replace (Q2R b * (Q2R a * Q2R a ^ j))%R with ((Q2R b * Q2R a ^ j) * Q2R a)%R by ring.
    set (v := (Q2R b * Q2R a ^ j)%R) in *. set (q := Q2R a) in *. set (T := IZR two80) in *. assert (HT : (0 < T)%R) by (apply IZR_lt; reflexivity).
    destruct Hp as [Hp1 Hp2]. apply IZR_le in Hp1, Hp2. fold T in Hp2. set (P := IZR p) in *. set (F := IZR (fixed a)) in *. set (M := IZR (fmul p (fixed a))) in *.
    assert (A1 : (Rabs ((v * T - P) * q) <= 2 * INR j + 1)%R).
    { rewrite Rabs_mult, (Rabs_right q) by lra. pose proof (Rabs_pos (v * T - P)). apply Rle_trans with (Rabs (v * T - P) * 1)%R; [apply Rmult_le_compat_l; lra|lra]. }
    assert (A2 : (0 <= P * q - P * F / T <= 1)%R).
    { replace (P * q - P * F / T)%R with (P / T * (q * T - F))%R by (field; lra).
      assert (0 <= P / T <= 1)%R.
      { unfold Rdiv. split; [apply Rmult_le_pos; [lra|left; apply Rinv_0_lt_compat; assumption]|]. apply (Rmult_le_reg_r T); [assumption|]. rewrite Rmult_assoc, Rinv_l by lra. lra. }
      split; [apply Rmult_le_pos; lra|]. apply Rle_trans with (1 * 1)%R; [apply Rmult_le_compat; lra|lra]. }
    rewrite S_INR. replace (v * q * T - M)%R with ((v * T - P) * q + ((P * q - P * F / T) + (P * F / T - M)))%R by ring.
    eapply Rle_trans; [apply Rabs_triang|]. assert (Rabs (P * q - P * F / T + (P * F / T - M)) <= 2)%R by (apply Rabs_le; lra). lra.
Qed.
Lemma closes_0 : forall x w, length x = length w -> forallb unit_q x = true -> forallb unit_q w = true -> closes 0 (map fixed w) x w.
Proof.
  induction x as [|a x IH]; intros [|b w] L Hx Hw; try discriminate; cbn [map]; constructor.
  - cbn [forallb] in Hw. apply andb_prop in Hw. destruct Hw as [Hb _]. destruct (fixed_ok b Hb) as [R0 [F0 E0]]. split; [assumption|].
    simpl pow. rewrite Rmult_1_r. split; [assumption|]. simpl INR. apply Rabs_le. lra.
  - cbn [forallb] in Hx. apply andb_prop in Hx. apply Hx.
  - cbn [forallb] in Hx, Hw. apply andb_prop in Hx. apply andb_prop in Hw. apply IH; [simpl in L; lia|apply Hx|apply Hw].
Qed.
Lemma closes_sum : forall j p x w, closes j p x w ->
  (Rabs (qmoment (map Q2R x) (map Q2R w) j * IZR two80 - IZR (zsum p)) <= INR (length x) * (2 * INR j + 1))%R.
Proof.
  intros j p x w H. induction H as [|p a b ps x w [_ [_ He]] _ H IH].
  - cbn [map qmoment zsum length]. rewrite Rmult_0_l, Rminus_0_r, Rabs_R0. simpl INR. lra.
  - cbn [map qmoment zsum]. change (length (a :: x)) with (S (length x)). rewrite plus_IZR, S_INR.
    replace ((Q2R b * Q2R a ^ j + qmoment (map Q2R x) (map Q2R w) j) * IZR two80 - (IZR p + IZR (zsum ps)))%R
      with ((Q2R b * Q2R a ^ j * IZR two80 - IZR p) + (qmoment (map Q2R x) (map Q2R w) j * IZR two80 - IZR (zsum ps)))%R by ring.
    eapply Rle_trans; [apply Rabs_triang|]. rewrite Rmult_plus_distr_r. lra.
Qed.
(** |moment_j - 1/(j+1)| <= 10^-20 for rules with at most 20 points and j < 40 *)
Definition tolerance : Z := Eval vm_compute in (two80 / 10 ^ 20 - 1580)%Z.
Fixpoint checks (fuel j : nat) (x p : list Z) : bool :=
  match fuel with
  | O => true
  | S f => ((Z.abs (Z.of_nat (S j) * zsum p - two80) <=? Z.of_nat (S j) * tolerance)%Z && checks f (S j) x (zip_mul p x))%bool
  end.
Lemma checks_ok : forall fuel j x w p, length x <= 20 -> closes j p x w -> checks fuel j (map fixed x) p = true ->
  forall i, i < fuel -> j + i < 40 -> (Rabs (qmoment (map Q2R x) (map Q2R w) (j + i) - / INR (S (j + i))) <= / 10 ^ 20)%R.
Proof.
  induction fuel as [|f IH]; intros j x w p L C H i Hi Hj; [lia|]. cbn [checks] in H. apply andb_prop in H. destruct H as [H1 H2].
  destruct i as [|i].
  - rewrite Nat.add_0_r in *. pose proof (closes_sum j p x w C) as S1. apply Z.leb_le, IZR_le in H1.
    rewrite abs_IZR, minus_IZR, !mult_IZR, <- INR_IZR_INZ in H1.
    set (m := qmoment (map Q2R x) (map Q2R w) j) in *. set (s := IZR (zsum p)) in *.
    assert (B : (INR (length x) * (2 * INR j + 1) <= 1580)%R).
    { assert (X1 : (INR (length x) <= 20)%R) by (replace 20%R with (INR 20) by (simpl; lra); apply le_INR; assumption).
      assert (X2 : (INR j <= 39)%R) by (replace 39%R with (INR 39) by (simpl; lra); apply le_INR; lia). pose proof (pos_INR j). pose proof (pos_INR (length x)).
      apply Rle_trans with (20 * (2 * 39 + 1))%R; [apply Rmult_le_compat; lra|lra]. }
    assert (N : (0 < INR (S j))%R) by (apply lt_0_INR; lia). set (n := INR (S j)) in *.
    assert (HT : (0 < IZR two80)%R) by (apply IZR_lt; reflexivity).
    assert (TT : (IZR tolerance + 1580 <= IZR two80 / 10 ^ 20)%R).
    { rewrite <- plus_IZR. apply (Rmult_le_reg_r (10 ^ 20)); [apply pow_lt; lra|]. unfold Rdiv. rewrite Rmult_assoc, Rinv_l, Rmult_1_r by (apply pow_nonzero; lra).
      rewrite (pow_IZR 10 20), <- mult_IZR. apply IZR_le. vm_compute. discriminate. }
    set (T := IZR two80) in *. set (t := IZR tolerance) in *. set (e := (/ 10 ^ 20)%R) in *.
    assert (S2 : (Rabs (s - T / n) <= t)%R).
    { replace (s - T / n)%R with ((n * s - T) / n)%R by (field; lra). unfold Rdiv. rewrite Rabs_mult, (Rabs_right (/ n)) by (apply Rle_ge; left; apply Rinv_0_lt_compat; assumption).
      apply (Rmult_le_reg_r n); [assumption|]. rewrite Rmult_assoc, Rinv_l by lra. lra. }
    apply (Rmult_le_reg_r T); [assumption|]. rewrite <- (Rabs_right T) at 1 by lra. rewrite <- Rabs_mult.
    replace ((m - / n) * T)%R with ((m * T - s) + (s - T / n))%R by (field; lra).
    eapply Rle_trans; [apply Rabs_triang|]. unfold Rdiv in TT. fold e in TT. lra.
  - rewrite <- Nat.add_succ_comm in *. apply (IH (S j) x w (zip_mul p (map fixed x))); auto; [apply closes_step; assumption|lia].
Qed.

(** the whole table *)
Definition increasing_b (x : list Q) : bool := forallb (fun k => if Qlt_le_dec (nth k x 0%Q) (nth (S k) x 0%Q) then true else false) (seq 0 (length x - 1)).
Definition rule_check (n : nat) (g : list Q * list Q) : bool :=
  let (x, w) := g in
  ((length x =? n) && (length w =? n) && forallb unit_q x && forallb unit_q w &&
   forallb (fun a => if Qlt_le_dec 0%Q a then if Qlt_le_dec a 1%Q then true else false else false) x &&
   forallb (fun b => if Qlt_le_dec 0%Q b then true else false) w &&
   increasing_b x &&
   forallb (fun k => if Qlt_le_dec (1 # 10 ^ 40) (Qabs (nth k x 0%Q + nth (n - 1 - k)%nat x 0%Q - 1)%Q) then false else Qeq_bool (nth k w 0%Q) (nth (n - 1 - k) w 0%Q)) (seq 0 n) &&
   checks (2 * n) 0 (map fixed x) (map fixed w))%bool%nat.
Lemma table_check : forall n g, gauss_table n = Some g -> rule_check n g = true /\ n <= 20.
Proof.
  assert (C : forallb (fun n => match gauss_table n with Some g => rule_check n g | None => true end) (seq 0 21) = true) by (vm_compute; reflexivity).
  intros n g H. destruct (Nat.lt_ge_cases n 21) as [L|L].
  - rewrite forallb_forall in C. specialize (C n ltac:(apply in_seq; lia)). rewrite H in C. split; [exact C|lia].
  - exfalso. do 21 (destruct n as [|n]; [lia|]). discriminate.
Qed.
