(** The Jacobi matrix has an orthogonal eigenvalue decomposition: the roots of the Legendre polynomials are real and distinct. *)
From Coq Require Import Reals Arith Bool List Lia Lra.
From Coquelicot Require Import Coquelicot.
From Verif Require Import RSum ModelQuad SpecInterp ProofInterp ProofGolub PropQuad ProofGauss.
Import ListNotations.
Local Open Scope R_scope.

Fixpoint rprod (f : nat -> R) (n : nat) : R := match n with O => 1 | S k => rprod f k * f k end.
Lemma poly_roots : forall n f y, polynomial (S n) f -> distinct n y -> (forall i, (i < n)%nat -> f (y i) = 0) -> exists c, forall t, f t = c * rprod (fun i => t - y i) n.
Proof.
  induction n as [|n IH]; intros f y P D Z.
  - destruct P as [c Hc]. exists (c 0%nat). intros t. rewrite (Hc t). cbn [rsum rprod pow]. ring.
  - destruct (poly_factor (S n) f (y n) P) as [q [Pq Eq]]. rewrite (Z n) in Eq by lia.
    destruct (IH q y Pq) as [c Hc]; [intros i j Hi Hj; apply D; lia| |exists c; intros t; rewrite Eq, Hc; cbn [rprod]; ring].
    intros i Hi. pose proof (Eq (y i)) as E. rewrite (Z i) in E by lia. assert (y i <> y n) by (apply D; lia). rewrite Rplus_0_l in E. symmetry in E. apply Rmult_integral in E. destruct E; [lra|assumption].
Qed.
Lemma sign_prod : forall n y z i, (i <= n)%nat -> (forall j, (j < i)%nat -> y j < z) -> (forall j, (i <= j < n)%nat -> z < y j) -> 0 < (-1) ^ (n - i) * rprod (fun j => z - y j) n.
Proof.
  induction n as [|n IH]; intros y z i Hi L U; [replace (0 - i)%nat with 0%nat by lia; cbn; lra|]. destruct (Nat.eq_dec i (S n)) as [->|Ne].
  - specialize (IH y z n (le_n n) ltac:(intros; apply L; lia) ltac:(intros; lia)). rewrite Nat.sub_diag in *. cbn [pow rprod] in *. specialize (L n ltac:(lia)). nra.
  - specialize (IH y z i ltac:(lia) L ltac:(intros; apply U; lia)). replace (S n - i)%nat with (S (n - i)) by lia. cbn [pow rprod]. specialize (U n ltac:(lia)). set (p := rprod _ n) in *. nra.
Qed.
Lemma choose : forall (P : nat -> R -> Prop) M, (forall i, (i < M)%nat -> exists c, P i c) -> exists c : nat -> R, forall i, (i < M)%nat -> P i (c i).
Proof.
  intros P M. induction M as [|M IH]; intros E; [exists (fun _ => 0); intros; lia|]. destruct IH as [c Hc]; [intros; apply E; lia|]. destruct (E M ltac:(lia)) as [d Hd].
  exists (fun i => if (i =? M)%nat then d else c i). intros i Hi. destruct (Nat.eqb_spec i M) as [->|N]; [exact Hd|apply Hc; lia].
Qed.
Lemma root_between : forall f a b s, (forall x, continuous f x) -> a < b -> s * s = 1 -> 0 < s * f b -> s * f a < 0 -> exists z, a < z < b /\ f z = 0.
Proof.
  intros f a b s Cf Hab Hs Hb Ha. assert (C : continuity (fun x => s * f x)).
  { intros x. apply continuity_pt_mult; [apply continuity_pt_const; intros u v; reflexivity|]. apply continuity_pt_filterlim. apply Cf. }
  destruct (IVT (fun x => s * f x) a b C Hab Ha Hb) as [z [[Z1 Z2] Z3]]. exists z. assert (f z = 0) by (assert (s <> 0) by nra; apply Rmult_integral in Z3; destruct Z3; [contradiction|assumption]).
  split; [|assumption]. split; apply Rnot_le_lt; intros Q; [replace z with a in * by lra|replace z with b in * by lra]; nra.
Qed.
Lemma increasing : forall n (p : nat -> R), (forall i, (i < n)%nat -> p i < p (S i)) -> forall i j, (i < j <= n)%nat -> p i < p j.
Proof.
  intros n p St i j. induction j as [|j IH]; intros H; [lia|]. destruct (Nat.eq_dec i j) as [->|N]; [apply St; lia|]. apply (Rlt_trans _ (p j)); [apply IH; lia|apply St; lia].
Qed.
Lemma sign_sq : forall k, (-1) ^ k * (-1) ^ k = 1.
Proof. intros k. rewrite <- Rpow_mult_distr. replace (-1 * -1) with 1 by ring. apply pow1. Qed.
(** the roots of leg (n+1), with the signs of leg n there *)
Lemma roots_exist : forall n, exists y : nat -> R, (forall i, (i < n)%nat -> y i < y (S i)) /\ (forall i, (i <= n)%nat -> leg (S n) (y i) = 0) /\ (forall i, (i <= n)%nat -> 0 < (-1) ^ (n - i) * leg n (y i)).
Proof.
  induction n as [|n [y [Inc [Rt Sg]]]].
  - exists (fun _ => 0). split; [intros; lia|]. split; [intros; apply leg_1|]. intros i Hi. rewrite leg_0. cbn. lra.
  - set (p := fun k => match k with O => -1 | S j => if (j <=? n)%nat then y j else 1 end).
    assert (Pv : forall j, (j <= n)%nat -> p (S j) = y j) by (intros j Hj; unfold p; destruct (Nat.leb_spec j n); [reflexivity|lia]).
    assert (Pe : p (S (S n)) = 1) by (unfold p; destruct (Nat.leb_spec (S n) n); [lia|reflexivity]).
    assert (St : forall k, (k < S (S n))%nat -> p k < p (S k)).
    { intros [|k] Hk; [rewrite Pv by lia; change (p 0%nat) with (-1); apply (leg_root_range (S n)), Rt; lia|]. rewrite Pv by lia. destruct (Nat.eq_dec k n) as [->|N]; [rewrite Pe; apply (leg_root_range (S n)), Rt; lia|]. rewrite Pv by lia. apply Inc. lia. }
    assert (Sp : forall k, (k <= S (S n))%nat -> 0 < (-1) ^ (S (S n) - k) * leg (S (S n)) (p k)).
    { intros [|k] Hk.
      - change (p 0%nat) with (-1). rewrite (proj1 (leg_at_m1 (S (S n)))), Nat.sub_0_r, sign_sq. lra.
      - destruct (Nat.eq_dec k (S n)) as [->|N]; [rewrite Pe, (proj1 (leg_at_1 (S (S n)))), Nat.sub_diag; cbn; lra|]. rewrite Pv by lia. pose proof (leg_rec n (y k)) as E. rewrite (Rt k) in E by lia.
        specialize (Sg k ltac:(lia)). replace (S (S n) - S k)%nat with (S (n - k)) by lia. cbn [pow]. pose proof (pos_INR n) as P0. set (s := (-1) ^ (n - k)) in *. set (a := leg n (y k)) in *. set (b := leg (S (S n)) (y k)) in *.
        apply (Rmult_lt_reg_l (INR n + 2)); [lra|]. replace ((INR n + 2) * (-1 * s * b)) with (-1 * s * ((INR n + 2) * b)) by ring. rewrite E. replace (-1 * s * ((2 * INR n + 3) * y k * 0 - (INR n + 1) * a)) with ((INR n + 1) * (s * a)) by ring. rewrite Rmult_0_r. apply Rmult_lt_0_compat; lra. }
    destruct (choose (fun k z => p k < z < p (S k) /\ leg (S (S n)) z = 0) (S (S n))) as [z Hz].
    { intros k Hk. apply (root_between _ _ _ ((-1) ^ (S (S n) - S k))); [apply leg_cont|apply St, Hk|apply sign_sq|apply Sp; lia|]. specialize (Sp k ltac:(lia)). replace (S (S n) - k)%nat with (S (S (S n) - S k)) in Sp by lia. cbn [pow] in Sp. lra. }
    exists z. split; [|split].
    + intros i Hi. destruct (Hz i ltac:(lia)) as [[_ A] _]. destruct (Hz (S i) ltac:(lia)) as [[B _] _]. lra.
    + intros i Hi. apply Hz. lia.
    + intros i Hi. pose proof (increasing (S (S n)) p St) as Mo.
      assert (Dy : distinct (S n) y). { intros a b Ha Hb N E. pose proof (increasing n y Inc) as My. destruct (Nat.lt_trichotomy a b) as [L|[L|L]]; [specialize (My a b ltac:(lia)); lra|contradiction|specialize (My b a ltac:(lia)); lra]. }
      destruct (poly_roots (S n) (leg (S n)) y (leg_poly (S n)) Dy) as [c Hc]; [intros j Hj; apply Rt; lia|].
      assert (Cp : 0 < c).
      { pose proof (Hc 1) as E. rewrite (proj1 (leg_at_1 (S n))) in E. pose proof (sign_prod (S n) y 1 (S n) (le_n _) ltac:(intros j Hj; apply (leg_root_range (S n)), Rt; lia) ltac:(intros; lia)) as Q. rewrite Nat.sub_diag in Q. cbn [pow] in Q. set (q := rprod _ _) in *. nra. }
      destruct (Hz i ltac:(lia)) as [[A B] _]. pose proof (sign_prod (S n) y (z i) i Hi) as Q. rewrite Hc. replace ((-1) ^ (S n - i) * (c * rprod (fun j => z i - y j) (S n))) with (c * ((-1) ^ (S n - i) * rprod (fun j => z i - y j) (S n))) by ring.
      apply Rmult_lt_0_compat; [exact Cp|]. apply Q.
      * intros j Hj. rewrite <- Pv by lia. destruct (Nat.eq_dec (S j) i) as [->|N]; [exact A|]. specialize (Mo (S j) i ltac:(lia)). lra.
      * intros j Hj. rewrite <- Pv by lia. destruct (Nat.eq_dec i j) as [->|N]; [exact B|]. specialize (Mo (S i) (S j) ltac:(lia)). lra.
Qed.
Lemma nleg_poly : forall r n, (r < n)%nat -> polynomial n (nleg r).
Proof. intros r n H. apply (poly_ext _ (fun x => sqrt (2 * INR r + 1) * leg r x)); [reflexivity|]. apply poly_scal. apply (poly_mono (S r)); [lia|apply leg_poly]. Qed.
(** the rows of the matrix of the values at n distinct points are linearly independent *)
Lemma nleg_independent : forall n lam b, distinct n lam -> (forall i, (i < n)%nat -> rsum (fun r => b r * nleg r (lam i)) n = 0) -> forall s, (s < n)%nat -> b s = 0.
Proof.
  intros n lam b D Z s Hs. assert (F : forall x, rsum (fun r => b r * nleg r x) n = 0).
  { apply (poly_zero n (fun x => rsum (fun r => b r * nleg r x) n) lam); [|exact D|exact Z]. apply (poly_sum n n (fun r x => b r * nleg r x)). intros r Hr. apply poly_scal, nleg_poly, Hr. }
  assert (M : mean (fun x => rsum (fun r => b r * (nleg r x * nleg s x)) n) = b s).
  { rewrite (mean_rsum (fun r x => b r * (nleg r x * nleg s x))) by (intros; apply cont_scal, cont_mult; apply nleg_cont).
    rewrite (rsum_single _ n s Hs); [rewrite mean_scal by (apply cont_mult; apply nleg_cont); rewrite nleg_orth, Nat.eqb_refl; ring|].
    intros r Hr N. rewrite mean_scal by (apply cont_mult; apply nleg_cont). rewrite nleg_orth. destruct (Nat.eqb_spec r s); [contradiction|ring]. }
  rewrite <- M, <- mean_const0. apply mean_ext. intros x. rewrite (rsum_ext _ (fun r => b r * nleg r x * nleg s x)) by (intros; ring). rewrite rsum_scal_r, F. ring.
Qed.
Theorem decomposition_exists : forall n, (0 < n)%nat -> exists lam V, eigen_decomposition n jacobi lam V.
Proof.
  intros n Hn. destruct n as [|k]; [lia|]. destruct (roots_exist k) as [lam [Inc [Rt _]]]. set (n := S k) in *.
  assert (D : distinct n lam). { intros a b Ha Hb N E. pose proof (increasing k lam Inc) as My. destruct (Nat.lt_trichotomy a b) as [L|[L|L]]; [specialize (My a b ltac:(unfold n in *; lia)); lra|contradiction|specialize (My b a ltac:(unfold n in *; lia)); lra]. }
  set (N2 := fun i => rsum (fun r => nleg r (lam i) * nleg r (lam i)) n).
  assert (Np : forall i, 0 < N2 i).
  { intros i. unfold N2, n. rewrite rsum_shift, nleg_0. assert (0 <= rsum (fun r => nleg (S r) (lam i) * nleg (S r) (lam i)) k) by (apply rsum_nonneg; intros; nra). lra. }
  set (V := fun r i => nleg r (lam i) / sqrt (N2 i)).
  assert (Sp : forall i, 0 < sqrt (N2 i)) by (intros i; apply sqrt_lt_R0, Np).
  assert (Eig : forall r i, (r < n)%nat -> (i < n)%nat -> rsum (fun s => jacobi r s * V s i) n = lam i * V r i).
  { intros r i Hr Hi. pose proof (Sp i) as Si. rewrite (rsum_ext _ (fun s => jacobi r s * nleg s (lam i) * / sqrt (N2 i))) by (intros; unfold V, Rdiv; ring). rewrite rsum_scal_r. rewrite (jacobi_row n r (fun s => nleg s (lam i)) Hr).
    unfold V, Rdiv. rewrite <- Rmult_assoc, (x_nleg r (lam i)). f_equal. f_equal. destruct (Nat.ltb_spec (S r) n) as [L|L]; [reflexivity|].
    assert (Er : S r = n) by lia. rewrite Er. assert (Z : nleg n (lam i) = 0) by (apply nleg_leg; apply Rt; unfold n in *; lia). rewrite Z. ring. }
  assert (Cols : forall i j, (i < n)%nat -> (j < n)%nat -> rsum (fun r => V r i * V r j) n = if (i =? j)%nat then 1 else 0).
  { intros i j Hi Hj. destruct (Nat.eqb_spec i j) as [<-|Nij].
    - rewrite (rsum_ext _ (fun r => nleg r (lam i) * nleg r (lam i) * / (sqrt (N2 i) * sqrt (N2 i)))) by (intros; unfold V; field; pose proof (Sp i); lra). rewrite rsum_scal_r. fold (N2 i). rewrite sqrt_sqrt by (apply Rlt_le, Np). field. pose proof (Np i). lra.
    - assert (T : lam i * rsum (fun r => V r i * V r j) n = lam j * rsum (fun r => V r i * V r j) n).
      { rewrite <- !rsum_scal.
        rewrite (rsum_ext (fun r => lam i * (V r i * V r j)) (fun r => rsum (fun s => jacobi r s * V s i * V r j) n)) by (intros r Hr; rewrite rsum_scal_r, (Eig r i Hr Hi); ring).
        rewrite rsum_swap. apply rsum_ext. intros s Hs. rewrite (rsum_ext _ (fun r => V s i * (jacobi s r * V r j))) by (intros r Hr; rewrite (jacobi_sym r s); ring). rewrite rsum_scal, (Eig s j Hs Hj). ring. }
      assert (Ne : lam i <> lam j) by (apply D; assumption). set (x := rsum _ n) in *. assert (Z : (lam i - lam j) * x = 0) by lra. apply Rmult_integral in Z. destruct Z; [lra|assumption]. }
  exists lam, V. split; [exact Eig|]. split; [|exact Cols].
  intros r s Hr Hs. set (b := fun s => (if (r =? s)%nat then 1 else 0) - rsum (fun i => V r i * V s i) n).
  assert (Z : b s = 0); [|unfold b in Z; lra]. apply (nleg_independent n lam b D); [|exact Hs]. intros j Hj.
  assert (Q : rsum (fun s => b s * V s j) n = 0).
  { unfold b. rewrite (rsum_ext _ (fun s => (if (r =? s)%nat then 1 else 0) * V s j - rsum (fun i => V r i * V s i) n * V s j)) by (intros; ring). rewrite rsum_minus.
    rewrite (rsum_single (fun s => (if (r =? s)%nat then 1 else 0) * V s j) n r Hr) by (intros t Ht Nt; destruct (Nat.eqb_spec r t); [congruence|ring]). rewrite Nat.eqb_refl.
    rewrite (rsum_ext (fun s => rsum (fun i => V r i * V s i) n * V s j) (fun s => rsum (fun i => V r i * (V s i * V s j)) n)) by (intros t Ht; rewrite <- rsum_scal_r; apply rsum_ext; intros; ring).
    rewrite rsum_swap. rewrite (rsum_ext _ (fun i => V r i * (if (i =? j)%nat then 1 else 0))) by (intros i Hi; rewrite rsum_scal, (Cols i j Hi Hj); reflexivity).
    rewrite (rsum_single (fun i => V r i * (if (i =? j)%nat then 1 else 0)) n j Hj) by (intros t Ht Nt; destruct (Nat.eqb_spec t j); [congruence|ring]). rewrite Nat.eqb_refl. ring. }
  pose proof (Sp j) as Sj. rewrite (rsum_ext _ (fun s => b s * V s j * sqrt (N2 j))) by (intros; unfold V; field; lra). rewrite rsum_scal_r, Q. ring.
Qed.
