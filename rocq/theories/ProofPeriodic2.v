(** The jumps of the solid harmonics over the faces of the unit cube determine the coefficients. *)
From Coq Require Import Reals Arith Bool List Lia Lra ZArith.
From Coquelicot Require Import Coquelicot.
From Verif Require Import ModelBase RSum ModelBall ModelOperators SpecOperators ProofOperators ProofPotential SpecInterp ProofInterp ModelSpherical SpecSpherical SpecHomogenised SpecCoefficients
  ProofSpherical ProofSphericalTable ProofSphericalCode ProofHomogenised PropSpherical ProofCoefficients ProofPeriodic.
Import ListNotations.
Local Open Scope R_scope.

Lemma sign_odd : forall k, (-1) ^ k = if Nat.odd k then -1 else 1.
Proof. induction k as [|k IH]; [reflexivity|]. rewrite Nat.odd_succ, <- Nat.negb_odd. cbn [pow]. rewrite IH. destruct (Nat.odd k); cbn [negb]; ring. Qed.
Lemma H_mirror : forall n m z s, (m <= n)%nat -> H n m (- z) s = (-1) ^ (n - m) * H n m z s.
Proof. intros n m z s Hm. rewrite <- (proj1 (H_scale n (-1) z s) m Hm). f_equal; ring. Qed.
Lemma H1_mirror : forall n m z s, (m <= n)%nat -> H1 n m (- z) s = (-1) ^ (n - 1 - m) * H1 n m z s.
Proof.
  intros n m z s Hm. destruct (Nat.eq_dec m n) as [->|N]; [rewrite !H1_high by lia; ring|]. destruct n as [|n]; [lia|]. rewrite !H1_S. replace (S n - 1 - m)%nat with (n - m)%nat by lia. apply H_mirror. lia.
Qed.
Lemma Re_mirror : forall m x y, Re m (- x) y = (-1) ^ m * Re m x y.
Proof. intros m x y. apply Re_parity. Qed.

Definition s2 (a b : R) : R := a * a + b * b + 1 / 4.
Definition zv (n m : nat) (a b : R) : R := if Nat.odd (n - m) then H n m (1 / 2) (s2 a b) * Re m a b else 0.
Definition zs (n m : nat) (a b : R) : R := if Nat.odd (n - 1 - m) then (INR n + INR m) * (H1 n m (1 / 2) (s2 a b) * Re m a b) else 0.
Definition xv (n m : nat) (a b : R) : R := if Nat.odd m then H n m b (s2 a b) * Re m (1 / 2) a else 0.
Definition xs (n m : nat) (a b : R) : R := if Nat.odd m then 0 else -1 / 2 * (H1 n (S m) b (s2 a b) * Re m (1 / 2) a) + INR m * (H n m b (s2 a b) * Re (m - 1) (1 / 2) a).

Lemma solid_re : forall n m x, (m <= n)%nat -> x <> (0, 0, 0) -> fst (solid n m x) = harmonic_norm n m * (Hx n m x * Re m (vx x) (vy x)).
Proof. intros n m x Hm Xn. rewrite (solid_value n m x Hm Xn). unfold Cmult, RtoC, W, Re. cbn [fst snd]. ring. Qed.
Lemma solid_slope : forall n m x d, (m <= n)%nat -> x <> (0, 0, 0) -> slope (fun z => fst (solid n m z)) x d =
  harmonic_norm n m * ((H n (S m) (vz x) (vdot x x) * vz d - H1 n (S m) (vz x) (vdot x x) * vdot x d) * Re m (vx x) (vy x) + Hx n m x * fst (Cmult (RtoC (INR m)) (Cmult (vx d, vy d) (W x (m - 1))))).
Proof.
  intros n m x d Hm Xn. apply slope_eq. apply (dir_ext_off (fun z => harmonic_norm n m * (Hx n m z * fst (W z m))) _ x (0, 0, 0)); [exact Xn|intros z Hz; rewrite (solid_re n m z Hm Hz); reflexivity|].
  apply (dir_scal (fun z => Hx n m z * fst (W z m))). apply (dir_mult (Hx n m) (fun z => fst (W z m))); [apply dir_H|exact (proj1 (dir_pow m x d))].
Qed.
Lemma jump_z : forall n m a b, (m <= n)%nat -> vjump 2 (a, b) n m = -2 * harmonic_norm n m * zv n m a b.
Proof.
  intros n m a b Hm. unfold vjump, jump. cbn [fst snd]. destruct (face_nonzero 2 a b) as [A B]. rewrite (solid_re n m _ Hm A), (solid_re n m _ Hm B).
  unfold Hx, face, axis, vadd, e3, vdot, vx, vy, vz. cbn [fst snd]. rewrite !Rplus_0_r. replace (-1 / 2 + 1) with (1 / 2) by field. replace (a * a + b * b + -1 / 2 * (-1 / 2)) with (s2 a b) by (unfold s2; field). replace (a * a + b * b + 1 / 2 * (1 / 2)) with (s2 a b) by (unfold s2; field).
  replace (-1 / 2) with (- (1 / 2)) by field. rewrite H_mirror, sign_odd by exact Hm. unfold zv. destruct (Nat.odd (n - m)); ring.
Qed.
Lemma slope_z : forall n m a b, (m <= n)%nat -> sjump 2 (a, b) n m = -2 * harmonic_norm n m * zs n m a b.
Proof.
  intros n m a b Hm. unfold sjump, normal_jump. cbn [fst snd]. destruct (face_nonzero 2 a b) as [A B]. rewrite (solid_slope n m _ _ Hm A), (solid_slope n m _ _ Hm B).
  unfold Hx, face, axis, vadd, e3, vdot, W, Cmult, RtoC, vx, vy, vz. cbn [fst snd]. rewrite !Rplus_0_r. replace (-1 / 2 + 1) with (1 / 2) by field. replace (a * a + b * b + -1 / 2 * (-1 / 2)) with (s2 a b) by (unfold s2; field). replace (a * a + b * b + 1 / 2 * (1 / 2)) with (s2 a b) by (unfold s2; field).
  replace (-1 / 2) with (- (1 / 2)) by field. pose proof (relG n m (- (1 / 2)) (s2 a b)) as E1. pose proof (relG n m (1 / 2) (s2 a b)) as E2. rewrite (H1_mirror n m), sign_odd in E1 by exact Hm.
  transitivity (harmonic_norm n m * ((H n (S m) (- (1 / 2)) (s2 a b) - - (1 / 2) * H1 n (S m) (- (1 / 2)) (s2 a b)) * Re m a b) - harmonic_norm n m * ((H n (S m) (1 / 2) (s2 a b) - 1 / 2 * H1 n (S m) (1 / 2) (s2 a b)) * Re m a b)); [ring|].
  rewrite E1, E2. unfold zs. destruct (Nat.odd (n - 1 - m)); ring.
Qed.
Lemma jump_x : forall n m a b, (m <= n)%nat -> vjump 0 (a, b) n m = -2 * harmonic_norm n m * xv n m a b.
Proof.
  intros n m a b Hm. unfold vjump, jump. cbn [fst snd]. destruct (face_nonzero 0 a b) as [A B]. rewrite (solid_re n m _ Hm A), (solid_re n m _ Hm B).
  unfold Hx, face, axis, vadd, e1, vdot, vx, vy, vz. cbn [fst snd]. rewrite !Rplus_0_r. replace (-1 / 2 + 1) with (1 / 2) by field. replace (-1 / 2 * (-1 / 2) + a * a + b * b) with (s2 a b) by (unfold s2; field). replace (1 / 2 * (1 / 2) + a * a + b * b) with (s2 a b) by (unfold s2; field).
  replace (-1 / 2) with (- (1 / 2)) by field. rewrite Re_mirror, sign_odd. unfold xv. destruct (Nat.odd m); ring.
Qed.
Lemma slope_x : forall n m a b, (m <= n)%nat -> sjump 0 (a, b) n m = -2 * harmonic_norm n m * xs n m a b.
Proof.
  intros n m a b Hm. unfold sjump, normal_jump. cbn [fst snd]. destruct (face_nonzero 0 a b) as [A B]. rewrite (solid_slope n m _ _ Hm A), (solid_slope n m _ _ Hm B).
  unfold Hx, face, axis, vadd, e1, vdot, W, Cmult, RtoC, vx, vy, vz. cbn [fst snd]. rewrite !Rplus_0_r. replace (-1 / 2 + 1) with (1 / 2) by field. replace (-1 / 2 * (-1 / 2) + a * a + b * b) with (s2 a b) by (unfold s2; field). replace (1 / 2 * (1 / 2) + a * a + b * b) with (s2 a b) by (unfold s2; field).
  replace (-1 / 2) with (- (1 / 2)) by field.
  transitivity (harmonic_norm n m * (1 / 2 * (H1 n (S m) b (s2 a b) * Re m (- (1 / 2)) a) + INR m * (H n m b (s2 a b) * Re (m - 1) (- (1 / 2)) a)) - harmonic_norm n m * (- (1 / 2) * (H1 n (S m) b (s2 a b) * Re m (1 / 2) a) + INR m * (H n m b (s2 a b) * Re (m - 1) (1 / 2) a))); [unfold Re; ring|].
  rewrite !Re_mirror, !sign_odd. unfold xs. destruct m as [|m]; [cbn [Nat.odd Nat.even negb INR]; field|].
  replace (S m - 1)%nat with m by lia. rewrite Nat.odd_succ, <- Nat.negb_odd. destruct (Nat.odd m); cbn [negb]; field.
Qed.

(** ** sums over the degrees 0 .. N *)
Definition tsum (N : nat) (c F : nat -> nat -> R) : R := rsum (fun n => rsum (fun m => c n m * F n m) (n + 1)) (N + 1).
Lemma grid_zero : forall K f x, (forall b, polynomial K (fun a => f a b)) -> (forall a, polynomial K (f a)) -> distinct K x ->
  (forall i j, (i < K)%nat -> (j < K)%nat -> f (x i) (x j) = 0) -> forall a b, f a b = 0.
Proof.
  intros K f x Pa Pb D Z a b. apply (poly_zero K (f a) x (Pb a) D). intros j Hj. apply (poly_zero K (fun a => f a (x j)) x (Pa (x j)) D). intros i Hi. apply Z; assumption.
Qed.
Lemma poly_tsum : forall K N c (F : nat -> nat -> R -> R), (forall n m, (n <= N)%nat -> (m <= n)%nat -> polynomial K (F n m)) -> polynomial K (fun t => tsum N c (fun n m => F n m t)).
Proof.
  intros K N c F P. unfold tsum. apply (poly_sum K (N + 1) (fun n t => rsum (fun m => c n m * F n m t) (n + 1))). intros n Hn.
  apply (poly_sum K (n + 1) (fun m t => c n m * F n m t)). intros m Hm. apply poly_scal. apply P; lia.
Qed.
Lemma poly_c : forall k c, (0 < k)%nat -> polynomial k (fun _ => c).
Proof. intros. apply poly_const. lia. Qed.
Lemma poly_t : polynomial 2 (fun t => t).
Proof. apply (poly_ext _ (fun t => t * 1)); [intros; ring|]. apply (poly_id_mul 1 (fun _ => 1)). apply poly_c. lia. Qed.
Lemma poly_s2a : forall b, polynomial 3 (fun a => s2 a b).
Proof. intros b. unfold s2. apply (poly_ext _ (fun a => a * a + (b * b + 1 / 4))); [intros; ring|]. apply poly_plus; [apply (poly_id_mul 2 (fun a => a)), poly_t|apply poly_c; lia]. Qed.
Lemma poly_s2b : forall a, polynomial 3 (fun b => s2 a b).
Proof. intros a. unfold s2. apply (poly_ext _ (fun b => b * b + (a * a + 1 / 4))); [intros; ring|]. apply poly_plus; [apply (poly_id_mul 2 (fun a => a)), poly_t|apply poly_c; lia]. Qed.
Lemma poly_HR : forall n m k z s x y, polynomial 2 z -> polynomial 3 s -> polynomial 2 x -> polynomial 2 y -> (k <= m)%nat -> polynomial (n + 1) (fun t => H n m (z t) (s t) * Re k (x t) (y t)).
Proof.
  intros n m k z s x y Pz Ps Px Py Hk. destruct (Nat.le_gt_cases m n) as [Hm|Hm].
  - apply (poly_mono (n - m + 1 + k)); [lia|]. apply (poly_mult (n - m + 1) k (fun t => H n m (z t) (s t)) (fun t => Re k (x t) (y t))); [apply H_poly; assumption|apply Re_poly; assumption].
  - apply (poly_mono 0); [lia|]. apply poly_0. intros t. rewrite H_high by exact Hm. ring.
Qed.
Lemma poly_H1R : forall n m k z s x y, polynomial 2 z -> polynomial 3 s -> polynomial 2 x -> polynomial 2 y -> (k <= m)%nat -> polynomial (n + 1) (fun t => H1 n m (z t) (s t) * Re k (x t) (y t)).
Proof.
  intros [|n] m k z s x y Pz Ps Px Py Hk; [apply (poly_mono 0); [lia|]; apply poly_0; intros t; rewrite H1_O; ring|].
  apply (poly_mono (n + 1)); [lia|]. apply (poly_ext _ (fun t => H n m (z t) (s t) * Re k (x t) (y t))); [intros; rewrite H1_S; reflexivity|]. apply poly_HR; assumption.
Qed.
Lemma poly_nil : forall k, polynomial k (fun _ => 0).
Proof. intros k. apply (poly_mono 0); [lia|]. apply poly_0. reflexivity. Qed.
Lemma four_poly : forall N n m, (n <= N)%nat ->
  ((forall b, polynomial (N + 1) (fun a => zv n m a b)) /\ (forall a, polynomial (N + 1) (fun b => zv n m a b))) /\
  ((forall b, polynomial (N + 1) (fun a => zs n m a b)) /\ (forall a, polynomial (N + 1) (fun b => zs n m a b))) /\
  ((forall b, polynomial (N + 1) (fun a => xv n m a b)) /\ (forall a, polynomial (N + 1) (fun b => xv n m a b))) /\
  ((forall b, polynomial (N + 1) (fun a => xs n m a b)) /\ (forall a, polynomial (N + 1) (fun b => xs n m a b))).
Proof.
  intros N n m Hn. assert (Up : forall f, polynomial (n + 1) f -> polynomial (N + 1) f) by (intros f P; apply (poly_mono (n + 1)); [lia|exact P]).
  pose proof poly_t as Pt. assert (Pc : forall c, polynomial 2 (fun _ => c)) by (intros; apply poly_c; lia).
  unfold zv, zs, xv, xs. repeat split; intros q; apply Up.
  - destruct (Nat.odd (n - m)); [|apply poly_nil]. apply (poly_HR n m m (fun _ => 1 / 2) (fun a => s2 a q) (fun a => a) (fun _ => q)); auto using poly_s2a.
  - destruct (Nat.odd (n - m)); [|apply poly_nil]. apply (poly_HR n m m (fun _ => 1 / 2) (fun b => s2 q b) (fun _ => q) (fun b => b)); auto using poly_s2b.
  - destruct (Nat.odd (n - 1 - m)); [|apply poly_nil]. apply poly_scal. apply (poly_H1R n m m (fun _ => 1 / 2) (fun a => s2 a q) (fun a => a) (fun _ => q)); auto using poly_s2a.
  - destruct (Nat.odd (n - 1 - m)); [|apply poly_nil]. apply poly_scal. apply (poly_H1R n m m (fun _ => 1 / 2) (fun b => s2 q b) (fun _ => q) (fun b => b)); auto using poly_s2b.
  - destruct (Nat.odd m); [|apply poly_nil]. apply (poly_HR n m m (fun _ => q) (fun a => s2 a q) (fun _ => 1 / 2) (fun a => a)); auto using poly_s2a.
  - destruct (Nat.odd m); [|apply poly_nil]. apply (poly_HR n m m (fun b => b) (fun b => s2 q b) (fun _ => 1 / 2) (fun _ => q)); auto using poly_s2b.
  - destruct (Nat.odd m); [apply poly_nil|]. apply poly_plus; apply poly_scal; [apply (poly_H1R n (S m) m (fun _ => q) (fun a => s2 a q) (fun _ => 1 / 2) (fun a => a))|apply (poly_HR n m (m - 1) (fun _ => q) (fun a => s2 a q) (fun _ => 1 / 2) (fun a => a))]; auto using poly_s2a; lia.
  - destruct (Nat.odd m); [apply poly_nil|]. apply poly_plus; apply poly_scal; [apply (poly_H1R n (S m) m (fun b => b) (fun b => s2 q b) (fun _ => 1 / 2) (fun _ => q))|apply (poly_HR n m (m - 1) (fun b => b) (fun b => s2 q b) (fun _ => 1 / 2) (fun _ => q))]; auto using poly_s2b; lia.
Qed.

(** ** elimination *)
Lemma tsum_top : forall N c F, tsum (S N) c F = tsum N c F + rsum (fun m => c (S N) m * F (S N) m) (S N + 1).
Proof. intros N c F. unfold tsum. replace (S N + 1)%nat with (N + 1 + 1)%nat by lia. rewrite (rsum_split _ (N + 1) 1). f_equal. unfold rsum at 1. rewrite Rplus_0_l, Nat.add_0_r. replace (N + 1)%nat with (S N) by lia. reflexivity. Qed.
Lemma H_const : forall k z s, H k k z s = H k k 0 0.
Proof. induction k as [|k IH]; intros; [reflexivity|]. rewrite !H_diag, IH. reflexivity. Qed.
Lemma polar : forall u v t, u * u + v * v = 1 -> s2 (t * u) (t * v) = t * t + 1 / 4.
Proof. intros u v t E. unfold s2. replace (t * u * (t * u) + t * v * (t * v)) with (t * t * (u * u + v * v)) by ring. rewrite E. ring. Qed.
Lemma odd_values : forall N c, (forall a b, tsum N c (fun n m => zv n m a b) = 0) -> forall m, (m <= N)%nat -> Nat.odd (N - m) = true -> c N m = 0.
Proof.
  intros N c Z m Hm O. pose proof (top_zero N (fun n m => if Nat.odd (n - m) then c n m else 0)) as T.
  assert (E : (if Nat.odd (N - m) then c N m else 0) = 0); [|rewrite O in E; exact E]. apply T; [| |exact Hm].
  - intros n k _ _ Ev. cbv beta. rewrite Ev. reflexivity.
  - intros u v t C _. etransitivity; [|apply (Z (t * u) (t * v))]. unfold tsum. apply rsum_ext. intros n _. apply rsum_ext. intros k _. unfold zv. rewrite (polar u v t C), Re_scale. unfold hh. cbv beta. destruct (Nat.odd (n - k)); ring.
Qed.
Lemma even_slopes : forall N c, (forall a b, tsum (S N) c (fun n m => zs n m a b) = 0) -> forall m, (m <= N)%nat -> Nat.odd (N - m) = true -> c (S N) m = 0.
Proof.
  intros N c Z m Hm O. pose proof (top_zero N (fun n m => if Nat.odd (n - m) then c (S n) m * (INR (S n) + INR m) else 0)) as T.
  assert (E : (if Nat.odd (N - m) then c (S N) m * (INR (S N) + INR m) else 0) = 0).
  - apply T; [| |exact Hm].
    + intros n k _ _ Ev. cbv beta. rewrite Ev. reflexivity.
    + intros u v t C _. etransitivity; [|apply (Z (t * u) (t * v))]. unfold tsum. replace (S N + 1)%nat with (S (N + 1)) by lia. rewrite rsum_shift.
      replace (rsum (fun k => c 0%nat k * zs 0 k (t * u) (t * v)) (0 + 1)) with 0 by (cbn [Nat.add rsum]; unfold zs; cbn [Nat.sub Nat.odd Nat.even negb]; ring). rewrite Rplus_0_l.
      apply rsum_ext. intros n _. replace (S n + 1)%nat with (S (n + 1)) by lia. cbn [rsum].
      replace (zs (S n) (n + 1) (t * u) (t * v)) with 0 by (unfold zs; replace (S n - 1 - (n + 1))%nat with 0%nat by lia; reflexivity). rewrite Rmult_0_r, Rplus_0_r.
      apply rsum_ext. intros k _. unfold zs. rewrite (polar u v t C), Re_scale, H1_S. unfold hh. cbv beta. replace (S n - 1 - k)%nat with (n - k)%nat by lia. destruct (Nat.odd (n - k)); ring.
  - rewrite O in E. apply Rmult_integral in E. destruct E as [E|E]; [exact E|]. rewrite S_INR in E. pose proof (pos_INR N). pose proof (pos_INR m). lra.
Qed.
Lemma below_diag : forall N c, (forall a b, tsum (S N) c (fun n m => zv n m a b) = 0) -> (forall a b, tsum (S N) c (fun n m => zs n m a b) = 0) -> forall m, (m <= N)%nat -> c (S N) m = 0.
Proof.
  intros N c Z1 Z2 m Hm. destruct (Nat.odd (N - m)) eqn:O; [apply (even_slopes N c Z2 m Hm O)|]. apply (odd_values (S N) c Z1 m); [lia|].
  replace (S N - m)%nat with (S (N - m)) by lia. rewrite Nat.odd_succ, <- Nat.negb_odd, O. reflexivity.
Qed.
Lemma Re_odd_poly : forall m, Nat.odd m = true -> polynomial m (Re m (1 / 2)).
Proof.
  intros m O. apply Nat.odd_spec in O. destruct O as [j ->]. destruct (proj2 (Re_lead j)) as [c [L _]]. replace (2 * j + 1)%nat with (S (2 * j)) at 1 by lia. apply (lead_poly _ c), L.
Qed.
Lemma xv_poly : forall n m, (m <= n)%nat -> polynomial n (fun a => xv n m a 0).
Proof.
  intros n m Hm. unfold xv. destruct (Nat.odd m) eqn:O; [|apply poly_nil]. replace n with (m + (n - m))%nat at 1 by lia.
  apply (poly_ext _ (fun a => Re m (1 / 2) a * H n m 0 (s2 a 0))); [intros; ring|]. apply (poly_mult m (n - m) (Re m (1 / 2)) (fun a => H n m 0 (s2 a 0))); [apply Re_odd_poly, O|].
  replace (S (n - m)) with (n - m + 1)%nat by lia. apply (H_poly n m (fun _ => 0) (fun a => s2 a 0)); [apply poly_c; lia|apply poly_s2a|exact Hm].
Qed.
Lemma xs_poly : forall n m, (m <= n)%nat -> polynomial (n - 1) (fun a => xs n m a 0).
Proof.
  intros n m Hm. unfold xs. destruct (Nat.odd m) eqn:O; [apply poly_nil|]. apply poly_plus.
  - apply poly_scal. destruct (Nat.le_gt_cases (S m) (n - 1)) as [L|L].
    + destruct n as [|n]; [lia|]. replace (S n - 1)%nat with n in * by lia. apply (poly_ext _ (fun a => H n (S m) 0 (s2 a 0) * Re m (1 / 2) a)); [intros; rewrite H1_S; reflexivity|].
      replace n with (n - m + m)%nat at 1 by lia. apply (poly_mult (n - m) m (fun a => H n (S m) 0 (s2 a 0)) (Re m (1 / 2))).
      * replace (n - m)%nat with (n - S m + 1)%nat by lia. apply (H_poly n (S m) (fun _ => 0) (fun a => s2 a 0)); [apply poly_c; lia|apply poly_s2a|exact L].
      * apply (Re_poly m (fun _ => 1 / 2) (fun a => a)); [apply poly_c; lia|apply poly_t].
    + apply (poly_mono 0); [lia|]. apply poly_0. intros t. rewrite H1_high by lia. ring.
  - destruct m as [|m]; [apply (poly_mono 0); [lia|]; apply poly_0; intros t; cbn [INR]; ring|]. replace (S m - 1)%nat with m by lia.
    rewrite Nat.odd_succ, <- Nat.negb_odd in O. apply negb_false_iff in O. apply poly_scal. apply (poly_ext _ (fun a => Re m (1 / 2) a * H n (S m) 0 (s2 a 0))); [intros; ring|].
    replace (n - 1)%nat with (m + (n - S m))%nat by lia. apply (poly_mult m (n - S m) (Re m (1 / 2)) (fun a => H n (S m) 0 (s2 a 0))); [apply Re_odd_poly, O|].
    replace (S (n - S m)) with (n - S m + 1)%nat by lia. apply (H_poly n (S m) (fun _ => 0) (fun a => s2 a 0)); [apply poly_c; lia|apply poly_s2a|exact Hm].
Qed.
Lemma odd_lead_half : forall m, Nat.odd m = true -> exists c, lead (m - 1) c (Re m (1 / 2)) /\ c <> 0.
Proof.
  intros m O. apply Nat.odd_spec in O. destruct O as [j ->]. destruct (proj2 (Re_lead j)) as [c [L P]]. exists c. replace (2 * j + 1 - 1)%nat with (2 * j)%nat by lia. split; [exact L|]. intros ->. lra.
Qed.
Lemma xv_diag : forall K a, Nat.odd K = true -> xv K K a 0 = H K K 0 0 * Re K (1 / 2) a.
Proof. intros K a O. unfold xv. rewrite O, H_const. reflexivity. Qed.
Lemma xs_diag : forall N a, Nat.odd N = true -> xs (S N) (S N) a 0 = INR (S N) * (H (S N) (S N) 0 0 * Re N (1 / 2) a).
Proof. intros N a O. unfold xs. rewrite Nat.odd_succ, <- Nat.negb_odd, O. cbn [negb]. rewrite H1_high by lia. rewrite H_const. replace (S N - 1)%nat with N by lia. ring. Qed.
Lemma diag : forall N c, (forall m, (m <= N)%nat -> c (S N) m = 0) -> (forall a b, tsum (S N) c (fun n m => xv n m a b) = 0) -> (forall a b, tsum (S N) c (fun n m => xs n m a b) = 0) -> c (S N) (S N) = 0.
Proof.
  intros N c L Zv Zs. assert (Row : forall F : nat -> nat -> R, rsum (fun m => c (S N) m * F (S N) m) (S N + 1) = c (S N) (S N) * F (S N) (S N)).
  { intros F. replace (S N + 1)%nat with (S (S N)) by lia. remember (S N) as K eqn:EK. cbn [rsum]. rewrite rsum_zero; [ring|]. intros m Hm. rewrite L by lia. ring. }
  pose proof (diag_positive (S N) 0 0) as Dp. destruct (Nat.odd (S N)) eqn:O.
  - destruct (odd_lead_half (S N) O) as [k [Lk Nk]]. replace (S N - 1)%nat with N in Lk by lia.
    assert (Z : c (S N) (S N) * H (S N) (S N) 0 0 * k = 0).
    { apply (lead_zero N _ (fun a => c (S N) (S N) * H (S N) (S N) 0 0 * Re (S N) (1 / 2) a + tsum N c (fun n m => xv n m a 0))).
      - apply (lead_low N _ (fun a => c (S N) (S N) * H (S N) (S N) 0 0 * Re (S N) (1 / 2) a)); [apply lead_scal, Lk|].
        apply (poly_tsum N N c (fun n m a => xv n m a 0)). intros n m Hn Hm. apply (poly_mono n); [exact Hn|apply xv_poly, Hm].
      - intros t _. etransitivity; [|apply (Zv t 0)]. rewrite tsum_top, (Row (fun n m => xv n m t 0)). cbv beta. rewrite (xv_diag (S N) t O). ring. }
    apply Rmult_integral in Z. destruct Z as [Z|Z]; [|contradiction]. apply Rmult_integral in Z. destruct Z; [assumption|lra].
  - rewrite Nat.odd_succ, <- Nat.negb_odd in O. apply negb_false_iff in O. destruct (odd_lead_half N O) as [k [Lk Nk]].
    assert (Z : c (S N) (S N) * INR (S N) * H (S N) (S N) 0 0 * k = 0).
    { apply (lead_zero (N - 1) _ (fun a => c (S N) (S N) * INR (S N) * H (S N) (S N) 0 0 * Re N (1 / 2) a + tsum N c (fun n m => xs n m a 0))).
      - apply (lead_low (N - 1) _ (fun a => c (S N) (S N) * INR (S N) * H (S N) (S N) 0 0 * Re N (1 / 2) a)); [apply lead_scal, Lk|].
        apply (poly_tsum (N - 1) N c (fun n m a => xs n m a 0)). intros n m Hn Hm. apply (poly_mono (n - 1)); [lia|apply xs_poly, Hm].
      - intros t _. etransitivity; [|apply (Zs t 0)]. rewrite tsum_top, (Row (fun n m => xs n m t 0)). cbv beta. rewrite (xs_diag N t O). ring. }
    apply Rmult_integral in Z. destruct Z as [Z|Z]; [|contradiction]. apply Rmult_integral in Z. destruct Z as [Z|Z]; [|lra]. apply Rmult_integral in Z. destruct Z as [Z|Z]; [exact Z|].
    rewrite S_INR in Z. pose proof (pos_INR N). lra.
Qed.
Theorem periodic_zero : forall N c, (forall a b, tsum N c (fun n m => zv n m a b) = 0) -> (forall a b, tsum N c (fun n m => zs n m a b) = 0) ->
  (forall a b, tsum N c (fun n m => xv n m a b) = 0) -> (forall a b, tsum N c (fun n m => xs n m a b) = 0) ->
  forall n m, (1 <= n <= N)%nat -> (m <= n)%nat -> c n m = 0.
Proof.
  induction N as [|N IH]; intros c Z1 Z2 Z3 Z4 n m Hn Hm; [lia|]. pose proof (below_diag N c Z1 Z2) as B. pose proof (diag N c B Z3 Z4) as D.
  assert (A : forall m, (m <= S N)%nat -> c (S N) m = 0) by (intros k Hk; destruct (Nat.eq_dec k (S N)) as [->|Ne]; [exact D|apply B; lia]).
  destruct (Nat.eq_dec n (S N)) as [->|Ne]; [apply A, Hm|].
  assert (Q : forall F, tsum (S N) c F = 0 -> tsum N c F = 0). { intros F E. rewrite tsum_top in E. rewrite (rsum_zero _ (S N + 1)) in E; [lra|]. intros k Hk. rewrite A by lia. ring. }
  apply (IH c); try (intros; apply Q); auto; lia.
Qed.
