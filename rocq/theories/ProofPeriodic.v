(** A sum of solid harmonics that is periodic at sufficiently many points is constant. *)
From Coq Require Import Reals Arith Bool List Lia Lra ZArith.
From Coquelicot Require Import Coquelicot.
From Verif Require Import ModelBase RSum ModelBall ModelOperators SpecOperators ProofOperators ProofPotential SpecInterp ProofInterp ModelSpherical SpecSpherical SpecHomogenised SpecCoefficients
  ProofSpherical ProofSphericalCode ProofHomogenised PropSpherical.
Import ListNotations.
Local Open Scope R_scope.

(** ** polynomials with a leading coefficient *)
Lemma poly_mult : forall a b f g, polynomial a f -> polynomial (S b) g -> polynomial (a + b) (fun t => f t * g t).
Proof.
  induction a as [|a IH]; intros b f g Hf Hg.
  - apply (poly_mono 0); [lia|]. apply poly_0. intros t. rewrite (proj1 (poly_0 f) Hf t). ring.
  - apply poly_S in Hf. destruct Hf as [c [q [Hq E]]]. apply (poly_ext _ (fun t => c * g t + t * (q t * g t))); [intros t; rewrite E; ring|].
    apply poly_plus; [apply poly_scal; apply (poly_mono (S b)); [lia|exact Hg]|]. apply (poly_id_mul (a + b) (fun t => q t * g t)). apply IH; assumption.
Qed.
Definition lead (k : nat) (c : R) (f : R -> R) : Prop := exists g, polynomial k g /\ forall t, f t = c * t ^ k + g t.
Lemma poly_power : forall k, polynomial (S k) (fun t => t ^ k).
Proof.
  induction k as [|k IH]; [exact (poly_const 1 1 Nat.lt_0_1)|]. apply (poly_id_mul (S k) (fun t => t ^ k)). exact IH.
Qed.
Lemma lead_poly : forall k c f, lead k c f -> polynomial (S k) f.
Proof.
  intros k c f [g [Hg E]]. apply (poly_ext _ (fun t => c * t ^ k + g t)); [intros; symmetry; apply E|]. apply poly_plus; [apply poly_scal, poly_power|apply (poly_mono k); [lia|exact Hg]].
Qed.
Lemma lead_ext : forall k c f f', (forall t, f t = f' t) -> lead k c f -> lead k c f'.
Proof. intros k c f f' E [g [Hg Ef]]. exists g. split; [exact Hg|]. intros t. rewrite <- E. apply Ef. Qed.
Lemma lead_low : forall k c f g, lead k c f -> polynomial k g -> lead k c (fun t => f t + g t).
Proof. intros k c f g [r [Hr E]] Hg. exists (fun t => r t + g t). split; [apply poly_plus; assumption|]. intros t. rewrite E. ring. Qed.
Lemma lead_scal : forall k c f a, lead k c f -> lead k (a * c) (fun t => a * f t).
Proof. intros k c f a [r [Hr E]]. exists (fun t => a * r t). split; [apply poly_scal, Hr|]. intros t. rewrite E. ring. Qed.
Lemma lead_plus : forall k c d f g, lead k c f -> lead k d g -> lead k (c + d) (fun t => f t + g t).
Proof. intros k c d f g [r [Hr E]] [s [Hs F]]. exists (fun t => r t + s t). split; [apply poly_plus; assumption|]. intros t. rewrite E, F. ring. Qed.
Lemma lead_quadratic : forall k c f a, lead k c f -> lead (S (S k)) c (fun t => (t * t + a) * f t).
Proof.
  intros k c f a [r [Hr E]]. exists (fun t => t * (t * r t) + a * (c * t ^ k + r t)). split.
  - apply poly_plus; [apply (poly_id_mul (S k) (fun t => t * r t)), poly_id_mul, Hr|]. apply poly_scal. apply poly_plus; [apply poly_scal, (poly_mono (S k)); [lia|apply poly_power]|apply (poly_mono k); [lia|exact Hr]].
  - intros t. rewrite E. cbn [pow]. ring.
Qed.
Lemma lead_id : forall k c f, lead k c f -> lead (S k) c (fun t => t * f t).
Proof. intros k c f [r [Hr E]]. exists (fun t => t * r t). split; [apply poly_id_mul, Hr|]. intros t. rewrite E. cbn [pow]. ring. Qed.
Lemma lead_pow : forall j k c f, lead k c f -> lead (j + k) c (fun t => t ^ j * f t).
Proof.
  induction j as [|j IH]; intros k c f L; [apply (lead_ext _ _ f); [intros; cbn [pow]; ring|exact L]|].
  apply (lead_ext _ _ (fun t => t * (t ^ j * f t))); [intros; cbn [pow]; ring|]. apply (lead_id (j + k) c (fun t => t ^ j * f t)). apply IH, L.
Qed.
Lemma lead_sum : forall k (c : nat -> R) (f : nat -> R -> R) M, (forall i, (i < M)%nat -> lead k (c i) (f i)) -> lead k (rsum c M) (fun t => rsum (fun i => f i t) M).
Proof.
  intros k c f M. induction M as [|M IH]; intros L.
  - exists (fun _ => 0). split; [apply (poly_mono 0); [lia|apply poly_0; reflexivity]|]. intros t. cbn [rsum]. ring.
  - cbn [rsum]. apply (lead_plus k _ _ (fun t => rsum (fun i => f i t) M) (f M)); [apply IH; intros; apply L; lia|apply L; lia].
Qed.
(** a polynomial that vanishes on an interval has leading coefficient 0 *)
Lemma points : forall k, distinct k (fun i => / (INR i + 1)).
Proof. intros k i j _ _ N E. apply N. apply INR_eq. apply (f_equal Rinv) in E. rewrite !Rinv_inv in E. lra. Qed.
Lemma point_range : forall i, 0 < / (INR i + 1) <= 1.
Proof. intros i. pose proof (pos_INR i). split; [apply Rinv_0_lt_compat; lra|]. rewrite <- Rinv_1 at 2. apply Rinv_le_contravar; lra. Qed.
Lemma coefficients_zero : forall n c, (forall t, rsum (fun k => c k * t ^ k) n = 0) -> forall k, (k < n)%nat -> c k = 0.
Proof.
  induction n as [|n IH]; intros c Z k Hk; [lia|].
  assert (Z' : forall t, c 0%nat + t * rsum (fun k => c (S k) * t ^ k) n = 0).
  { intros t. rewrite <- (Z t), rsum_shift, <- rsum_scal. cbn [pow]. f_equal; [ring|]. apply rsum_ext. intros; ring. }
  assert (C0 : c 0%nat = 0) by (specialize (Z' 0); lra). destruct k as [|k]; [exact C0|]. apply (IH (fun k => c (S k))); [|lia].
  apply (poly_zero n _ (fun i => / (INR i + 1))); [exists (fun k => c (S k)); reflexivity|apply points|]. intros i _. specialize (Z' (/ (INR i + 1))). rewrite C0 in Z'. pose proof (point_range i). nra.
Qed.
Lemma lead_zero : forall k c f, lead k c f -> (forall t, 0 < t <= 1 -> f t = 0) -> c = 0.
Proof.
  intros k c f L Z. pose proof (lead_poly k c f L) as P. assert (Z' : forall t, f t = 0) by (apply (poly_zero (S k) f (fun i => / (INR i + 1)) P (points (S k))); intros i _; apply Z, point_range).
  destruct L as [g [[d Hd] E]].
  assert (Q := coefficients_zero (S k) (fun j => if (j =? k)%nat then c else d j)).
  assert (Q' : forall t, rsum (fun j => (if (j =? k)%nat then c else d j) * t ^ j) (S k) = 0).
  { intros t. cbn [rsum]. rewrite Nat.eqb_refl. rewrite <- (Z' t), (E t), (Hd t), Rplus_comm. f_equal. apply rsum_ext. intros j Hj. destruct (Nat.eqb_spec j k); [lia|reflexivity]. }
  specialize (Q Q' k ltac:(lia)). cbv beta in Q. rewrite Nat.eqb_refl in Q. exact Q.
Qed.
Lemma finite_choice : forall (P : nat -> R -> Prop) M, (forall i, (i < M)%nat -> exists c, P i c) -> exists c : nat -> R, forall i, (i < M)%nat -> P i (c i).
Proof.
  intros P M. induction M as [|M IH]; intros E; [exists (fun _ => 0); intros; lia|]. destruct IH as [c Hc]; [intros; apply E; lia|]. destruct (E M ltac:(lia)) as [d Hd].
  exists (fun i => if (i =? M)%nat then d else c i). intros i Hi. destruct (Nat.eqb_spec i M) as [->|N]; [exact Hd|apply Hc; lia].
Qed.

(** ** the polynomials Hx n m times the real part of (x + i y)^m *)
Definition Re (m : nat) (x y : R) : R := fst (cpower x y m).
Lemma Re_rec : forall m x y, Re (S (S m)) x y = 2 * x * Re (S m) x y - (x * x + y * y) * Re m x y.
Proof. intros m x y. unfold Re. cbn [cpower]. unfold Cmult. cbn [fst snd]. ring. Qed.
Lemma Re_0 : forall x y, Re 0 x y = 1. Proof. reflexivity. Qed.
Lemma Re_1 : forall x y, Re 1 x y = x. Proof. intros. unfold Re. cbn [cpower]. unfold Cmult, RtoC. cbn [fst snd]. ring. Qed.
Lemma Re_parity : forall m x y, Re m (- x) y = (-1) ^ m * Re m x y /\ Re (S m) (- x) y = (-1) ^ S m * Re (S m) x y.
Proof.
  induction m as [|m IH]; intros x y; [rewrite !Re_0, !Re_1; cbn [pow]; split; ring|]. destruct (IH x y) as [A B]. split; [exact B|].
  rewrite !Re_rec, A, B. cbn [pow]. ring.
Qed.
Lemma Re_scale : forall m r x y, Re m (r * x) (r * y) = r ^ m * Re m x y.
Proof. intros m r x y. unfold Re. rewrite cpower_scale. unfold Cmult, RtoC. cbn [fst snd]. ring. Qed.
Lemma two_step : forall P : nat -> Prop, P 0%nat -> P 1%nat -> (forall n, P n -> P (S n) -> P (S (S n))) -> forall n, P n.
Proof. intros P P0 P1 PS n. assert (Q : P n /\ P (S n)); [|apply Q]. induction n as [|n [A B]]; split; auto. Qed.
Lemma Re_poly : forall m x y, polynomial 2 x -> polynomial 2 y -> polynomial (S m) (fun t => Re m (x t) (y t)).
Proof.
  intros m x y Hx0 Hy0. assert (Q : polynomial 3 (fun t => x t * x t + y t * y t)) by (apply poly_plus; apply (poly_mult 2 1); assumption).
  revert m. apply two_step.
  - apply (poly_ext _ (fun _ => 1)); [reflexivity|]. apply poly_const. lia.
  - apply (poly_ext _ x); [intros; symmetry; apply Re_1|exact Hx0].
  - intros m A B. apply (poly_ext _ (fun t => 2 * (x t * Re (S m) (x t) (y t)) + (-1) * ((x t * x t + y t * y t) * Re m (x t) (y t)))); [intros t; rewrite Re_rec; ring|].
    apply poly_plus; apply poly_scal.
    + apply (poly_mono (2 + S m)); [lia|]. apply (poly_mult 2 (S m) x (fun t => Re (S m) (x t) (y t))); assumption.
    + apply (poly_mono (3 + m)); [lia|]. apply (poly_mult 3 m (fun t => x t * x t + y t * y t) (fun t => Re m (x t) (y t))); assumption.
Qed.
Lemma H_poly : forall n m z s, polynomial 2 z -> polynomial 3 s -> (m <= n)%nat -> polynomial (n - m + 1) (fun t => H n m (z t) (s t)).
Proof.
  intros n m z s Hz Hs. revert n. apply (two_step (fun n => (m <= n)%nat -> polynomial (n - m + 1) (fun t => H n m (z t) (s t)))).
  - intros Hm. replace m with 0%nat by lia. apply (poly_ext _ (fun _ => 1)); [reflexivity|apply poly_const; lia].
  - intros Hm. destruct m as [|[|m]]; [| |lia].
    + cbn [Nat.sub Nat.add]. apply (poly_ext _ z); [|exact Hz]. intros t. pose proof (H_low 0 0 (z t) (s t) ltac:(lia)) as E. rewrite H_O, H1_O in E. cbn [INR Nat.eqb] in E. lra.
    + apply (poly_ext _ (fun _ => 1)); [|apply poly_const; lia]. intros t. rewrite H_diag, H_O. cbn [Nat.eqb INR]. ring.
  - intros n A B Hm. destruct (Nat.eq_dec m (S (S n))) as [->|Ne].
    + rewrite Nat.sub_diag. cbn [Nat.add]. clear A B Hm. exists (fun _ => H (S (S n)) (S (S n)) 0 0). intros t. cbn [rsum pow].
      assert (D : forall k z s, H k k z s = H k k 0 0) by (induction k as [|k IHk]; intros; [reflexivity|rewrite !H_diag, IHk; reflexivity]). rewrite D. ring.
    + specialize (B ltac:(lia)). set (k := (INR (S n) + 1 - INR m)).
      assert (Kp : 0 < k) by (unfold k; assert (INR m <= INR (S n)) by (apply le_INR; lia); lra).
      apply (poly_ext _ (fun t => (2 * INR (S n) + 1) / k * (z t * H (S n) m (z t) (s t)) + - ((INR (S n) + INR m) / k) * (s t * H n m (z t) (s t)))).
      * intros t. pose proof (H_low (S n) m (z t) (s t) ltac:(lia)) as E. rewrite H1_S in E. fold k in E. apply (Rmult_eq_reg_l k); [|lra]. rewrite E. field. lra.
      * apply poly_plus; apply poly_scal.
        -- apply (poly_mono (2 + (S n - m))); [lia|]. apply (poly_mult 2 (S n - m) z); [exact Hz|]. replace (S (S n - m)) with (S n - m + 1)%nat by lia. exact B.
        -- destruct (Nat.eq_dec m (S n)) as [->|Nm].
           ++ apply (poly_mono 0); [lia|]. apply poly_0. intros t. rewrite H_high by lia. ring.
           ++ specialize (A ltac:(lia)). apply (poly_mono (3 + (n - m))); [lia|]. apply (poly_mult 3 (n - m) s); [exact Hs|]. replace (S (n - m)) with (n - m + 1)%nat by lia. exact A.
Qed.

(** ** leading coefficients in the distance rho from the axis, at height 1/2 *)
Definition hh (n m : nat) (t : R) : R := H n m (1 / 2) (t * t + 1 / 4).
Lemma H_lead : forall m j,
  (exists c, lead (2 * j) c (hh (m + 2 * j) m) /\ 0 < (-1) ^ j * c) /\ (exists c, lead (2 * j) c (hh (m + 2 * j + 1) m) /\ 0 < (-1) ^ j * c).
Proof.
  intros m j. induction j as [|j [[c [Lc Sc]] [d [Ld Sd]]]].
  - rewrite Nat.mul_0_r, Nat.add_0_r. pose proof (diag_positive m 0 0) as Dp. assert (D : forall z s, H m m z s = H m m 0 0) by (clear; induction m as [|k IHk]; intros; [reflexivity|rewrite !H_diag, IHk; reflexivity]).
    split.
    + exists (H m m 0 0). split; [|cbn [pow]; lra]. exists (fun _ => 0). split; [apply poly_0; reflexivity|]. intros t. unfold hh. rewrite D. cbn [pow]. ring.
    + exists ((2 * INR m + 1) / 2 * H m m 0 0). split; [|cbn [pow]; pose proof (pos_INR m); nra]. exists (fun _ => 0). split; [apply poly_0; reflexivity|]. intros t. unfold hh.
      pose proof (H_low m m (1 / 2) (t * t + 1 / 4) (le_n m)) as E. rewrite H1_high, D in E by lia. replace (m + 1)%nat with (S m) by lia. cbn [pow]. lra.
  - assert (E1 : forall t, hh (m + 2 * S j) m t = (2 * INR (m + 2 * j + 1) + 1) / (2 * INR j + 2) / 2 * hh (m + 2 * j + 1) m t + - ((INR (m + 2 * j + 1) + INR m) / (2 * INR j + 2)) * ((t * t + 1 / 4) * hh (m + 2 * j) m t)).
    { intros t. unfold hh. pose proof (H_low (m + 2 * j + 1) m (1 / 2) (t * t + 1 / 4) ltac:(lia)) as E. replace (m + 2 * S j)%nat with (S (m + 2 * j + 1)) by lia.
      replace (H1 (m + 2 * j + 1) m (1 / 2) (t * t + 1 / 4)) with (H (m + 2 * j) m (1 / 2) (t * t + 1 / 4)) in E by (replace (m + 2 * j + 1)%nat with (S (m + 2 * j)) by lia; reflexivity).
      pose proof (pos_INR j). apply (Rmult_eq_reg_l (2 * INR j + 2)); [|lra].
      replace (2 * INR j + 2) with (INR (m + 2 * j + 1) + 1 - INR m) at 1 by (rewrite !plus_INR, mult_INR; cbn [INR]; ring). rewrite E. field. lra. }
    pose proof (pos_INR j) as Pj. pose proof (pos_INR m) as Pm.
    assert (L1 : lead (2 * S j) (- ((INR (m + 2 * j + 1) + INR m) / (2 * INR j + 2)) * c) (hh (m + 2 * S j) m)).
    { eapply lead_ext; [intros t; symmetry; apply E1|]. replace (2 * S j)%nat with (S (S (2 * j))) by lia.
      apply (lead_ext _ _ (fun t => - ((INR (m + 2 * j + 1) + INR m) / (2 * INR j + 2)) * ((t * t + 1 / 4) * hh (m + 2 * j) m t) + (2 * INR (m + 2 * j + 1) + 1) / (2 * INR j + 2) / 2 * hh (m + 2 * j + 1) m t)); [intros; ring|].
      apply (lead_low _ _ (fun t => - ((INR (m + 2 * j + 1) + INR m) / (2 * INR j + 2)) * ((t * t + 1 / 4) * hh (m + 2 * j) m t))).
      - apply (lead_scal _ _ (fun t => (t * t + 1 / 4) * hh (m + 2 * j) m t)). apply lead_quadratic, Lc.
      - apply poly_scal. apply (poly_mono (S (2 * j))); [lia|]. apply (lead_poly _ d), Ld. }
    set (c1 := - ((INR (m + 2 * j + 1) + INR m) / (2 * INR j + 2)) * c) in *.
    assert (K1 : 0 < (INR (m + 2 * j + 1) + INR m) / (2 * INR j + 2)) by (apply Rdiv_lt_0_compat; [rewrite !plus_INR; pose proof (pos_INR (2 * j)); cbn [INR]; lra|lra]).
    assert (S1 : 0 < (-1) ^ S j * c1) by (unfold c1; cbn [pow]; replace (-1 * (-1) ^ j * (- ((INR (m + 2 * j + 1) + INR m) / (2 * INR j + 2)) * c)) with ((INR (m + 2 * j + 1) + INR m) / (2 * INR j + 2) * ((-1) ^ j * c)) by ring; apply Rmult_lt_0_compat; assumption).
    split; [exists c1; split; assumption|].
    set (k := (m + 2 * S j)%nat). assert (Ek : INR k + 1 - INR m = 2 * INR j + 3) by (unfold k; rewrite plus_INR, mult_INR, (S_INR j); cbn [INR]; ring).
    assert (E2 : forall t, hh (k + 1) m t = (2 * INR k + 1) / (2 * INR j + 3) / 2 * hh k m t + - ((INR k + INR m) / (2 * INR j + 3)) * ((t * t + 1 / 4) * hh (m + 2 * j + 1) m t)).
    { intros t. unfold hh. pose proof (H_low k m (1 / 2) (t * t + 1 / 4) ltac:(unfold k; lia)) as E. replace (k + 1)%nat with (S k) by lia. rewrite Ek in E.
      replace (H1 k m (1 / 2) (t * t + 1 / 4)) with (H (m + 2 * j + 1) m (1 / 2) (t * t + 1 / 4)) in E by (unfold k; replace (m + 2 * S j)%nat with (S (m + 2 * j + 1)) by lia; reflexivity).
      apply (Rmult_eq_reg_l (2 * INR j + 3)); [|lra]. rewrite E. field. lra. }
    exists ((2 * INR k + 1) / (2 * INR j + 3) / 2 * c1 + - ((INR k + INR m) / (2 * INR j + 3)) * d). split.
    + eapply lead_ext; [intros t; symmetry; apply E2|]. apply (lead_plus _ _ _ (fun t => (2 * INR k + 1) / (2 * INR j + 3) / 2 * hh k m t)); [apply lead_scal, L1|].
      apply (lead_scal _ _ (fun t => (t * t + 1 / 4) * hh (m + 2 * j + 1) m t)). replace (2 * S j)%nat with (S (S (2 * j))) by lia. apply lead_quadratic, Ld.
    + pose proof (pos_INR k) as Pk. assert (K2 : 0 < (2 * INR k + 1) / (2 * INR j + 3) / 2) by (apply Rdiv_lt_0_compat; [apply Rdiv_lt_0_compat; lra|lra]).
      assert (K3 : 0 <= (INR k + INR m) / (2 * INR j + 3)) by (apply Rdiv_le_0_compat; lra).
      replace ((-1) ^ S j * ((2 * INR k + 1) / (2 * INR j + 3) / 2 * c1 + - ((INR k + INR m) / (2 * INR j + 3)) * d)) with ((2 * INR k + 1) / (2 * INR j + 3) / 2 * ((-1) ^ S j * c1) + (INR k + INR m) / (2 * INR j + 3) * ((-1) ^ j * d)) by (cbn [pow]; ring).
      apply Rplus_lt_le_0_compat; [apply Rmult_lt_0_compat; assumption|apply Rmult_le_pos; [exact K3|lra]].
Qed.
Lemma odd_lead : forall n m, (m <= n)%nat -> Nat.odd (n - m) = true -> exists c, lead (n - 1 - m) c (hh n m) /\ c <> 0.
Proof.
  intros n m Hm O. apply Nat.odd_spec in O. destruct O as [j Hj]. destruct (proj2 (H_lead m j)) as [c [L Sc]]. exists c.
  replace (n - 1 - m)%nat with (2 * j)%nat by lia. replace (m + 2 * j + 1)%nat with n in L by lia. split; [exact L|]. intros ->. lra.
Qed.

(** real parts at x = 1/2 *)
Lemma Re_lead : forall j, (exists c, lead (2 * j) c (Re (2 * j) (1 / 2)) /\ 0 < (-1) ^ j * c) /\ (exists c, lead (2 * j) c (Re (2 * j + 1) (1 / 2)) /\ 0 < (-1) ^ j * c).
Proof.
  induction j as [|j [[c [Lc Sc]] [d [Ld Sd]]]].
  - split; [exists 1|exists (1 / 2)]; (split; [exists (fun _ => 0); split; [apply poly_0; reflexivity|]|cbn [pow]; lra]); intros t; cbn [Nat.mul Nat.add pow]; rewrite ?Re_0, ?Re_1; ring.
  - assert (L1 : lead (2 * S j) (-1 * c) (Re (2 * S j) (1 / 2))).
    { replace (2 * S j)%nat with (S (S (2 * j))) by lia. apply (lead_ext _ _ (fun t => -1 * ((t * t + 1 / 4) * Re (2 * j) (1 / 2) t) + Re (2 * j + 1) (1 / 2) t)).
      - intros t. rewrite Re_rec. replace (2 * j + 1)%nat with (S (2 * j)) by lia. field.
      - apply (lead_low _ _ (fun t => -1 * ((t * t + 1 / 4) * Re (2 * j) (1 / 2) t))); [apply (lead_scal _ _ (fun t => (t * t + 1 / 4) * Re (2 * j) (1 / 2) t)), lead_quadratic, Lc|].
        apply (poly_mono (S (2 * j))); [lia|apply (lead_poly _ d), Ld]. }
    split; [exists (-1 * c); split; [exact L1|cbn [pow]; lra]|]. exists (-1 * c + -1 * d). split; [|cbn [pow]; lra].
    apply (lead_ext _ _ (fun t => Re (2 * S j) (1 / 2) t + -1 * ((t * t + 1 / 4) * Re (2 * j + 1) (1 / 2) t))).
    + intros t. replace (2 * S j + 1)%nat with (S (S (2 * j + 1))) by lia. rewrite Re_rec. replace (S (2 * j + 1))%nat with (2 * S j)%nat by lia. field.
    + apply (lead_plus _ _ _ (Re (2 * S j) (1 / 2))); [exact L1|]. apply (lead_scal _ _ (fun t => (t * t + 1 / 4) * Re (2 * j + 1) (1 / 2) t)). replace (2 * S j)%nat with (S (S (2 * j))) by lia. apply lead_quadratic, Ld.
Qed.
(** Chebyshev polynomials *)
Lemma Re_circle : forall m, exists c, 0 < c /\ exists g, lead m c g /\ forall u v, u * u + v * v = 1 -> Re m u v = g u.
Proof.
  apply two_step.
  - exists 1. split; [lra|]. exists (fun _ => 1). split; [exists (fun _ => 0); split; [apply poly_0; reflexivity|intros; cbn [pow]; ring]|reflexivity].
  - exists 1. split; [lra|]. exists (fun u => u). split; [exists (fun _ => 0); split; [apply (poly_mono 0); [lia|apply poly_0; reflexivity]|intros; cbn [pow]; ring]|intros; apply Re_1].
  - intros m [c [Pc [g [Lg Eg]]]] [d [Pd [h [Lh Eh]]]]. exists (2 * d). split; [lra|]. exists (fun u => 2 * (u * h u) + -1 * g u). split.
    + apply (lead_low _ _ (fun u => 2 * (u * h u))); [apply (lead_scal _ _ (fun u => u * h u)), lead_id, Lh|]. apply poly_scal. apply (poly_mono (S m)); [lia|apply (lead_poly _ c), Lg].
    + intros u v E. rewrite Re_rec, (Eh u v E), (Eg u v E), E. ring.
Qed.
Lemma trig_poly : forall a M, exists f, polynomial M f /\ forall u v, u * u + v * v = 1 -> rsum (fun m => a m * Re m u v) M = f u.
Proof.
  intros a M. induction M as [|M [f [Pf Ef]]]; [exists (fun _ => 0); split; [apply poly_0; reflexivity|reflexivity]|].
  destruct (Re_circle M) as [c [_ [g [Lg Eg]]]]. exists (fun u => f u + a M * g u). split.
  - apply poly_plus; [apply (poly_mono M); [lia|exact Pf]|apply poly_scal, (lead_poly _ c), Lg].
  - intros u v E. cbn [rsum]. rewrite (Ef u v E), (Eg u v E). reflexivity.
Qed.
Lemma trig_zero : forall M a, (forall u v, u * u + v * v = 1 -> rsum (fun m => a m * Re m u v) M = 0) -> forall m, (m < M)%nat -> a m = 0.
Proof.
  induction M as [|M IH]; intros a Z m Hm; [lia|].
  assert (A : a M = 0).
  { destruct (trig_poly a M) as [f [Pf Ef]]. destruct (Re_circle M) as [c [Pc [g [Lg Eg]]]].
    assert (L : a M * c = 0); [|apply Rmult_integral in L; destruct L; [assumption|lra]].
    apply (lead_zero M (a M * c) (fun u => a M * g u + f u)); [apply lead_low; [apply lead_scal, Lg|exact Pf]|].
    intros t Ht. assert (C : t * t + sqrt (1 - t * t) * sqrt (1 - t * t) = 1) by (rewrite sqrt_sqrt by nra; ring).
    rewrite <- (Z t _ C). cbn [rsum]. rewrite (Ef t _ C), (Eg t _ C). ring. }
  destruct (Nat.eq_dec m M) as [->|N]; [exact A|]. apply IH; [|lia]. intros u v C. rewrite <- (Z u v C). cbn [rsum]. rewrite A. ring.
Qed.

(** ** elimination of the highest degree *)
Lemma top_zero : forall K (a : nat -> nat -> R), (forall n m, (n <= K)%nat -> (m <= n)%nat -> Nat.odd (n - m) = false -> a n m = 0) ->
  (forall u v t, u * u + v * v = 1 -> 0 < t <= 1 -> rsum (fun n => rsum (fun m => a n m * (hh n m t * (t ^ m * Re m u v))) (n + 1)) (K + 1) = 0) ->
  forall m, (m <= K)%nat -> a K m = 0.
Proof.
  intros K a Ev Z.
  assert (C : exists c : nat -> R, forall m, (m < K + 1)%nat -> Nat.odd (K - m) = true -> lead (K - 1 - m) (c m) (hh K m) /\ c m <> 0).
  { apply (finite_choice (fun m c => Nat.odd (K - m) = true -> lead (K - 1 - m) c (hh K m) /\ c <> 0)). intros m Hm. destruct (Nat.odd (K - m)) eqn:O; [|exists 0; discriminate].
    destruct (odd_lead K m ltac:(lia) O) as [c L]. exists c. intros _. exact L. }
  destruct C as [c Hc].
  assert (T : forall m, (m < K + 1)%nat -> a K m * c m = 0).
  { apply (trig_zero (K + 1) (fun m => a K m * c m)). intros u v Cu.
    apply (lead_zero (K - 1) _ (fun t => rsum (fun m => a K m * (hh K m t * (t ^ m * Re m u v))) (K + 1) + rsum (fun n => rsum (fun m => a n m * (hh n m t * (t ^ m * Re m u v))) (n + 1)) K)).
    - apply (lead_low (K - 1) _ (fun t => rsum (fun m => a K m * (hh K m t * (t ^ m * Re m u v))) (K + 1))).
      + apply (lead_sum (K - 1) (fun m => a K m * c m * Re m u v) (fun m t => a K m * (hh K m t * (t ^ m * Re m u v)))). intros m Hm. destruct (Nat.odd (K - m)) eqn:O.
        * destruct (Hc m Hm O) as [L _]. apply (lead_ext _ _ (fun t => a K m * Re m u v * (t ^ m * hh K m t))); [intros; ring|].
          replace (a K m * c m * Re m u v) with (a K m * Re m u v * c m) by ring. apply (lead_scal _ _ (fun t => t ^ m * hh K m t)). replace (K - 1)%nat with (m + (K - 1 - m))%nat; [apply lead_pow, L|].
          apply Nat.odd_spec in O. destruct O as [j Hj]. lia.
        * rewrite (Ev K m) by (lia || assumption). exists (fun _ => 0). split; [apply (poly_mono 0); [lia|apply poly_0; reflexivity]|]. intros t. ring.
      + apply (poly_sum (K - 1) K (fun n t => rsum (fun m => a n m * (hh n m t * (t ^ m * Re m u v))) (n + 1))). intros n Hn.
        apply (poly_sum (K - 1) (n + 1) (fun m t => a n m * (hh n m t * (t ^ m * Re m u v)))). intros m Hm. destruct (Nat.odd (n - m)) eqn:O.
        * destruct (odd_lead n m ltac:(lia) O) as [d [L _]]. apply (poly_ext _ (fun t => a n m * Re m u v * (t ^ m * hh n m t))); [intros; ring|]. apply poly_scal.
          apply Nat.odd_spec in O. destruct O as [j Hj]. apply (poly_mono (S (m + (n - 1 - m)))); [lia|]. apply (lead_poly _ d). apply lead_pow, L.
        * apply (poly_mono 0); [lia|]. apply poly_0. intros t. rewrite (Ev n m) by (lia || assumption). ring.
    - intros t Ht. rewrite <- (Z u v t Cu Ht). rewrite (rsum_split (fun n => rsum (fun m => a n m * (hh n m t * (t ^ m * Re m u v))) (n + 1)) K 1). cbn [rsum]. rewrite Nat.add_0_r. ring. }
  intros m Hm. destruct (Nat.odd (K - m)) eqn:O; [|apply Ev; lia || assumption].
  destruct (Hc m ltac:(lia) O) as [_ Nz]. specialize (T m ltac:(lia)). apply Rmult_integral in T. destruct T; [assumption|contradiction].
Qed.
