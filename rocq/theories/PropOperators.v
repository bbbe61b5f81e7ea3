(** Kernels of the operators: C49 (Laplace), C59 (Helmholtz, Maxwell). *)
From Coq Require Import Reals Lra Lia Arith List.
From Coquelicot Require Import Coquelicot.
From Verif Require Import RSum SpecBernstein ModelBase ModelBernstein ProofBernstein ModelBall ModelOperators SpecOperators ProofOperators.
Import ListNotations.
Local Open Scope R_scope.

(** ** the basis interaction adds a multiple of the products of the shape functions *)
Definition shape (p i : nat) (s : R * R) : R := bern p (i mod (p + 1)) (fst s) * bern p (i / (p + 1)) (snd s).
Lemma split_index : forall p i, (i < (p + 1) * (p + 1))%nat ->
  i = (i / (p + 1) * (p + 1) + i mod (p + 1))%nat /\ (i / (p + 1) <= p)%nat /\ (i mod (p + 1) <= p)%nat.
Proof.
  intros p i H. assert (i / (p + 1) < p + 1)%nat by (apply Nat.div_lt_upper_bound; lia).
  pose proof (Nat.mod_upper_bound i (p + 1)). pose proof (Nat.div_mod i (p + 1)). lia.
Qed.
Lemma interaction_value : forall ss w s t m i j, (i < ss_n2 ss)%nat -> (j < ss_n2 ss)%nat ->
  addScaledBasisInteraction ss w s t m i j = m i j + w * (shape (ss_p ss) i s * shape (ss_p ss) j t).
Proof.
  intros ss w s t m i j Hi Hj. destruct (split_index _ i Hi) as [Ei [A1 A2]]. destruct (split_index _ j Hj) as [Ej [B1 B2]].
  unfold addScaledBasisInteraction, shape. rewrite Ei at 1. rewrite Ej at 1. rewrite Phi_times_Phi_spec by assumption. rewrite <- Ei, <- Ej. ring.
Qed.
Lemma interaction_outside : forall ss w s t m i j, (ss_n2 ss <= i \/ ss_n2 ss <= j)%nat -> addScaledBasisInteraction ss w s t m i j = m i j.
Proof.
  intros ss w s t m i j H. unfold addScaledBasisInteraction, Phi_times_Phi. rewrite mat_loop00. fold (ss_n2 ss).
  destruct (Nat.ltb_spec i (ss_n2 ss)), (Nat.ltb_spec j (ss_n2 ss)); cbn [andb]; try reflexivity. lia.
Qed.

(** ** C49: Laplace *)
Definition no_matrix : mat := fun _ _ => 0.
Lemma normalized_kappa : forall n x y, laplace_dl_kernel x y (vnormalized n) * vnorm n = laplace_dl_kernel x y n.
Proof.
  intros n x y. unfold vnormalized. destruct (Rlt_dec 0 (vdot n n)) as [P|P].
  - assert (Q : 0 < vnorm n) by (apply sqrt_lt_R0; assumption). unfold laplace_dl_kernel.
    set (r3 := vnorm (vsub x y) * vnorm (vsub x y) * vnorm (vsub x y)).
    assert (E : vdot (vsub x y) (vx n / vnorm n, vy n / vnorm n, vz n / vnorm n) = vdot (vsub x y) n / vnorm n)
      by (unfold vdot, vx, vy, vz; cbn [fst snd]; unfold Rdiv; ring).
    rewrite E. transitivity (vdot (vsub x y) n / 4 / PI / r3 * (/ vnorm n * vnorm n)); [unfold Rdiv; ring|]. rewrite Rinv_l by lra. ring.
  - assert (Z : n = (0, 0, 0)).
    { destruct n as [[a b] c]. unfold vdot, vx, vy, vz in P; cbn [fst snd] in P. assert (a = 0) by nra. assert (b = 0) by nra. assert (c = 0) by nra. subst. reflexivity. }
    subst n. unfold laplace_dl_kernel. cbv zeta. replace (vdot (vsub x y) (0, 0, 0)) with 0 by (unfold vdot, vx, vy, vz; cbn [fst snd]; ring). unfold Rdiv. rewrite !Rmult_0_l. reflexivity.
Qed.
(** the single layer kernel is symmetric *)
Theorem C49_single_layer_symmetric : forall x y, laplace_kernel x y = laplace_kernel y x.
Proof. intros. unfold laplace_kernel. rewrite vnorm_sym. reflexivity. Qed.
(** the contribution of a pair of points is the transpose of the contribution of the exchanged pair *)
Theorem C49_single_layer_integrand : forall ss p1 p2 i j, (i < ss_n2 ss)%nat -> (j < ss_n2 ss)%nat ->
  laplace_sl_integrand ss p1 p2 no_matrix i j = laplace_sl_integrand ss p2 p1 no_matrix j i.
Proof.
  intros ss p1 p2 i j Hi Hj. unfold laplace_sl_integrand. rewrite !interaction_value by assumption. rewrite (C49_single_layer_symmetric (p_f p2) (p_f p1)). unfold no_matrix. ring.
Qed.
(** the adjoint double layer integrand is the double layer integrand with exchanged points *)
Theorem C49_adjoint : forall ss p1 p2 i j, (i < ss_n2 ss)%nat -> (j < ss_n2 ss)%nat ->
  laplace_adl_integrand ss p1 p2 no_matrix i j = laplace_dl_integrand ss p2 p1 no_matrix j i.
Proof.
  intros ss p1 p2 i j Hi Hj. unfold laplace_adl_integrand, laplace_dl_integrand. rewrite !interaction_value by assumption. unfold p_kappa at 3.
  set (A := laplace_dl_kernel (p_f p2) (p_f p1) (vnormalized (p_n p1)) * vnorm (p_n p1)).
  assert (E : A = laplace_adl_kernel (p_f p1) (p_n p1) (p_f p2)).
  { unfold A. rewrite normalized_kappa. unfold laplace_adl_kernel, laplace_dl_kernel. rewrite (vnorm_sym (p_f p2)).
    f_equal. f_equal. f_equal. unfold vdot, vsub, vscal, vx, vy, vz; cbn [fst snd]. ring. }
  rewrite <- E. unfold A, p_kappa, no_matrix. ring.
Qed.
Lemma kernel_radial : forall r, 0 < r -> is_derive (fun r => 1 / 4 / PI / r) r (- (1 / 4 / PI / (r * r * r)) * r).
Proof. intros r H. pose proof PI_RGT_0. auto_derive; [lra|field; lra]. Qed.
Lemma kernel_derivative : forall x y d, x <> y -> directional (fun z => laplace_kernel z y) x d (- vdot (vsub x y) d / 4 / PI / (vnorm (vsub x y) * vnorm (vsub x y) * vnorm (vsub x y))).
Proof.
  intros x y d H. pose proof (vnorm_pos _ (vsub_nonzero x y H)) as Q. pose proof PI_RGT_0.
  pose proof (radial (fun r => 1 / 4 / PI / r) _ x y d H (kernel_radial _ Q)) as X.
  replace (- vdot (vsub x y) d / 4 / PI / (vnorm (vsub x y) * vnorm (vsub x y) * vnorm (vsub x y)))
    with (- (1 / 4 / PI / (vnorm (vsub x y) * vnorm (vsub x y) * vnorm (vsub x y))) * vnorm (vsub x y) * (vdot (vsub x y) d / vnorm (vsub x y))) by (field; lra).
  exact X.
Qed.
(** the double layer kernel is the derivative of the single layer kernel in the second point along the vector y_n *)
Theorem C49_normal_derivative : forall x y y_n, x <> y -> directional (fun z => laplace_kernel x z) y y_n (laplace_dl_kernel x y y_n).
Proof.
  intros x y n H. assert (H' : y <> x) by congruence. pose proof (kernel_derivative y x n H') as X. unfold laplace_dl_kernel.
  rewrite (vnorm_sym y x) in X. replace (- vdot (vsub y x) n) with (vdot (vsub x y) n) in X by (unfold vdot, vsub, vx, vy, vz; cbn [fst snd]; ring).
  unfold directional in *. apply is_derive_Reals. apply is_derive_Reals in X. eapply is_derive_ext; [|exact X]. intros t. apply C49_single_layer_symmetric.
Qed.
(** the adjoint double layer kernel is the derivative in the first point *)
Theorem C49_adjoint_normal_derivative : forall x y x_n, x <> y -> directional (fun z => laplace_kernel z y) x x_n (laplace_adl_kernel x x_n y).
Proof.
  intros x y n H. pose proof (kernel_derivative x y n H) as X. unfold laplace_adl_kernel.
  replace (vdot (vscal (-1) (vsub x y)) n) with (- vdot (vsub x y) n) by (unfold vdot, vscal, vx, vy, vz; cbn [fst snd]; ring). exact X.
Qed.
(** the gradient of the single layer potential uses the gradient of the kernel; the double layer potential uses the same
    kernel as the operator *)
Theorem C49_gradient : forall x y d, x <> y -> directional (fun z => laplace_kernel z y) x d (vdot (laplace_gradient x y) d).
Proof.
  intros x y d H. pose proof (kernel_derivative x y d H) as X. pose proof (vnorm_pos _ (vsub_nonzero x y H)) as Q. pose proof PI_RGT_0.
  replace (vdot (laplace_gradient x y) d) with (- vdot (vsub x y) d / 4 / PI / (vnorm (vsub x y) * vnorm (vsub x y) * vnorm (vsub x y))); [exact X|].
  unfold laplace_gradient. set (c := vsub x y) in *. clearbody c. set (r := vnorm c) in *. clearbody r. unfold vdot, vx, vy, vz; cbn [fst snd]. field. lra.
Qed.
Theorem C49_potential : forall x y n, vdot (laplace_dl_gradient x y) n = laplace_dl_kernel x y n.
Proof.
  intros x y n. unfold laplace_dl_gradient, laplace_dl_kernel. set (c := vsub x y). set (r := vnorm c * vnorm c * vnorm c).
  clearbody r. clearbody c. unfold vdot, vx, vy, vz; cbn [fst snd]. unfold Rdiv. ring.
Qed.
(** the kernel is harmonic away from y *)
Theorem C49_harmonic : forall x y, x <> y -> laplacian (fun z => laplace_kernel z y) x 0.
Proof.
  intros x y H. pose proof (vnorm_pos _ (vsub_nonzero x y H)) as Q. pose proof PI_RGT_0.
  pose proof (radial_laplacian (fun r => 1 / 4 / PI / r) (fun r => - (1 / 4 / PI / (r * r * r))) (fun r => 3 / 4 / PI / (r * r * r * r)) x y H kernel_radial) as X.
  cbv zeta in X.
  replace 0 with (3 / 4 / PI / (vnorm (vsub x y) * vnorm (vsub x y) * vnorm (vsub x y) * vnorm (vsub x y)) * vnorm (vsub x y) + 3 * - (1 / 4 / PI / (vnorm (vsub x y) * vnorm (vsub x y) * vnorm (vsub x y)))) by (field; lra).
  apply X. intros r Hr. auto_derive; [|field; lra]. intros E. apply Rmult_integral in E. destruct E as [E|E]; [apply Rmult_integral in E; destruct E|]; lra.
Qed.
(** without the exchange the double layer kernel is not symmetric *)
Example C49_double_layer_not_symmetric : exists x y n, laplace_dl_kernel x y n <> laplace_dl_kernel y x n.
Proof.
  exists (1, 0, 0), (0, 0, 0), (1, 0, 0). unfold laplace_dl_kernel, vnorm, vdot, vsub, vx, vy, vz; cbn [fst snd].
  replace ((1 - 0) * (1 - 0) + (0 - 0) * (0 - 0) + (0 - 0) * (0 - 0)) with 1 by ring. replace ((0 - 1) * (0 - 1) + (0 - 0) * (0 - 0) + (0 - 0) * (0 - 0)) with 1 by ring.
  rewrite sqrt_1. pose proof PI_RGT_0. intros E. apply (f_equal (fun v => v * (4 * PI))) in E. field_simplify in E; lra.
Qed.
Example C49_points : (1, 2, 3) <> (0, 0, 0) :> vec3.
Proof. intros E. apply (f_equal (fun v : vec3 => vx v)) in E. unfold vx in E; cbn in E. lra. Qed.

(** ** C59: Helmholtz *)
Lemma cdiv_real : forall z a, a <> 0 -> (z / RtoC a)%C = (fst z / a, snd z / a).
Proof. intros [u v] a H. unfold Cdiv, Cinv, Cmult, RtoC; cbn [fst snd]. f_equal; field; assumption. Qed.
Lemma cmul_real : forall z a, (z * RtoC a)%C = (fst z * a, snd z * a).
Proof. intros [u v] a. unfold Cmult, RtoC; cbn [fst snd]. f_equal; ring. Qed.
Definition hk (k : C) (r : R) : C :=
  (exp (snd k * r) * cos (fst k * r) / 4 / PI / r, - (exp (snd k * r) * sin (fst k * r)) / 4 / PI / r).
Definition hphi (k : C) (r : R) : C :=
  (- (exp (snd k * r) * (cos (fst k * r) * (1 - snd k * r) + fst k * r * sin (fst k * r))) / 4 / PI / (r * r * r),
   - (exp (snd k * r) * (cos (fst k * r) * (fst k * r) - sin (fst k * r) * (1 - snd k * r))) / 4 / PI / (r * r * r)).
Lemma cexp_value : forall k r, cexp (- Ci * k * RtoC r)%C = (exp (snd k * r) * cos (fst k * r), - (exp (snd k * r) * sin (fst k * r))).
Proof.
  intros [a b] r. unfold cexp, Ci, Cmult, Copp, RtoC; cbn [fst snd].
  replace ((- 0 * a - - (1) * b) * r - (- 0 * b + - (1) * a) * 0) with (b * r) by ring.
  replace ((- 0 * a - - (1) * b) * 0 + (- 0 * b + - (1) * a) * r) with (- (a * r)) by ring.
  rewrite cos_neg, sin_neg. f_equal. ring.
Qed.
Lemma helmholtz_radial : forall k x y, x <> y -> helmholtz_kernel k x y = hk k (vnorm (vsub x y)).
Proof.
  intros k x y H. pose proof (vnorm_pos _ (vsub_nonzero x y H)) as Q. pose proof PI_RGT_0. unfold helmholtz_kernel. rewrite cexp_value.
  rewrite !cdiv_real by lra. reflexivity.
Qed.
Lemma hk_re : forall k r, 0 < r -> is_derive (fun r => fst (hk k r)) r (fst (hphi k r) * r).
Proof. intros [a b] r H. pose proof PI_RGT_0. unfold hk, hphi; cbn [fst snd]. auto_derive; [lra|field; lra]. Qed.
Lemma hk_im : forall k r, 0 < r -> is_derive (fun r => snd (hk k r)) r (snd (hphi k r) * r).
Proof. intros [a b] r H. pose proof PI_RGT_0. unfold hk, hphi; cbn [fst snd]. auto_derive; [lra|field; lra]. Qed.
Lemma cube_pos : forall r, 0 < r -> r * r * r <> 0.
Proof. intros r H E. apply Rmult_integral in E. destruct E as [E|E]; [apply Rmult_integral in E; destruct E|]; lra. Qed.
(** derivatives of phi *)
Lemma hphi_re : forall k r, 0 < r -> is_derive (fun r => fst (hphi k r)) r ((- fst (k * k * hk k r)%C - 3 * fst (hphi k r)) / r).
Proof.
  intros [a b] r H. pose proof PI_RGT_0. pose proof (cube_pos r H). unfold hk, hphi, Cmult; cbn [fst snd]. auto_derive; [auto|]. field. lra.
Qed.
Lemma hphi_im : forall k r, 0 < r -> is_derive (fun r => snd (hphi k r)) r ((- snd (k * k * hk k r)%C - 3 * snd (hphi k r)) / r).
Proof.
  intros [a b] r H. pose proof PI_RGT_0. pose proof (cube_pos r H). unfold hk, hphi, Cmult; cbn [fst snd]. auto_derive; [auto|]. field. lra.
Qed.
Lemma hk_directional : forall k x y d, x <> y ->
  cdirectional (fun z => helmholtz_kernel k z y) x d (hphi k (vnorm (vsub x y)) * RtoC (vdot (vsub x y) d))%C.
Proof.
  intros k x y d H. pose proof (vnorm_pos _ (vsub_nonzero x y H)) as Q. rewrite cmul_real. destruct (neighbourhood x y H) as [eps [He Hn]].
  assert (L : forall pr : C -> R, forall l, is_derive (fun t => pr (hk k (vnorm (vsub (along x d t) y)))) 0 l -> is_derive (fun t => pr (helmholtz_kernel k (along x d t) y)) 0 l).
  { intros pr l D. apply (is_derive_ext_loc (fun t => pr (hk k (vnorm (vsub (along x d t) y))))); [|exact D].
    pose proof (norm_line (vsub x y) d (vsub_nonzero x y H)) as N.
    assert (Ct : continuous (fun t => vnorm (vadd (vsub x y) (vscal t d))) 0) by (apply (ex_derive_continuous (fun t => vnorm (vadd (vsub x y) (vscal t d)))); eexists; exact N).
    specialize (Ct (fun u => 0 < u)). cbv beta in Ct. rewrite vscal0 in Ct.
    assert (Lo : locally (vnorm (vsub x y)) (fun u => 0 < u)).
    { exists (mkposreal _ Q). intros u Hu. unfold ball in Hu; simpl in Hu; unfold AbsRing_ball, abs, minus, plus, opp in Hu; simpl in Hu.
      apply Rabs_def2 in Hu. lra. }
    specialize (Ct Lo). unfold filtermap in Ct. revert Ct. apply filter_imp. intros t Ht. rewrite <- along_sub in Ht. rewrite helmholtz_radial; [reflexivity|].
    intros E. rewrite E in Ht. assert (Z : vnorm (vsub y y) = 0); [|lra]. unfold vnorm. replace (vdot (vsub y y) (vsub y y)) with 0; [apply sqrt_0|].
    unfold vdot, vsub, vx, vy, vz; cbn [fst snd]. ring. }
  split; unfold directional; cbn [fst snd]; apply is_derive_Reals; apply L; apply is_derive_Reals.
  - pose proof (radial (fun r => fst (hk k r)) _ x y d H (hk_re k _ Q)) as X. unfold directional in X.
    replace (fst (hphi k (vnorm (vsub x y))) * vdot (vsub x y) d) with (fst (hphi k (vnorm (vsub x y))) * vnorm (vsub x y) * (vdot (vsub x y) d / vnorm (vsub x y))) by (field; lra). exact X.
  - pose proof (radial (fun r => snd (hk k r)) _ x y d H (hk_im k _ Q)) as X. unfold directional in X.
    replace (snd (hphi k (vnorm (vsub x y))) * vdot (vsub x y) d) with (snd (hphi k (vnorm (vsub x y))) * vnorm (vsub x y) * (vdot (vsub x y) d / vnorm (vsub x y))) by (field; lra). exact X.
Qed.
Lemma dl_value : forall k x y n, x <> y -> helmholtz_dl_kernel k x y n = (- (hphi k (vnorm (vsub x y)) * RtoC (vdot (vsub x y) n)))%C.
Proof.
  intros [a b] x y n H. pose proof (vnorm_pos _ (vsub_nonzero x y H)) as Q. pose proof PI_RGT_0. unfold helmholtz_dl_kernel. rewrite cexp_value.
  pose proof (cube_pos _ Q). rewrite !cdiv_real by lra. set (r := vnorm (vsub x y)) in *. set (v := vdot (vsub x y) n). clearbody v. clearbody r.
  unfold hphi, Cmult, Copp, Cplus, Ci, RtoC; cbn [fst snd]. f_equal; field; lra.
Qed.
Lemma adl_value : forall k x y n, x <> y -> helmholtz_adl_kernel k x n y = (hphi k (vnorm (vsub x y)) * RtoC (vdot (vsub x y) n))%C.
Proof.
  intros [a b] x y n H. pose proof (vnorm_pos _ (vsub_nonzero x y H)) as Q. pose proof PI_RGT_0. unfold helmholtz_adl_kernel. rewrite cexp_value.
  replace (vdot (vscal (-1) (vsub x y)) n) with (- vdot (vsub x y) n) by (unfold vdot, vscal, vx, vy, vz; cbn [fst snd]; ring).
  pose proof (cube_pos _ Q). rewrite !cdiv_real by lra. set (r := vnorm (vsub x y)) in *. set (v := vdot (vsub x y) n). clearbody v. clearbody r.
  unfold hphi, Cmult, Copp, Cplus, Ci, RtoC; cbn [fst snd]. f_equal; field; lra.
Qed.
Theorem C59_single_layer_symmetric : forall k x y, helmholtz_kernel k x y = helmholtz_kernel k y x.
Proof. intros. unfold helmholtz_kernel. rewrite vnorm_sym. reflexivity. Qed.
Theorem C59_adjoint_kernel : forall k x n y, helmholtz_adl_kernel k x n y = helmholtz_dl_kernel k y x n.
Proof.
  intros. unfold helmholtz_adl_kernel, helmholtz_dl_kernel. rewrite (vnorm_sym y x).
  replace (vdot (vscal (-1) (vsub x y)) n) with (vdot (vsub y x) n) by (unfold vdot, vscal, vsub, vx, vy, vz; cbn [fst snd]; ring). reflexivity.
Qed.
Definition no_cmatrix : cmat := fun _ _ => RtoC 0.
Lemma on_parts_value : forall f w m (i j : nat) (b : R), (forall w m, f w m i j = m i j + w * b) -> on_parts f w m i j = (m i j + w * RtoC b)%C.
Proof. intros f w m i j b H. unfold on_parts. rewrite !H. rewrite cmul_real. unfold Cplus; cbn [fst snd]. reflexivity. Qed.
Lemma cinteraction : forall ss s t w m i j, (i < ss_n2 ss)%nat -> (j < ss_n2 ss)%nat ->
  on_parts (fun w => addScaledBasisInteraction ss w s t) w m i j = (m i j + w * RtoC (shape (ss_p ss) i s * shape (ss_p ss) j t))%C.
Proof. intros. apply on_parts_value. intros. apply interaction_value; assumption. Qed.
Theorem C59_single_layer_integrand : forall k ss p1 p2 i j, (i < ss_n2 ss)%nat -> (j < ss_n2 ss)%nat ->
  helmholtz_sl_integrand k ss p1 p2 no_cmatrix i j = helmholtz_sl_integrand k ss p2 p1 no_cmatrix j i.
Proof.
  intros k ss p1 p2 i j Hi Hj. unfold helmholtz_sl_integrand. rewrite !cinteraction by assumption. rewrite (C59_single_layer_symmetric k (p_f p2)). unfold no_cmatrix.
  rewrite !RtoC_mult. ring.
Qed.
Theorem C59_adjoint : forall k ss p1 p2 i j, (i < ss_n2 ss)%nat -> (j < ss_n2 ss)%nat ->
  helmholtz_adl_integrand k ss p1 p2 no_cmatrix i j = helmholtz_dl_integrand k ss p2 p1 no_cmatrix j i.
Proof.
  intros k ss p1 p2 i j Hi Hj. unfold helmholtz_adl_integrand, helmholtz_dl_integrand. rewrite !cinteraction by assumption. rewrite C59_adjoint_kernel. unfold no_cmatrix.
  rewrite !RtoC_mult. ring.
Qed.
(** derivatives of the kernel: the double layer kernel, the adjoint double layer kernel and the gradient in the Maxwell potential *)
Theorem C59_normal_derivative : forall k x y y_n, x <> y -> cdirectional (fun z => helmholtz_kernel k x z) y y_n (helmholtz_dl_kernel k x y y_n).
Proof.
  intros k x y n H. assert (H' : y <> x) by congruence. pose proof (hk_directional k y x n H') as X. rewrite (dl_value k x y n H).
  replace (- (hphi k (vnorm (vsub x y)) * vdot (vsub x y) n))%C with (hphi k (vnorm (vsub y x)) * RtoC (vdot (vsub y x) n))%C.
  - destruct X as [X1 X2]. split; unfold directional in *; apply is_derive_Reals; [apply is_derive_Reals in X1|apply is_derive_Reals in X2];
      (eapply is_derive_ext; [|eassumption]); intros t; cbv beta; rewrite C59_single_layer_symmetric; reflexivity.
  - rewrite (vnorm_sym y x). replace (vdot (vsub x y) n) with (- vdot (vsub y x) n) by (unfold vdot, vsub, vx, vy, vz; cbn [fst snd]; ring). rewrite RtoC_opp. ring.
Qed.
Theorem C59_adjoint_normal_derivative : forall k x y x_n, x <> y -> cdirectional (fun z => helmholtz_kernel k z y) x x_n (helmholtz_adl_kernel k x x_n y).
Proof. intros k x y n H. rewrite (adl_value k x y n H). apply hk_directional, H. Qed.
Theorem C59_gradient : forall k x y d, x <> y ->
  cdirectional (fun z => helmholtz_kernel k z y) x d
    (let '(g1, g2, g3) := maxwell_gradient k x y in g1 * RtoC (vx d) + g2 * RtoC (vy d) + g3 * RtoC (vz d))%C.
Proof.
  intros k x y d H. pose proof (vnorm_pos _ (vsub_nonzero x y H)) as Q. pose proof (hk_directional k x y d H) as X. pose proof PI_RGT_0. pose proof (cube_pos _ Q).
  assert (G : (let '(g1, g2, g3) := maxwell_gradient k x y in g1 * RtoC (vx d) + g2 * RtoC (vy d) + g3 * RtoC (vz d))%C = (hphi k (vnorm (vsub x y)) * RtoC (vdot (vsub x y) d))%C).
  { unfold maxwell_gradient. cbv zeta.
    assert (EA : (cexp (- Ci * k * RtoC (vnorm (vsub x y))) * (- RtoC 1 - Ci * k * RtoC (vnorm (vsub x y))) / RtoC 4 / RtoC PI / RtoC (vnorm (vsub x y) * vnorm (vsub x y) * vnorm (vsub x y)))%C = hphi k (vnorm (vsub x y))).
    { rewrite cexp_value. rewrite !cdiv_real by lra. set (r := vnorm (vsub x y)) in *. clearbody r. destruct k as [a b].
      unfold hphi, Cmult, Copp, Cminus, Cplus, Ci, RtoC; cbn [fst snd]; unfold Copp; cbn [fst snd]. f_equal; field; lra. }
    rewrite EA. unfold vdot. rewrite !RtoC_plus, !RtoC_mult. ring. }
  rewrite G. exact X.
Qed.
(** the Helmholtz equation away from y *)
Theorem C59_helmholtz_equation : forall k x y, x <> y -> claplacian (fun z => helmholtz_kernel k z y) x (- (k * k * helmholtz_kernel k x y))%C.
Proof.
  intros k x y H. pose proof (vnorm_pos _ (vsub_nonzero x y H)) as Q. rewrite (helmholtz_radial k x y H).
  assert (E : forall (pr : C -> R) l, laplacian (fun z => pr (hk k (vnorm (vsub z y)))) x l -> laplacian (fun z => pr (helmholtz_kernel k z y)) x l).
  { intros pr l [g1 [g2 [g3 [l1 [l2 [l3 [[eps [He D]] R]]]]]]]. exists g1, g2, g3, l1, l2, l3. split; [|exact R].
    destruct (neighbourhood x y H) as [eps2 [He2 Hn]]. exists (Rmin eps eps2). split; [apply Rmin_glb_lt; assumption|]. intros z Hz.
    assert (Hz1 : vnorm (vsub z x) < eps) by (eapply Rlt_le_trans; [exact Hz|apply Rmin_l]). assert (Hz2 : vnorm (vsub z x) < eps2) by (eapply Rlt_le_trans; [exact Hz|apply Rmin_r]).
    specialize (D z Hz1). apply Hn in Hz2.
    assert (T : forall d l, directional (fun z => pr (hk k (vnorm (vsub z y)))) z d l -> directional (fun z => pr (helmholtz_kernel k z y)) z d l).
    { intros d l0 X. unfold directional in *. apply is_derive_Reals. apply is_derive_Reals in X. apply (is_derive_ext_loc (fun t => pr (hk k (vnorm (vsub (along z d t) y))))); [|exact X].
      pose proof (vnorm_pos _ (vsub_nonzero z y Hz2)) as Qz. pose proof (norm_line (vsub z y) d (vsub_nonzero z y Hz2)) as N.
      assert (Ct : continuous (fun t => vnorm (vadd (vsub z y) (vscal t d))) 0) by (apply (ex_derive_continuous (fun t => vnorm (vadd (vsub z y) (vscal t d)))); eexists; exact N).
      specialize (Ct (fun u => 0 < u)). cbv beta in Ct. rewrite vscal0 in Ct.
      assert (Lo : locally (vnorm (vsub z y)) (fun u => 0 < u)).
      { exists (mkposreal _ Qz). intros u Hu. unfold ball in Hu; simpl in Hu; unfold AbsRing_ball, abs, minus, plus, opp in Hu; simpl in Hu.
        apply Rabs_def2 in Hu. lra. }
      specialize (Ct Lo). unfold filtermap in Ct. revert Ct. apply filter_imp. intros t Ht. rewrite <- along_sub in Ht. rewrite helmholtz_radial; [reflexivity|].
      intros Ez. rewrite Ez in Ht. assert (Z : vnorm (vsub y y) = 0); [|lra]. unfold vnorm. replace (vdot (vsub y y) (vsub y y)) with 0; [apply sqrt_0|].
      unfold vdot, vsub, vx, vy, vz; cbn [fst snd]. ring. }
    destruct D as [D1 [D2 D3]]. split; [|split]; apply T; assumption. }
  split; apply (E fst) || apply (E snd).
  - pose proof (radial_laplacian (fun r => fst (hk k r)) (fun r => fst (hphi k r)) (fun r => (- fst (k * k * hk k r)%C - 3 * fst (hphi k r)) / r) x y H (hk_re k) (hphi_re k)) as X.
    cbv zeta in X. replace (fst (- (k * k * hk k (vnorm (vsub x y))))%C)
      with ((- fst (k * k * hk k (vnorm (vsub x y)))%C - 3 * fst (hphi k (vnorm (vsub x y)))) / vnorm (vsub x y) * vnorm (vsub x y) + 3 * fst (hphi k (vnorm (vsub x y)))); [exact X|].
    unfold Copp at 1; cbn [fst]. field. lra.
  - pose proof (radial_laplacian (fun r => snd (hk k r)) (fun r => snd (hphi k r)) (fun r => (- snd (k * k * hk k r)%C - 3 * snd (hphi k r)) / r) x y H (hk_im k) (hphi_im k)) as X.
    cbv zeta in X. replace (snd (- (k * k * hk k (vnorm (vsub x y))))%C)
      with ((- snd (k * k * hk k (vnorm (vsub x y)))%C - 3 * snd (hphi k (vnorm (vsub x y)))) / vnorm (vsub x y) * vnorm (vsub x y) + 3 * snd (hphi k (vnorm (vsub x y)))); [exact X|].
    unfold Copp at 1; cbn [snd]. field. lra.
Qed.
(** for the wave number zero the kernels are those of Laplace's equation *)
Theorem C59_wavenumber_zero : forall x y n, x <> y -> helmholtz_kernel (RtoC 0) x y = RtoC (laplace_kernel x y) /\
  helmholtz_dl_kernel (RtoC 0) x y n = RtoC (laplace_dl_kernel x y n) /\ helmholtz_adl_kernel (RtoC 0) x n y = RtoC (laplace_adl_kernel x n y).
Proof.
  intros x y n H. pose proof (vnorm_pos _ (vsub_nonzero x y H)) as Q. pose proof PI_RGT_0. pose proof (cube_pos _ Q).
  rewrite (helmholtz_radial _ x y H), (dl_value _ x y n H), (adl_value _ x y n H).
  unfold laplace_kernel, laplace_dl_kernel, laplace_adl_kernel.
  replace (vdot (vscal (-1) (vsub x y)) n) with (- vdot (vsub x y) n) by (unfold vdot, vscal, vx, vy, vz; cbn [fst snd]; ring).
  set (r := vnorm (vsub x y)) in *. set (v := vdot (vsub x y) n). clearbody r v.
  unfold hk, hphi, Copp, Cmult, RtoC; cbn [fst snd]. rewrite !Rmult_0_l, exp_0, cos_0, sin_0.
  repeat split; f_equal; field; lra.
Qed.

(* BEGIN ASSUMPTIONS *)
Print Assumptions C49_single_layer_symmetric.
Print Assumptions C49_single_layer_integrand.
Print Assumptions C49_adjoint.
Print Assumptions C49_normal_derivative.
Print Assumptions C49_adjoint_normal_derivative.
Print Assumptions C49_gradient.
Print Assumptions C49_potential.
Print Assumptions C49_harmonic.
Print Assumptions C59_single_layer_symmetric.
Print Assumptions C59_adjoint_kernel.
Print Assumptions C59_single_layer_integrand.
Print Assumptions C59_adjoint.
Print Assumptions C59_normal_derivative.
Print Assumptions C59_adjoint_normal_derivative.
Print Assumptions C59_gradient.
Print Assumptions C59_helmholtz_equation.
Print Assumptions C59_wavenumber_zero.
