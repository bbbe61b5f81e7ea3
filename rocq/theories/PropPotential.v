(** C63: the potentials. *)
From Coq Require Import Reals Arith Bool List Lia Lra QArith Qreals.
From Coquelicot Require Import Coquelicot.
From Verif Require Import ModelBase RSum ModelBernstein SpecBernstein ProofBernstein ModelTree ModelBall ModelQuad ModelAssembly ModelDuffy ModelUtil
  ModelOperators ModelForms SpecTree SpecOperators SpecForms ProofPar ProofAssembly ProofOperators PropOperators ProofNearFar PropNearFar ProofForms
  ProofTree ProofTreeWF ProofTreeHist PropTree PropAssembly PropForms ProofPotential.
Import ListNotations.
Local Close Scope Q_scope.
Local Open Scope R_scope.

Lemma pot_value : forall f els (Q : cubature) npts odim nthreads m i o F, (0 < nthreads)%nat -> (i < npts)%nat -> (o < odim)%nat ->
  potential f (fst Q) (snd Q) npts odim els nthreads m ->
  (forall e s w, In e els -> f e s w i o = w * F e s) -> m i o = surface_sum els Q F.
Proof.
  intros f els Q npts odim nthreads m i o F Hn Hi Ho P H. rewrite (C50_potential f (fst Q) (snd Q) npts odim els nthreads m Hn P i o Hi Ho).
  unfold surface_sum. apply rsum_ext. intros k Hk. destruct (nth_error els k) as [e|] eqn:Ek; [|reflexivity]. apply nth_error_In in Ek.
  unfold q_size. rewrite <- rsum_scal. apply rsum_ext. intros q Hq. rewrite (H e _ _ Ek). unfold q_w, q_xi. ring.
Qed.
Lemma surface_ext : forall els Q F G, (forall e s, In e els -> F e s = G e s) -> surface_sum els Q F = surface_sum els Q G.
Proof.
  intros els Q F G H. unfold surface_sum. apply rsum_ext. intros k Hk. destruct (nth_error els k) as [e|] eqn:Ek; [|reflexivity]. apply nth_error_In in Ek.
  f_equal. apply rsum_ext. intros. rewrite (H _ _ Ek). reflexivity.
Qed.

Section Mesh.
Context {Pt : Type} (close : Pt -> Pt -> bool) (corners : list (list Pt)) (M : nat) (t : tree) (els : list node).
Hypothesis Hm : uniform_mesh close corners M t els.
Variables (X : surface) (Q : cubature) (ss : sspace) (nd : nat) (T : mat).

Section Real.
Variables (v : arr) (E : evaluator surface arr) (vh : node -> spoint -> R).
Hypothesis HE : evaluator_of t X ss 1 nd T v E.
Hypothesis Hv : forall e p, In e els -> evaluate_scalar ss E e p = Some (vh e p).
Lemma weight_free : forall e s w, In e els -> vh e (surf_point X e s w) = vh e (surf_point X e s 1).
Proof.
  intros e s w I. pose proof (Hv e (surf_point X e s w) I) as A. pose proof (Hv e (surf_point X e s 1) I) as B.
  rewrite (C61_scalar close corners M t els Hm X ss nd T v E e _ HE I) in A. rewrite (C61_scalar close corners M t els Hm X ss nd T v E e _ HE I) in B. cbn [p_s surf_point] in A, B. congruence.
Qed.
(** the single layer potential is the integral of the kernel times the function, whatever the schedule *)
Theorem C63_single_layer : forall points npts nthreads m i, (0 < nthreads)%nat -> (i < npts)%nat ->
  potential (sl_integrand ss X E points) (fst Q) (snd Q) npts 1 els nthreads m ->
  m i 0%nat = surface_sum els Q (fun e s => let p := surf_point X e s 1 in laplace_kernel (points i) (p_f p) * vh e p * p_kappa p).
Proof.
  intros points npts nthreads m i Hn Hi P. eapply pot_value; [exact Hn|exact Hi| |exact P|]; [lia|]. intros e s w I. unfold sl_integrand, laplace_sl_potential.
  rewrite (Hv _ _ I). cbn [bind value_or_zero]. rewrite (weight_free e s w I). cbv zeta. cbn [p_f p_w surf_point]. change (p_kappa (surf_point X e s w)) with (p_kappa (surf_point X e s 1)). ring.
Qed.
(** the double layer potential: n is the normal times the surface measure *)
Theorem C63_double_layer : forall points npts nthreads m i, (0 < nthreads)%nat -> (i < npts)%nat ->
  potential (dl_integrand ss X E points) (fst Q) (snd Q) npts 1 els nthreads m ->
  m i 0%nat = surface_sum els Q (fun e s => let p := surf_point X e s 1 in laplace_dl_kernel (points i) (p_f p) (vcross (p_dx p) (p_dy p)) * vh e p).
Proof.
  intros points npts nthreads m i Hn Hi P. eapply pot_value; [exact Hn|exact Hi| |exact P|]; [lia|]. intros e s w I. unfold dl_integrand, laplace_dl_potential.
  rewrite (Hv _ _ I). cbn [bind value_or_zero]. rewrite (weight_free e s w I), C49_potential. cbv zeta. change (p_w (surf_point X e s w)) with w. unfold p_n. cbn [p_f p_dx p_dy surf_point]. ring.
Qed.
Theorem C63_gradient_value : forall points npts nthreads m i o, (0 < nthreads)%nat -> (i < npts)%nat -> (o < 3)%nat ->
  potential (sl_gradient_integrand ss X E points) (fst Q) (snd Q) npts 3 els nthreads m ->
  m i o = surface_sum els Q (fun e s => let p := surf_point X e s 1 in component3 (laplace_gradient (points i) (p_f p)) o * vh e p * p_kappa p).
Proof.
  intros points npts nthreads m i o Hn Hi Ho P. eapply pot_value; [exact Hn|exact Hi|exact Ho|exact P|]. intros e s w I. unfold sl_gradient_integrand, laplace_sl_gradient_potential.
  rewrite (Hv _ _ I). cbn [bind]. rewrite (weight_free e s w I). cbv zeta. change (p_w (surf_point X e s w)) with w. change (p_kappa (surf_point X e s w)) with (p_kappa (surf_point X e s 1)). cbn [p_f surf_point].
  destruct o as [|[|[|o]]]; [| | |lia]; unfold component3, vscal, vx, vy, vz; cbn [fst snd]; ring.
Qed.
(** both potentials are harmonic away from the surface *)
Theorem C63_single_layer_harmonic : exists U, (forall points npts nthreads m i, (0 < nthreads)%nat -> (i < npts)%nat ->
    potential (sl_integrand ss X E points) (fst Q) (snd Q) npts 1 els nthreads m -> m i 0%nat = U (points i)) /\
  forall x, off_surface X els Q x -> laplacian U x 0.
Proof.
  exists (fun x => surface_sum els Q (fun e s => let p := surf_point X e s 1 in laplace_kernel x (p_f p) * vh e p * p_kappa p)).
  split; [intros; eapply C63_single_layer; eassumption|]. intros x Hx.
  replace 0 with (surface_sum els Q (fun e s => 0)).
  - apply (lap_surface els Q (fun z e s => let p := surf_point X e s 1 in laplace_kernel z (p_f p) * vh e p * p_kappa p)). intros e q I Hq. cbv zeta. set (p := surf_point X e (q_xi Q q) 1).
    apply (lap_ext (fun z => vh e p * p_kappa p * laplace_kernel z (p_f p))); [intros; ring|]. replace 0 with (vh e p * p_kappa p * 0) by ring. apply lap_scal, C49_harmonic.
    intros Z. apply (Hx e q I Hq). symmetry. exact Z.
  - unfold surface_sum. apply rsum_zero. intros k Hk. destruct (nth_error els k); [|reflexivity]. rewrite rsum_zero; intros; ring.
Qed.
Lemma dl_harmonic : forall x y n, x <> y -> laplacian (fun z => laplace_dl_kernel z y n) x 0.
Proof.
  intros x y n H. pose proof (vnorm_pos _ (vsub_nonzero x y H)) as P. pose proof PI_RGT_0.
  pose proof (dipole_laplacian (fun r => 1 / 4 / PI / (r * r * r)) (fun r => - (3 / 4 / PI / (r * r * r * r * r))) (fun r => 15 / 4 / PI / (r * r * r * r * r * r)) x y n H) as D.
  cbv zeta in D. set (r := vnorm (vsub x y)) in *.
  assert (Cu : forall s, 0 < s -> s * s * s <> 0) by apply cube_pos.
  replace 0 with ((15 / 4 / PI / (r * r * r * r * r * r) * r + 5 * - (3 / 4 / PI / (r * r * r * r * r))) * vdot (vsub x y) n) by (field; lra).
  apply (lap_ext (fun z => 1 / 4 / PI / (vnorm (vsub z y) * vnorm (vsub z y) * vnorm (vsub z y)) * vdot (vsub z y) n)).
  - intros z. unfold laplace_dl_kernel. cbv zeta. unfold Rdiv. ring.
  - apply D.
    + intros s Hs. auto_derive; [apply Cu; exact Hs|]. field. lra.
    + intros s Hs. auto_derive; [|field; lra]. intros Z. apply Rmult_integral in Z. destruct Z as [Z|Z]; [|lra]. apply Rmult_integral in Z. destruct Z as [Z|Z]; [|lra]. apply (Cu s Hs Z).
Qed.
Theorem C63_double_layer_harmonic : exists U, (forall points npts nthreads m i, (0 < nthreads)%nat -> (i < npts)%nat ->
    potential (dl_integrand ss X E points) (fst Q) (snd Q) npts 1 els nthreads m -> m i 0%nat = U (points i)) /\
  forall x, off_surface X els Q x -> laplacian U x 0.
Proof.
  exists (fun x => surface_sum els Q (fun e s => let p := surf_point X e s 1 in laplace_dl_kernel x (p_f p) (vcross (p_dx p) (p_dy p)) * vh e p)).
  split; [intros; eapply C63_double_layer; eassumption|]. intros x Hx.
  replace 0 with (surface_sum els Q (fun e s => 0)).
  - apply (lap_surface els Q (fun z e s => let p := surf_point X e s 1 in laplace_dl_kernel z (p_f p) (vcross (p_dx p) (p_dy p)) * vh e p)). intros e q I Hq. cbv zeta. set (p := surf_point X e (q_xi Q q) 1).
    apply (lap_ext (fun z => vh e p * laplace_dl_kernel z (p_f p) (vcross (p_dx p) (p_dy p)))); [intros; ring|]. replace 0 with (vh e p * 0) by ring. apply lap_scal, dl_harmonic.
    intros Z. apply (Hx e q I Hq). symmetry. exact Z.
  - unfold surface_sum. apply rsum_zero. intros k Hk. destruct (nth_error els k); [|reflexivity]. rewrite rsum_zero; intros; ring.
Qed.
(** the gradient potential is the gradient of the single layer potential *)
Theorem C63_gradient : exists U, (forall points npts nthreads m i, (0 < nthreads)%nat -> (i < npts)%nat ->
    potential (sl_integrand ss X E points) (fst Q) (snd Q) npts 1 els nthreads m -> m i 0%nat = U (points i)) /\
  forall points npts nthreads m i d, (0 < nthreads)%nat -> (i < npts)%nat ->
    potential (sl_gradient_integrand ss X E points) (fst Q) (snd Q) npts 3 els nthreads m -> off_surface X els Q (points i) ->
    directional U (points i) d (vdot (m i 0%nat, m i 1%nat, m i 2%nat) d).
Proof.
  exists (fun x => surface_sum els Q (fun e s => let p := surf_point X e s 1 in laplace_kernel x (p_f p) * vh e p * p_kappa p)).
  split; [intros; eapply C63_single_layer; eassumption|]. intros points npts nthreads m i d Hn Hi P Hx.
  rewrite !(C63_gradient_value points npts nthreads m i _ Hn Hi) by (try exact P; lia). unfold vdot, vx, vy, vz; cbn [fst snd].
  assert (Sc : forall f c, surface_sum els Q f * c = surface_sum els Q (fun e s => f e s * c)).
  { intros f c. unfold surface_sum. rewrite <- rsum_scal_r. apply rsum_ext. intros k Hk. destruct (nth_error els k); [|ring]. rewrite Rmult_assoc, <- rsum_scal_r. f_equal. apply rsum_ext. intros. ring. }
  assert (Pl : forall f g, surface_sum els Q f + surface_sum els Q g = surface_sum els Q (fun e s => f e s + g e s)).
  { intros f g. unfold surface_sum. rewrite <- rsum_plus. apply rsum_ext. intros k Hk. destruct (nth_error els k); [|ring]. rewrite <- Rmult_plus_distr_l, <- rsum_plus. f_equal. apply rsum_ext. intros. ring. }
  rewrite !Sc, !Pl.
  apply (dir_surface els Q (fun z e s => let p := surf_point X e s 1 in laplace_kernel z (p_f p) * vh e p * p_kappa p)). intros e q I Hq. cbv zeta beta. set (p := surf_point X e (q_xi Q q) 1).
  pose proof (C49_gradient (points i) (p_f p) d ltac:(intros Z; apply (Hx e q I Hq); symmetry; exact Z)) as G. apply (dir_scal _ _ _ _ (vh e p * p_kappa p)) in G.
  match goal with |- directional _ _ _ ?l => replace l with (vh e p * p_kappa p * vdot (laplace_gradient (points i) (p_f p)) d) by (unfold component3, vdot, vx, vy, vz; ring) end.
  assert (L : forall z, vh e p * p_kappa p * laplace_kernel z (p_f p) = laplace_kernel z (p_f p) * vh e p * p_kappa p) by (intros; ring).
  unfold directional in *. apply is_derive_Reals. apply is_derive_Reals in G. eapply is_derive_ext; [|exact G]. intros z. apply L.
Qed.
End Real.

(** ** complex coefficients: the real and the imaginary part *)
Section Complex.
Variables (vr vi : arr) (Er Ei : evaluator surface arr) (k : C).
Hypothesis HEr : evaluator_of t X ss 1 nd T vr Er.
Hypothesis HEi : evaluator_of t X ss 1 nd T vi Ei.
Variable vh : node -> spoint -> C.
(** vh: the function with these coefficients *)
Hypothesis Hvr : forall e p, In e els -> evaluate_scalar ss Er e p = Some (fst (vh e p)).
Hypothesis Hvi : forall e p, In e els -> evaluate_scalar ss Ei e p = Some (snd (vh e p)).
Lemma Hv : forall e p, In e els -> cevaluate_scalar ss Er Ei e p = Some (vh e p).
Proof. intros e p I. unfold cevaluate_scalar. rewrite (Hvr e p I), (Hvi e p I). cbn [bind]. rewrite <- surjective_pairing. reflexivity. Qed.
Lemma cweight_free : forall e s w, In e els -> vh e (surf_point X e s w) = vh e (surf_point X e s 1).
Proof.
  intros e s w I. pose proof (Hv e (surf_point X e s w) I) as A. pose proof (Hv e (surf_point X e s 1) I) as B. unfold cevaluate_scalar in A, B.
  rewrite (C61_scalar close corners M t els Hm X ss nd T vr Er e _ HEr I), (C61_scalar close corners M t els Hm X ss nd T vi Ei e _ HEi I) in A.
  rewrite (C61_scalar close corners M t els Hm X ss nd T vr Er e _ HEr I), (C61_scalar close corners M t els Hm X ss nd T vi Ei e _ HEi I) in B. cbn [bind p_s surf_point] in A, B. congruence.
Qed.
Theorem C63_helmholtz_single_layer : forall points npts nthreads mr mi i, (0 < nthreads)%nat -> (i < npts)%nat ->
  potential (hsl_integrand fst k ss X Er Ei points) (fst Q) (snd Q) npts 1 els nthreads mr ->
  potential (hsl_integrand snd k ss X Er Ei points) (fst Q) (snd Q) npts 1 els nthreads mi ->
  (mr i 0%nat, mi i 0%nat) = csurface_sum els Q (fun e s => let p := surf_point X e s 1 in helmholtz_kernel k (points i) (p_f p) * vh e p * RtoC (p_kappa p))%C.
Proof.
  intros points npts nthreads mr mi i Hn Hi Pr Pi. unfold csurface_sum.
  f_equal; (eapply pot_value; [exact Hn|exact Hi| |eassumption|]; [lia|]); intros e s w I; unfold hsl_integrand, helmholtz_sl_potential;
    rewrite (Hv _ _ I); cbn [bind cvalue_or_zero]; rewrite (cweight_free e s w I); cbv zeta;
    change (p_w (surf_point X e s w)) with w; change (p_kappa (surf_point X e s w)) with (p_kappa (surf_point X e s 1)); change (p_f (surf_point X e s w)) with (p_f (surf_point X e s 1));
    rewrite (cmul_real _ w); cbn [fst snd]; ring.
Qed.
Theorem C63_helmholtz_double_layer : forall points npts nthreads mr mi i, (0 < nthreads)%nat -> (i < npts)%nat ->
  potential (hdl_integrand fst k ss X Er Ei points) (fst Q) (snd Q) npts 1 els nthreads mr ->
  potential (hdl_integrand snd k ss X Er Ei points) (fst Q) (snd Q) npts 1 els nthreads mi ->
  (mr i 0%nat, mi i 0%nat) = csurface_sum els Q (fun e s => let p := surf_point X e s 1 in helmholtz_dl_kernel k (points i) (p_f p) (vcross (p_dx p) (p_dy p)) * vh e p)%C.
Proof.
  intros points npts nthreads mr mi i Hn Hi Pr Pi. unfold csurface_sum.
  f_equal; (eapply pot_value; [exact Hn|exact Hi| |eassumption|]; [lia|]); intros e s w I; unfold hdl_integrand, helmholtz_dl_potential;
    rewrite (Hv _ _ I); cbn [bind cvalue_or_zero]; rewrite (cweight_free e s w I); cbv zeta;
    change (p_w (surf_point X e s w)) with w; change (p_n (surf_point X e s w)) with (vcross (p_dx (surf_point X e s 1)) (p_dy (surf_point X e s 1)));
    change (p_f (surf_point X e s w)) with (p_f (surf_point X e s 1)); rewrite (cmul_real _ w); cbn [fst snd]; ring.
Qed.
Lemma csurface_scal : forall c F, (c * csurface_sum els Q F)%C = csurface_sum els Q (fun e s => c * F e s)%C.
Proof.
  intros [a b] F. unfold csurface_sum.
  assert (Lin : forall f g a b, a * surface_sum els Q f + b * surface_sum els Q g = surface_sum els Q (fun e s => a * f e s + b * g e s)).
  { intros f g a' b'. unfold surface_sum. rewrite <- !rsum_scal, <- rsum_plus. apply rsum_ext. intros j Hj. destruct (nth_error els j) as [e|]; [|ring].
    rewrite (rsum_ext (fun q => q_w Q q * (a' * f e (q_xi Q q) + b' * g e (q_xi Q q))) (fun q => a' * (q_w Q q * f e (q_xi Q q)) + b' * (q_w Q q * g e (q_xi Q q)))) by (intros; ring).
    rewrite rsum_plus, !rsum_scal. ring. }
  unfold Cmult; cbn [fst snd]. f_equal.
  - replace (a * surface_sum els Q (fun e s => fst (F e s)) - b * surface_sum els Q (fun e s => snd (F e s))) with (a * surface_sum els Q (fun e s => fst (F e s)) + - b * surface_sum els Q (fun e s => snd (F e s))) by ring.
    rewrite Lin. apply surface_ext. intros. ring.
  - rewrite Lin. apply surface_ext. intros. ring.
Qed.
Lemma csurface_ext : forall F G, (forall e s, In e els -> F e s = G e s) -> csurface_sum els Q F = csurface_sum els Q G.
Proof. intros F G H. unfold csurface_sum. f_equal; apply surface_ext; intros e s I; rewrite (H e s I); reflexivity. Qed.
Lemma csurface_opp_scal : forall c F, (- (c * csurface_sum els Q F))%C = csurface_sum els Q (fun e s => - (c * F e s))%C.
Proof.
  intros c F. replace (- (c * csurface_sum els Q F))%C with (- c * csurface_sum els Q F)%C by ring. rewrite csurface_scal. apply csurface_ext. intros. ring.
Qed.
(** both Helmholtz potentials satisfy the Helmholtz equation away from the surface *)
Theorem C63_helmholtz_single_layer_equation : exists U : vec3 -> C, (forall points npts nthreads mr mi i, (0 < nthreads)%nat -> (i < npts)%nat ->
    potential (hsl_integrand fst k ss X Er Ei points) (fst Q) (snd Q) npts 1 els nthreads mr ->
    potential (hsl_integrand snd k ss X Er Ei points) (fst Q) (snd Q) npts 1 els nthreads mi -> (mr i 0%nat, mi i 0%nat) = U (points i)) /\
  forall x, off_surface X els Q x -> claplacian U x (- (k * k * U x))%C.
Proof.
  exists (fun x => csurface_sum els Q (fun e s => let p := surf_point X e s 1 in helmholtz_kernel k x (p_f p) * vh e p * RtoC (p_kappa p))%C).
  split; [intros; eapply C63_helmholtz_single_layer; eassumption|]. intros x Hx. rewrite csurface_opp_scal.
  apply (clap_surface els Q (fun z e s => let p := surf_point X e s 1 in helmholtz_kernel k z (p_f p) * vh e p * RtoC (p_kappa p))%C). intros e q I Hq. cbv zeta. set (p := surf_point X e (q_xi Q q) 1).
  apply (clap_ext (fun z => (vh e p * RtoC (p_kappa p)) * helmholtz_kernel k z (p_f p))%C); [intros; ring|].
  replace (- (k * k * (helmholtz_kernel k x (p_f p) * vh e p * RtoC (p_kappa p))))%C with ((vh e p * RtoC (p_kappa p)) * - (k * k * helmholtz_kernel k x (p_f p)))%C by ring.
  apply clap_scal, C59_helmholtz_equation. intros Z. apply (Hx e q I Hq). symmetry. exact Z.
Qed.
Lemma hdl_equation : forall x y n, x <> y -> claplacian (fun z => helmholtz_dl_kernel k z y n) x (- (k * k * helmholtz_dl_kernel k x y n))%C.
Proof.
  intros x y n H. rewrite (dl_value k x y n H).
  apply (clap_ext_off (fun z => - RtoC 1 * (hphi k (vnorm (vsub z y)) * RtoC (vdot (vsub z y) n)))%C _ x y); [exact H| |].
  - intros z Hz. rewrite (dl_value k z y n Hz). ring.
  - replace (- (k * k * - (hphi k (vnorm (vsub x y)) * vdot (vsub x y) n)))%C with (- RtoC 1 * - (k * k * (hphi k (vnorm (vsub x y)) * RtoC (vdot (vsub x y) n))))%C by ring.
    apply clap_scal, hdipole, H.
Qed.
Theorem C63_helmholtz_double_layer_equation : exists U : vec3 -> C, (forall points npts nthreads mr mi i, (0 < nthreads)%nat -> (i < npts)%nat ->
    potential (hdl_integrand fst k ss X Er Ei points) (fst Q) (snd Q) npts 1 els nthreads mr ->
    potential (hdl_integrand snd k ss X Er Ei points) (fst Q) (snd Q) npts 1 els nthreads mi -> (mr i 0%nat, mi i 0%nat) = U (points i)) /\
  forall x, off_surface X els Q x -> claplacian U x (- (k * k * U x))%C.
Proof.
  exists (fun x => csurface_sum els Q (fun e s => let p := surf_point X e s 1 in helmholtz_dl_kernel k x (p_f p) (vcross (p_dx p) (p_dy p)) * vh e p)%C).
  split; [intros; eapply C63_helmholtz_double_layer; eassumption|]. intros x Hx. rewrite csurface_opp_scal.
  apply (clap_surface els Q (fun z e s => let p := surf_point X e s 1 in helmholtz_dl_kernel k z (p_f p) (vcross (p_dx p) (p_dy p)) * vh e p)%C). intros e q I Hq. cbv zeta. set (p := surf_point X e (q_xi Q q) 1).
  apply (clap_ext (fun z => vh e p * helmholtz_dl_kernel k z (p_f p) (vcross (p_dx p) (p_dy p)))%C); [intros; ring|].
  replace (- (k * k * (helmholtz_dl_kernel k x (p_f p) (vcross (p_dx p) (p_dy p)) * vh e p)))%C with (vh e p * - (k * k * helmholtz_dl_kernel k x (p_f p) (vcross (p_dx p) (p_dy p))))%C by ring.
  apply clap_scal, hdl_equation. intros Z. apply (Hx e q I Hq). symmetry. exact Z.
Qed.
End Complex.

(** ** tangential fields with complex coefficients *)
(** every pair of coefficient vectors describes a field with a divergence *)
Theorem C63_maxwell_fields : forall vr vi Er Ei, evaluator_of t X ss 2 nd T vr Er -> evaluator_of t X ss 2 nd T vi Ei ->
  exists (vh : node -> spoint -> cvec3) (dh : node -> spoint -> C), forall e p, In e els ->
    evaluate_vector ss Er e p = Some (fst (ccomponent3 (vh e p) 0), fst (ccomponent3 (vh e p) 1), fst (ccomponent3 (vh e p) 2)) /\
    evaluate_vector ss Ei e p = Some (snd (ccomponent3 (vh e p) 0), snd (ccomponent3 (vh e p) 1), snd (ccomponent3 (vh e p) 2)) /\
    evaluate_div ss Er e p = Some (fst (dh e p)) /\ evaluate_div ss Ei e p = Some (snd (dh e p)).
Proof.
  intros vr vi Er Ei HEr HEi.
  set (f := fun o => match o with Some v => v | None => (0, 0, 0) end : vec3). set (g := fun E e p => f (evaluate_vector ss E e p)). set (d := fun E e p => match evaluate_div ss E e p with Some v => v | None => 0 end).
  exists (fun e p => ((vx (g Er e p), vx (g Ei e p)), (vy (g Er e p), vy (g Ei e p)), (vz (g Er e p), vz (g Ei e p)))), (fun e p => (d Er e p, d Ei e p)).
  intros e p I. cbn [ccomponent3 fst snd].
  assert (V : forall v E, evaluator_of t X ss 2 nd T v E -> evaluate_vector ss E e p = Some (vx (g E e p), vy (g E e p), vz (g E e p)) /\ evaluate_div ss E e p = Some (d E e p)).
  { intros v E HE. unfold g, d, f. split.
    - rewrite (C61_vector close corners M t els Hm X ss nd T v E e p HE I). unfold vx, vy, vz; cbn [fst snd]. match goal with |- Some ?z = _ => destruct z as [[a b] c] end. reflexivity.
    - destruct (C61_divergence close corners M t els Hm X ss nd T v E e p HE I) as [ax [ay [bx [by' [Eq _]]]]]. rewrite Eq. reflexivity. }
  destruct (V vr Er HEr) as [A A']. destruct (V vi Ei HEi) as [B B']. auto.
Qed.
Section Maxwell.
Variables (vr vi : arr) (Er Ei : evaluator surface arr) (k : C).
Hypothesis HEr : evaluator_of t X ss 2 nd T vr Er.
Hypothesis HEi : evaluator_of t X ss 2 nd T vi Ei.
Variables (vh : node -> spoint -> cvec3) (dh : node -> spoint -> C).
(** vh, dh: the tangential field with these coefficients and its divergence *)
Hypothesis Hvr : forall e p, In e els -> evaluate_vector ss Er e p = Some (fst (ccomponent3 (vh e p) 0), fst (ccomponent3 (vh e p) 1), fst (ccomponent3 (vh e p) 2)).
Hypothesis Hvi : forall e p, In e els -> evaluate_vector ss Ei e p = Some (snd (ccomponent3 (vh e p) 0), snd (ccomponent3 (vh e p) 1), snd (ccomponent3 (vh e p) 2)).
Hypothesis Hdr : forall e p, In e els -> evaluate_div ss Er e p = Some (fst (dh e p)).
Hypothesis Hdi : forall e p, In e els -> evaluate_div ss Ei e p = Some (snd (dh e p)).
Lemma Hvv : forall e p, In e els -> cevaluate_vector ss Er Ei e p = Some (vh e p).
Proof.
  intros e p I. unfold cevaluate_vector. rewrite (Hvr e p I), (Hvi e p I). cbn [bind]. destruct (vh e p) as [[[a b] [c d]] [f g]]. reflexivity.
Qed.
Lemma Hd : forall e p, In e els -> cevaluate_div ss Er Ei e p = Some (dh e p).
Proof. intros e p I. unfold cevaluate_div. rewrite (Hdr e p I), (Hdi e p I). cbn [bind]. rewrite <- surjective_pairing. reflexivity. Qed.
Lemma vweight_free : forall e s w, In e els -> vh e (surf_point X e s w) = vh e (surf_point X e s 1).
Proof.
  intros e s w I. pose proof (Hvv e (surf_point X e s w) I) as A. pose proof (Hvv e (surf_point X e s 1) I) as B. unfold cevaluate_vector in A, B.
  rewrite (C61_vector close corners M t els Hm X ss nd T vr Er e _ HEr I), (C61_vector close corners M t els Hm X ss nd T vi Ei e _ HEi I) in A.
  rewrite (C61_vector close corners M t els Hm X ss nd T vr Er e _ HEr I), (C61_vector close corners M t els Hm X ss nd T vi Ei e _ HEi I) in B. cbn [bind p_s p_dx p_dy surf_point] in A, B. congruence.
Qed.
Lemma dweight_free : forall e s w, In e els -> dh e (surf_point X e s w) = dh e (surf_point X e s 1).
Proof.
  intros e s w I. pose proof (Hd e (surf_point X e s w) I) as A. pose proof (Hd e (surf_point X e s 1) I) as B. unfold cevaluate_div in A, B.
  assert (W : forall E, evaluate_div ss E e (surf_point X e s w) = evaluate_div ss E e (surf_point X e s 1)) by reflexivity. rewrite !W in A. congruence.
Qed.
(** the vector potential, the scalar potential and its gradient *)
Definition direction (o : nat) : vec3 := match o with O => e1 | 1%nat => e2 | _ => e3 end.
Definition vector_potential (o : nat) (x : vec3) : C :=
  csurface_sum els Q (fun e s => let p := surf_point X e s 1 in helmholtz_kernel k x (p_f p) * ccomponent3 (vh e p) o)%C.
Definition scalar_potential (x : vec3) : C :=
  csurface_sum els Q (fun e s => let p := surf_point X e s 1 in helmholtz_kernel k x (p_f p) * dh e p)%C.
Lemma mgrad_value : forall x y o, x <> y -> ccomponent3 (maxwell_gradient k x y) o = (hphi k (vnorm (vsub x y)) * RtoC (vdot (vsub x y) (direction o)))%C.
Proof.
  intros x y o H. pose proof (vnorm_pos _ (vsub_nonzero x y H)) as Qp. pose proof PI_RGT_0. pose proof (cube_pos _ Qp). unfold maxwell_gradient. cbv zeta.
  assert (EA : (cexp (- Ci * k * RtoC (vnorm (vsub x y))) * (- RtoC 1 - Ci * k * RtoC (vnorm (vsub x y))) / RtoC 4 / RtoC PI / RtoC (vnorm (vsub x y) * vnorm (vsub x y) * vnorm (vsub x y)))%C = hphi k (vnorm (vsub x y))).
  { rewrite cexp_value. rewrite !cdiv_real by lra. set (r := vnorm (vsub x y)) in *. clearbody r. destruct k as [a b].
    unfold hphi, Cmult, Copp, Cminus, Cplus, Ci, RtoC; cbn [fst snd]; unfold Copp; cbn [fst snd]. f_equal; field; lra. }
  rewrite EA. destruct o as [|[|o]]; cbn [ccomponent3 direction fst snd]; rewrite ?vdot_e1, ?vdot_e2, ?vdot_e3; reflexivity.
Qed.
Definition gradient_sum (o : nat) (x : vec3) : C :=
  csurface_sum els Q (fun e s => let p := surf_point X e s 1 in ccomponent3 (maxwell_gradient k x (p_f p)) o * dh e p)%C.
Lemma maxwell_value : forall points npts nthreads mr mi i o, (0 < nthreads)%nat -> (i < npts)%nat -> (o < 3)%nat ->
  potential (maxwell_integrand fst k ss X Er Ei points) (fst Q) (snd Q) npts 3 els nthreads mr ->
  potential (maxwell_integrand snd k ss X Er Ei points) (fst Q) (snd Q) npts 3 els nthreads mi ->
  (mr i o, mi i o) = (vector_potential o (points i) + RtoC 1 / (k * k) * gradient_sum o (points i))%C.
Proof.
  intros points npts nthreads mr mi i o Hn Hi Ho Pr Pi. unfold vector_potential, gradient_sum. rewrite csurface_scal. unfold csurface_sum, Cplus; cbn [fst snd].
  assert (Pl : forall f g, surface_sum els Q f + surface_sum els Q g = surface_sum els Q (fun e s => f e s + g e s)).
  { intros f g. unfold surface_sum. rewrite <- rsum_plus. apply rsum_ext. intros j Hj. destruct (nth_error els j); [|ring]. rewrite <- Rmult_plus_distr_l, <- rsum_plus. f_equal. apply rsum_ext. intros. ring. }
  rewrite !Pl.
  f_equal; (eapply pot_value; [exact Hn|exact Hi|exact Ho|eassumption|]); intros e s w I; unfold maxwell_integrand, maxwell_sl_potential;
    change (p_f (surf_point X e s w)) with (p_f (surf_point X e s 1)); cbv zeta;
    destruct (maxwell_gradient k (points i) (p_f (surf_point X e s 1))) as [[g1 g2] g3]; rewrite (Hvv _ _ I), (Hd _ _ I); cbn [bind];
    rewrite (vweight_free e s w I), (dweight_free e s w I); destruct (vh e (surf_point X e s 1)) as [[v1 v2] v3]; change (p_w (surf_point X e s w)) with w;
    (destruct o as [|[|[|o]]]; [| | |lia]); cbn [ccomponent3 fst snd]; rewrite (cmul_real _ w); unfold Cplus; cbn [fst snd];
    rewrite <- !Cmult_assoc; ring.
Qed.
(** the Maxwell single layer potential is the vector potential plus the gradient of the scalar potential over k^2 *)
Theorem C63_maxwell : forall points npts nthreads mr mi i o, (0 < nthreads)%nat -> (i < npts)%nat -> (o < 3)%nat ->
  potential (maxwell_integrand fst k ss X Er Ei points) (fst Q) (snd Q) npts 3 els nthreads mr ->
  potential (maxwell_integrand snd k ss X Er Ei points) (fst Q) (snd Q) npts 3 els nthreads mi -> off_surface X els Q (points i) ->
  exists g, cdirectional scalar_potential (points i) (direction o) g /\ (mr i o, mi i o) = (vector_potential o (points i) + RtoC 1 / (k * k) * g)%C.
Proof.
  intros points npts nthreads mr mi i o Hn Hi Ho Pr Pi Hx. exists (gradient_sum o (points i)). split; [|eapply maxwell_value; eassumption].
  apply (cdir_surface els Q (fun z e s => let p := surf_point X e s 1 in helmholtz_kernel k z (p_f p) * dh e p)%C). intros e q I Hq. cbv zeta. set (p := surf_point X e (q_xi Q q) 1).
  assert (N : points i <> p_f p) by (intros Z; apply (Hx e q I Hq); symmetry; exact Z).
  rewrite (mgrad_value _ _ _ N). rewrite Cmult_comm. pose proof (cdir_scal _ _ _ _ (dh e p) (hk_directional k (points i) (p_f p) (direction o) N)) as [A B].
  split; unfold directional in *; apply is_derive_Reals; [apply is_derive_Reals in A|apply is_derive_Reals in B]; (eapply is_derive_ext; [|eassumption]); intros z; cbv beta; rewrite (Cmult_comm (dh e p)); reflexivity.
Qed.
(** the components of the vector potential, the scalar potential and the components of the field satisfy the Helmholtz equation *)
Theorem C63_maxwell_equation : forall x, off_surface X els Q x ->
  (forall o, (o < 3)%nat -> claplacian (vector_potential o) x (- (k * k * vector_potential o x))%C) /\
  claplacian scalar_potential x (- (k * k * scalar_potential x))%C /\
  exists F : nat -> vec3 -> C, (forall points npts nthreads mr mi i o, (0 < nthreads)%nat -> (i < npts)%nat -> (o < 3)%nat ->
      potential (maxwell_integrand fst k ss X Er Ei points) (fst Q) (snd Q) npts 3 els nthreads mr ->
      potential (maxwell_integrand snd k ss X Er Ei points) (fst Q) (snd Q) npts 3 els nthreads mi -> (mr i o, mi i o) = F o (points i)) /\
    forall o, (o < 3)%nat -> claplacian (F o) x (- (k * k * F o x))%C.
Proof.
  intros x Hx.
  assert (Eq : forall (F : node -> R * R -> C), claplacian (fun z => csurface_sum els Q (fun e s => let p := surf_point X e s 1 in helmholtz_kernel k z (p_f p) * F e s)%C) x
     (- (k * k * csurface_sum els Q (fun e s => let p := surf_point X e s 1 in helmholtz_kernel k x (p_f p) * F e s)))%C).
  { intros F. rewrite csurface_opp_scal. apply (clap_surface els Q (fun z e s => let p := surf_point X e s 1 in helmholtz_kernel k z (p_f p) * F e s)%C). intros e q I Hq. cbv zeta. set (p := surf_point X e (q_xi Q q) 1).
    apply (clap_ext (fun z => F e (q_xi Q q) * helmholtz_kernel k z (p_f p))%C); [intros; ring|].
    replace (- (k * k * (helmholtz_kernel k x (p_f p) * F e (q_xi Q q))))%C with (F e (q_xi Q q) * - (k * k * helmholtz_kernel k x (p_f p)))%C by ring.
    apply clap_scal, C59_helmholtz_equation. intros Z. apply (Hx e q I Hq). symmetry. exact Z. }
  assert (Va : forall o, claplacian (vector_potential o) x (- (k * k * vector_potential o x))%C) by (intros o; apply (Eq (fun e s => ccomponent3 (vh e (surf_point X e s 1)) o))).
  split; [intros o _; apply Va|]. split; [apply (Eq (fun e s => dh e (surf_point X e s 1)))|].
  exists (fun o z => vector_potential o z + RtoC 1 / (k * k) * gradient_sum o z)%C. split; [intros; eapply maxwell_value; eassumption|]. intros o _.
  replace (- (k * k * (vector_potential o x + RtoC 1 / (k * k) * gradient_sum o x)))%C with (- (k * k * vector_potential o x) + RtoC 1 / (k * k) * - (k * k * gradient_sum o x))%C by ring.
  apply (clap_plus (vector_potential o) (fun z => RtoC 1 / (k * k) * gradient_sum o z)%C); [apply Va|]. apply clap_scal.
  unfold gradient_sum. rewrite csurface_opp_scal.
  apply (clap_surface els Q (fun z e s => let p := surf_point X e s 1 in ccomponent3 (maxwell_gradient k z (p_f p)) o * dh e p)%C). intros e q I Hq. cbv zeta. set (p := surf_point X e (q_xi Q q) 1).
  assert (N : x <> p_f p) by (intros Z; apply (Hx e q I Hq); symmetry; exact Z). rewrite (mgrad_value _ _ _ N).
  apply (clap_ext_off (fun z => dh e p * (hphi k (vnorm (vsub z (p_f p))) * RtoC (vdot (vsub z (p_f p)) (direction o))))%C _ x (p_f p)); [exact N| |].
  - intros z Hz. rewrite (mgrad_value _ _ _ Hz). ring.
  - match goal with |- claplacian _ _ ?l => replace l with (dh e p * - (k * k * (hphi k (vnorm (vsub x (p_f p))) * RtoC (vdot (vsub x (p_f p)) (direction o)))))%C by ring end.
    apply clap_scal, hdipole, N.
Qed.
End Maxwell.
End Mesh.

(** ** the hypotheses are met: the three sheets, bilinear functions, two threads, the point (0, 0, 5) between the sheets *)
Lemma between_the_sheets : forall els Q, off_surface sheets els Q (0, 0, 5).
Proof.
  intros els Q e q I Hq. unfold surf_point, sheets. cbn [p_f fst snd]. intros Z. assert (Y : 10 * INR (n_patch e) = 5) by congruence. clear - Y.
  assert (W : INR (2 * n_patch e) = INR 1) by (rewrite mult_INR; simpl; lra). apply INR_eq in W. lia.
Qed.
Example C63_example : exists t els E m vh, uniform_mesh Nat.eqb strip 1 t els /\
  evaluator_of t sheets ss1 1 48 (fun r c => if Nat.eqb r c then 1 else 0) (fun i => INR i) E /\
  (forall e p, In e els -> evaluate_scalar ss1 E e p = Some (vh e p)) /\
  potential (sl_integrand ss1 sheets E (fun _ => (0, 0, 5))) (fst ([(/ 2, / 2)], [1])) (snd ([(/ 2, / 2)], [1])) 1 1 els 2 m /\
  off_surface sheets els ([(/ 2, / 2)], [1]) (0, 0, 5).
Proof.
  destruct C62_example as [t [els [E [U [L [HE _]]]]]].
  destruct (C50_execution_exists (sl_integrand ss1 sheets E (fun _ => (0, 0, 5))) (fst ([(/ 2, / 2)], [1])) (snd ([(/ 2, / 2)], [1])) 1 1 els 2) as [m P].
  assert (V : forall e p, In e els -> evaluate_scalar ss1 E e p = Some (discrete_value 1 (t_elements t) 48 (fun r c => if Nat.eqb r c then 1 else 0) (fun i => INR i) 0 (n_id e) (n_h e) (p_s p))).
  { intros e p I. exact (C61_scalar Nat.eqb strip 1 t els U sheets ss1 48 _ _ E e p HE I). }
  eexists t, els, E, m, _. split; [exact U|]. split; [exact HE|]. split; [intros e p I; rewrite (V e p I); reflexivity|].
  split; [exact P|apply between_the_sheets].
Qed.

(* BEGIN ASSUMPTIONS *)
Print Assumptions C63_single_layer.
Print Assumptions C63_double_layer.
Print Assumptions C63_gradient_value.
Print Assumptions C63_single_layer_harmonic.
Print Assumptions C63_double_layer_harmonic.
Print Assumptions C63_gradient.
Print Assumptions C63_helmholtz_single_layer.
Print Assumptions C63_helmholtz_double_layer.
Print Assumptions C63_helmholtz_single_layer_equation.
Print Assumptions C63_helmholtz_double_layer_equation.
Print Assumptions C63_maxwell_fields.
Print Assumptions C63_maxwell.
Print Assumptions C63_maxwell_equation.
