(** C90, continued: mass matrix and Laplace-Beltrami operator, linear forms, potentials and errors in another unit of length, and what
    depends on the unit. *)
From Coq Require Import Reals Lra Lia Arith Bool List ZArith QArith Qreals FunctionalExtensionality.
From Coquelicot Require Import Complex.
From Verif Require Import RSum ModelBase ModelBernstein ModelTree ModelBall ModelBlock ModelH2 ModelH2Init ModelQuad ModelDuffy ModelAssembly ModelUtil ModelOperators ModelForms ModelL2 ModelPipeline SpecTree SpecMesh SpecBall SpecFlat.
From Verif Require Import ProofBall ProofMotion ProofNearFar PropTopo PropBall PropAssembly PropQuad PropForms PropOperators PropFarLaplace PropMotion PropPipeline PropWhole.
From Verif Require Import SpecScale ProofScale PropScale.
Import ListNotations.
Local Close Scope Q_scope.
Local Open Scope R_scope.

(** mass matrix and Laplace-Beltrami operator *)
Lemma triplets_value : forall (els : list node) (f f' : node -> list (nat * nat * R)) c r q,
  (forall e, from_triplets (f' e) r q = c * from_triplets (f e) r q) -> from_triplets (flat_map f' els) r q = c * from_triplets (flat_map f els) r q.
Proof.
  intros els f f' c r q HE.
  assert (App : forall a b, from_triplets (a ++ b) r q = from_triplets a r q + from_triplets b r q).
  { intros a b. unfold from_triplets. induction a as [|x a IH]; cbn [app fold_right]; [ring|]. rewrite IH. ring. }
  induction els as [|e els IH]; [cbn; ring|]. cbn [flat_map]. rewrite !App, IH, HE. ring.
Qed.
Lemma element_triplets_value : forall n2 N e c (m m' : mat) r q, (forall i j, (i < n2)%nat -> (j < n2)%nat -> m' i j = c * m i j) ->
  from_triplets (element_triplets 1 n2 N e m') r q = c * from_triplets (element_triplets 1 n2 N e m) r q.
Proof.
  intros n2 N e c m m' r q HE. unfold element_triplets. cbn [seq flat_map]. rewrite !app_nil_r.
  assert (App : forall a b, from_triplets (a ++ b) r q = from_triplets a r q + from_triplets b r q).
  { intros a b. unfold from_triplets. induction a as [|x a IH]; cbn [app fold_right]; [ring|]. rewrite IH. ring. }
  assert (HI : forall i, In i (seq 0 n2) -> (i < n2)%nat) by (intros i Hi; apply in_seq in Hi; lia).
  revert HI. generalize (seq 0 n2) at 1 3 5. intros l1. induction l1 as [|i l1 IH]; intros HI; [cbn; ring|]. cbn [flat_map]. rewrite !App, IH by (intros; apply HI; right; assumption).
  rewrite Rmult_plus_distr_l. f_equal. assert (Ii : (i < n2)%nat) by (apply HI; left; reflexivity).
  assert (HJ : forall j, In j (seq 0 n2) -> (j < n2)%nat) by (intros j Hj; apply in_seq in Hj; lia).
  revert HJ. generalize (seq 0 n2). intros l2 HJ. induction l2 as [|j l2 IH2]; [cbn; ring|]. cbn [map]. unfold from_triplets in *. cbn [fold_right fst snd]. rewrite IH2 by (intros; apply HJ; right; assumption).
  cbn [Nat.mul Nat.add]. rewrite (HE j i) by (try exact Ii; apply HJ; left; reflexivity). destruct (_ && _)%bool; ring.
Qed.
Theorem C90_local : forall l X ss Q N T els u v, 0 < l ->
  local_operator identity_integrand ss (scaled l X) Q 1 N T els u v = l ^ 2 * local_operator identity_integrand ss X Q 1 N T els u v /\
  local_operator laplace_beltrami_integrand ss (scaled l X) Q 1 N T els u v = local_operator laplace_beltrami_integrand ss X Q 1 N T els u v.
Proof.
  intros l X ss Q N T els u v Hl.
  assert (Gen : forall F c, (forall p z z' i j, (i < ss_n2 ss)%nat -> (j < ss_n2 ss)%nat -> z' i j = c * z i j -> F ss (scaled_point l p) (scaled_point l p) z' i j = c * F ss p p z i j) ->
    local_operator F ss (scaled l X) Q 1 N T els u v = c * local_operator F ss X Q 1 N T els u v).
  { intros F c HF. unfold local_operator. cbv zeta. unfold projected. rewrite <- rsum_scal. apply rsum_ext. intros q Hq. match goal with |- _ * ?A' = c * (_ * ?A) => assert (EA : A' = c * A); [|rewrite EA; ring] end.
    rewrite <- rsum_scal. apply rsum_ext. intros q' Hq'. rewrite <- Rmult_assoc. f_equal.
    apply triplets_value. intros e. apply element_triplets_value. intros i j Hi Hj. unfold element_matrix.
    generalize (q_size Q). intros n. induction n as [|n IH]; [cbn [for_loop]; unfold zero_mat; ring|]. cbn [for_loop]. rewrite scaled_surf. apply HF; assumption. }
  split.
  - apply Gen. intros p z z' i j Hi Hj Ez. unfold identity_integrand. rewrite !interaction_value by assumption. rewrite Ez, (scaled_kappa l Hl). cbn [p_s p_w scaled_point]. ring.
  - rewrite <- (Rmult_1_l (local_operator laplace_beltrami_integrand ss X Q 1 N T els u v)). apply Gen. intros p z z' i j Hi Hj Ez. unfold laplace_beltrami_integrand, addScaledSurfaceGradientInteraction. cbv zeta.
    rewrite !curl_value by assumption. rewrite Ez, (scaled_kappa l Hl), !(scaled_curl l Hl), scal_dot. cbn [p_w scaled_point]. unfold Rdiv. generalize (/ (ss_h ss * ss_h ss)). intros h. field. lra.
Qed.

(** linear forms *)
Lemma linear_scaled : forall l X (lf lf' : sspace -> spoint -> mat -> mat) c ss Q vd N T els v, linear_form lf ss X Q vd N T els = Some v ->
  (forall p z z' i k, (i < ss_n2 ss)%nat -> (k < vd)%nat -> z' i k = c * z i k -> lf' ss (scaled_point l p) z' i k = c * lf ss p z i k) ->
  exists v', linear_form lf' ss (scaled l X) Q vd N T els = Some v' /\ forall u, v' u = c * v u.
Proof.
  intros l X lf lf' c ss Q vd N T els v EL HL. unfold linear_form in *. cbv zeta in *. set (rows := (ss_n2 ss * N)%nat) in *. apply bind_some in EL. destruct EL as [m [Em EL]]. apply some_eq in EL. subst v.
  assert (FL : forall els z z' m, (forall r k, (k < vd)%nat -> z' r k = c * z r k) -> form_loop lf ss X Q rows els z = Some m ->
    exists m', form_loop lf' ss (scaled l X) Q rows els z' = Some m' /\ forall r k, (k < vd)%nat -> m' r k = c * m r k).
  { clear m Em els. intros els. induction els as [|e els IH]; intros z z' m Ez Em; cbn [form_loop] in *.
    - apply some_eq in Em. subst m. eauto.
    - apply bind_some in Em. destruct Em as [m1 [E1 Em]]. unfold write_block in *. apply bind_some in E1. destruct E1 as [x [A1 E1]]. rewrite A1. apply some_eq in E1. cbn [bind].
      apply (IH m1); [|exact Em]. intros r k Hk. subst m1. cbv beta. destruct ((_ <=? _) && (_ <? _))%nat%bool eqn:B; [|apply Ez; exact Hk].
      apply andb_true_iff in B. destruct B as [B1 B2]. apply Nat.leb_le in B1. apply Nat.ltb_lt in B2. unfold element_form. generalize (q_size Q). intros n. induction n as [|n IHn]; [cbn [for_loop]; unfold zero_mat; ring|].
      cbn [for_loop]. rewrite scaled_surf. apply HL; [lia|exact Hk|exact IHn]. }
  destruct (FL els zero_mat zero_mat m) as [m' [Em' V]]; [intros; unfold zero_mat; ring|exact Em|]. rewrite Em'. cbn [bind]. eexists. split; [reflexivity|].
  intros u. unfold transform_t. rewrite <- rsum_scal. apply rsum_ext. intros q Hq. rewrite V; [ring|]. destruct (Nat.eq_dec rows 0) as [Z|Z]; [rewrite Z in Hq; lia|]. apply Nat.div_lt_upper_bound; [exact Z|lia].
Qed.
Theorem C90_scalar_traces : forall l X (g g' : vec3 -> R) ss Q N T els v, 0 < l -> (forall x, g' (vscal l x) = g x) ->
  linear_form (dirichlet_trace g) ss X Q 1 N T els = Some v -> exists v', linear_form (dirichlet_trace g') ss (scaled l X) Q 1 N T els = Some v' /\ forall u, v' u = l ^ 2 * v u.
Proof.
  intros l X g g' ss Q N T els v Hl Hg EL. apply (linear_scaled l X (dirichlet_trace g) (dirichlet_trace g') (l ^ 2) ss Q 1 N T els v EL).
  intros p z z' i k Hi Hk Ez. unfold dirichlet_trace. rewrite !scaled_value by assumption. rewrite Ez, (scaled_kappa l Hl). cbn [p_s p_w p_f scaled_point]. rewrite Hg. ring.
Qed.
Theorem C90_vector_traces : forall l X (g g' : vec3 -> vec3) ss Q N T els, 0 < l -> (forall x, g' (vscal l x) = g x) ->
  (forall v, linear_form (neumann_trace g) ss X Q 1 N T els = Some v -> exists v', linear_form (neumann_trace g') ss (scaled l X) Q 1 N T els = Some v' /\ forall u, v' u = l ^ 2 * v u) /\
  (forall v, linear_form (tangential_trace g) ss X Q 2 N T els = Some v -> exists v', linear_form (tangential_trace g') ss (scaled l X) Q 2 N T els = Some v' /\ forall u, v' u = l * v u) /\
  (forall v, linear_form (rotated_tangential_trace g) ss X Q 2 N T els = Some v -> exists v', linear_form (rotated_tangential_trace g') ss (scaled l X) Q 2 N T els = Some v' /\ forall u, v' u = l * v u).
Proof.
  intros l X g g' ss Q N T els Hl Hg. pose proof (Hll l Hl) as Hl2.
  split; [|split]; intros v EL.
  - apply (linear_scaled l X (neumann_trace g) (neumann_trace g') (l ^ 2) ss Q 1 N T els v EL). intros p z z' i k Hi Hk Ez. unfold neumann_trace. rewrite !scaled_value by assumption. rewrite Ez, (scaled_n l). cbn [p_s p_w p_f scaled_point]. rewrite Hg.
    unfold vdot, vscal, vx, vy, vz. cbn [fst snd]. ring.
  - apply (linear_scaled l X (tangential_trace g) (tangential_trace g') l ss Q 2 N T els v EL). intros p z z' i k Hi Hk Ez. unfold tangential_trace. cbv zeta. rewrite (scaled_n l), (scal_normalized (l * l)) by exact Hl2. cbn [p_s p_w p_f p_dx p_dy scaled_point]. rewrite Hg.
    unfold add_columns. rewrite Ez. set (y := vscal (p_w p) _). clearbody y. destruct k as [|[|k]]; [..|lia]; unfold vdot, vscal, vx, vy, vz; cbn [fst snd]; ring.
  - apply (linear_scaled l X (rotated_tangential_trace g) (rotated_tangential_trace g') l ss Q 2 N T els v EL). intros p z z' i k Hi Hk Ez. unfold rotated_tangential_trace. cbv zeta. rewrite (scaled_n l), (scal_normalized (l * l)) by exact Hl2. cbn [p_s p_w p_f p_dx p_dy scaled_point]. rewrite Hg.
    unfold add_columns. rewrite Ez. set (y := vscal (p_w p) _). clearbody y. destruct k as [|[|k]]; [..|lia]; unfold vdot, vscal, vx, vy, vz; cbn [fst snd]; ring.
Qed.

(** the norm of the error *)
Theorem C90_surface_error : forall l X qr t ss nd T v g g' deg, 0 < l -> (forall x, g' (vscal l x) = g x) ->
  surfaceL2error qr t (scaled l X) ss nd T v g' deg = option_map (Rmult l) (surfaceL2error qr t X ss nd T v g deg).
Proof.
  intros l X qr t ss nd T v g g' deg Hl Hg. unfold surfaceL2error, init_evaluator. cbn [fst]. destruct (reordering_vector t) as [rv|]; [|reflexivity]. cbn [bind].
  destruct (elements t) as [els|]; [|reflexivity]. cbn [bind].
  set (E := Evaluator rv (t, X) _ _). set (E' := Evaluator rv (t, scaled l X) _ _).
  assert (SV : forall e p, evaluate_scalar ss E' e (scaled_point l p) = evaluate_scalar ss E e p) by reflexivity.
  assert (P : forall e i r r', r' = l * l * r -> l2_point (evaluate_scalar ss E') (scaled l X) (gauss_square qr deg) g' e i r' = option_map (Rmult (l * l)) (l2_point (evaluate_scalar ss E) X (gauss_square qr deg) g e i r)).
  { intros e i r r' Er. unfold l2_point. cbv zeta. rewrite scaled_surf, SV. pose proof (scaled_kappa l Hl (surf_point X e (q_xi (gauss_square qr deg) i) (q_w (gauss_square qr deg) i))) as Kp. unfold p_kappa, p_n in Kp. cbn [scaled_point p_dx p_dy p_f] in *.
    rewrite Kp, Hg. destruct (evaluate_scalar ss E e _); [|reflexivity]. cbn [bind option_map]. f_equal. rewrite Er. ring. }
  assert (L : forall els r r', r' = l * l * r -> l2_loop (evaluate_scalar ss E') (scaled l X) (gauss_square qr deg) g' els r' = option_map (Rmult (l * l)) (l2_loop (evaluate_scalar ss E) X (gauss_square qr deg) g els r)).
  { clear els. intros els. induction els as [|e els IH]; intros r r' Er; [cbn; f_equal; exact Er|]. cbn [l2_loop].
    assert (F : forall n, for_opt n (l2_point (evaluate_scalar ss E') (scaled l X) (gauss_square qr deg) g' e) r' = option_map (Rmult (l * l)) (for_opt n (l2_point (evaluate_scalar ss E) X (gauss_square qr deg) g e) r)).
    { intros n. induction n as [|n IHn]; [cbn; f_equal; exact Er|]. cbn [for_opt]. rewrite IHn. destruct (for_opt n _ r) as [z|]; [|reflexivity]. cbn [bind option_map]. apply P. reflexivity. }
    rewrite F. destruct (for_opt _ _ r) as [z|]; [|reflexivity]. cbn [bind option_map]. apply IH. reflexivity. }
  rewrite (L els 0 0) by ring. destruct (l2_loop _ X _ _ els 0) as [z|]; [|reflexivity]. cbn [bind option_map]. f_equal.
  rewrite sqrt_mult_alt by (apply Rlt_le, Hll, Hl). rewrite sqrt_square by lra. reflexivity.
Qed.

(** potentials, at the enlarged points *)
Lemma potential_scaled : forall (F F' : integrand) c xi w npts odim els n n' v v', (0 < n)%nat -> (0 < n')%nat ->
  (forall e s u i o, (o < odim)%nat -> F' e s u i o = c * F e s u i o) -> potential F xi w npts odim els n v -> potential F' xi w npts odim els n' v' ->
  forall i o, (i < npts)%nat -> (o < odim)%nat -> v' i o = c * v i o.
Proof.
  intros F F' c xi w npts odim els n n' v v' Hn Hn' HF P P' i o Hi Ho. rewrite (C50_potential F' xi w npts odim els n' v' Hn' P' i o Hi Ho), (C50_potential F xi w npts odim els n v Hn P i o Hi Ho).
  rewrite <- rsum_scal. apply rsum_ext. intros e He. destruct (nth_error els e) as [el|]; [|ring]. rewrite <- rsum_scal. apply rsum_ext. intros j Hj. apply HF. exact Ho.
Qed.
Lemma evaluators : forall l X t pp (f : list arr) E E' ss, init_evaluator (t, X) pp f = Some E -> init_evaluator (t, scaled l X) pp f = Some E' ->
  (forall e p, evaluate_scalar ss E' e (scaled_point l p) = evaluate_scalar ss E e p) /\
  (forall e p, evaluate_vector ss E' e (scaled_point l p) = option_map (vscal l) (evaluate_vector ss E e p)) /\
  (forall e p, evaluate_div ss E' e (scaled_point l p) = evaluate_div ss E e p).
Proof.
  intros l X t pp f E E' ss. unfold init_evaluator. cbn [fst]. destruct (reordering_vector t); [|discriminate]. cbn [bind]. intros EA EB. injection EA as <-. injection EB as <-.
  split; [|split]; intros e p; [reflexivity| |reflexivity]. unfold evaluate_vector, evaluate, coefficients. cbn [e_p2 e_fun]. destruct (assert _); [|reflexivity]. cbn [bind option_map]. f_equal. unfold eval_vector. cbv zeta. cbn [p_s p_dx p_dy scaled_point].
  apply vec_eq; unfold vadd, vscal, vx, vy, vz; cbn [fst snd]; ring.
Qed.
Section Gradients.
Variable l : R.
Hypothesis Hl : 0 < l.
Lemma scaled_gradient : forall x y, laplace_gradient (vscal l x) (vscal l y) = vscal (/ l * / l) (laplace_gradient x y).
Proof.
  intros. unfold laplace_gradient. cbv zeta. rewrite (scal_dist l Hl), (scal_sub l). unfold Rdiv. rewrite !Rinv_mult. generalize (/ vnorm (vsub x y)). intros q. generalize (/ PI). intros p.
  apply vec_eq; unfold vscal, vx, vy, vz; cbn [fst snd]; field; lra.
Qed.
Lemma scaled_dl_gradient : forall x y, laplace_dl_gradient (vscal l x) (vscal l y) = vscal (/ l * / l) (laplace_dl_gradient x y).
Proof.
  intros. unfold laplace_dl_gradient. cbv zeta. rewrite (scal_dist l Hl), (scal_sub l). unfold Rdiv. rewrite !Rinv_mult. generalize (/ vnorm (vsub x y)). intros q. generalize (/ PI). intros p.
  apply vec_eq; unfold vscal, vx, vy, vz; cbn [fst snd]; field; lra.
Qed.
Lemma scaled_maxwell_gradient : forall k x y, let g' := maxwell_gradient k (vscal l x) (vscal l y) in let g := maxwell_gradient (RtoC l * k)%C x y in
  fst (fst g') = (RtoC (/ l * / l) * fst (fst g))%C /\ snd (fst g') = (RtoC (/ l * / l) * snd (fst g))%C /\ snd g' = (RtoC (/ l * / l) * snd g)%C.
Proof.
  intros k x y. cbv zeta. unfold maxwell_gradient. cbv zeta. cbn [fst snd]. rewrite (scal_dist l Hl), (scal_sub l). set (r := vnorm (vsub x y)). set (c := vsub x y).
  replace (- RtoC 1 - Ci * k * RtoC (l * r))%C with (- RtoC 1 - Ci * (RtoC l * k) * RtoC r)%C by (rewrite RtoC_mult; ring). rewrite (scaled_exponent l).
  unfold Cdiv. rewrite !Cinv_real. replace (/ (l * r * (l * r) * (l * r))) with (/ l * / l * / l * / (r * r * r)) by (rewrite !Rinv_mult; ring).
  replace (vx (vscal l c)) with (l * vx c) by reflexivity. replace (vy (vscal l c)) with (l * vy c) by reflexivity. replace (vz (vscal l c)) with (l * vz c) by reflexivity. rewrite !RtoC_mult.
  repeat split; match goal with |- (?e * ?f * ?g * ?q * (?b * ?b * ?b * ?s) * (?a * ?v))%C = _ => transitivity ((a * b) * (b * b * (v * e * f * g * q * s)))%C; [ring|rewrite (cancel l Hl); ring] end.
Qed.
End Gradients.
Theorem C90_laplace_potentials : forall l X ss t pp f E E' points xi w npts els n n' v v', 0 < l -> (0 < n)%nat -> (0 < n')%nat ->
  init_evaluator (t, X) pp f = Some E -> init_evaluator (t, scaled l X) pp f = Some E' -> let points' := fun i => vscal l (points i) in
  (potential (sl_integrand ss X E points) xi w npts 1 els n v -> potential (sl_integrand ss (scaled l X) E' points') xi w npts 1 els n' v' -> forall i, (i < npts)%nat -> v' i 0%nat = l * v i 0%nat) /\
  (potential (dl_integrand ss X E points) xi w npts 1 els n v -> potential (dl_integrand ss (scaled l X) E' points') xi w npts 1 els n' v' -> forall i, (i < npts)%nat -> v' i 0%nat = v i 0%nat) /\
  (potential (sl_gradient_integrand ss X E points) xi w npts 3 els n v -> potential (sl_gradient_integrand ss (scaled l X) E' points') xi w npts 3 els n' v' -> forall i o, (i < npts)%nat -> (o < 3)%nat -> v' i o = v i o).
Proof.
  intros l X ss t pp f E E' points xi w npts els n n' v v' Hl Hn Hn' I1 I2 points'. destruct (evaluators l X t pp f E E' ss I1 I2) as [SV _].
  split; [|split]; intros P P'; intros.
  - apply (potential_scaled (sl_integrand ss X E points) (sl_integrand ss (scaled l X) E' points') l xi w npts 1 els n n' v v' Hn Hn'); [|assumption|assumption|assumption|lia].
    intros e s u j o _. unfold sl_integrand, laplace_sl_potential. rewrite scaled_surf, SV, (scaled_kappa l Hl). cbn [p_f p_w scaled_point]. unfold points'. rewrite (scaled_kernel l Hl). destruct (evaluate_scalar ss E e _); cbn [bind value_or_zero]; [field; lra|ring].
  - rewrite <- (Rmult_1_l (v i 0%nat)).
    apply (potential_scaled (dl_integrand ss X E points) (dl_integrand ss (scaled l X) E' points') 1 xi w npts 1 els n n' v v' Hn Hn'); [|assumption|assumption|assumption|lia].
    intros e s u j o _. unfold dl_integrand, laplace_dl_potential. rewrite scaled_surf, SV, scaled_n. cbn [p_f p_w scaled_point]. unfold points'. rewrite (scaled_dl_gradient l Hl), scal_dot. destruct (evaluate_scalar ss E e _); cbn [bind value_or_zero]; [field; lra|ring].
  - rewrite <- (Rmult_1_l (v i o)).
    apply (potential_scaled (sl_gradient_integrand ss X E points) (sl_gradient_integrand ss (scaled l X) E' points') 1 xi w npts 3 els n n' v v' Hn Hn'); [|assumption|assumption|assumption|lia].
    intros e s u j o' _. unfold sl_gradient_integrand, laplace_sl_gradient_potential. rewrite scaled_surf, SV, (scaled_kappa l Hl). cbn [p_f p_w scaled_point]. unfold points'. rewrite (scaled_gradient l Hl). destruct (evaluate_scalar ss E e _); cbn [bind]; [|ring].
    generalize (laplace_gradient (points j) (p_f (surf_point X e s u))). intros g. destruct o' as [|[|o']]; unfold component3, vscal, vx, vy, vz; cbn [fst snd]; field; lra.
Qed.
Theorem C90_complex_potentials : forall l X k ss t pp fr fi Er Er' Ei Ei' points xi w npts els n n' v v' pr, 0 < l -> (0 < n)%nat -> (0 < n')%nat -> In pr [@fst R R; @snd R R] ->
  init_evaluator (t, X) pp fr = Some Er -> init_evaluator (t, scaled l X) pp fr = Some Er' -> init_evaluator (t, X) pp fi = Some Ei -> init_evaluator (t, scaled l X) pp fi = Some Ei' ->
  let points' := fun i => vscal l (points i) in let k' := (RtoC l * k)%C in
  (potential (hsl_integrand pr k' ss X Er Ei points) xi w npts 1 els n v -> potential (hsl_integrand pr k ss (scaled l X) Er' Ei' points') xi w npts 1 els n' v' -> forall i, (i < npts)%nat -> v' i 0%nat = l * v i 0%nat) /\
  (potential (hdl_integrand pr k' ss X Er Ei points) xi w npts 1 els n v -> potential (hdl_integrand pr k ss (scaled l X) Er' Ei' points') xi w npts 1 els n' v' -> forall i, (i < npts)%nat -> v' i 0%nat = v i 0%nat) /\
  (potential (maxwell_integrand pr k' ss X Er Ei points) xi w npts 3 els n v -> potential (maxwell_integrand pr k ss (scaled l X) Er' Ei' points') xi w npts 3 els n' v' -> forall i o, (i < npts)%nat -> (o < 3)%nat -> v' i o = v i o).
Proof.
  intros l X k ss t pp fr fi Er Er' Ei Ei' points xi w npts els n n' v v' pr Hl Hn Hn' Hpr I1 I2 I3 I4 points' k'.
  destruct (evaluators l X t pp fr Er Er' ss I1 I2) as [SV [VV DV]]. destruct (evaluators l X t pp fi Ei Ei' ss I3 I4) as [SV' [VV' DV']].
  assert (PR : forall r z, pr (RtoC r * z)%C = r * pr z) by (intros r z; destruct Hpr as [<-|[<-|[]]]; [apply Cscal_fst|apply Cscal_snd]).
  pose proof (cancel l Hl) as CN.
  assert (KK : (RtoC (/ l * / l) = RtoC (/ l) * RtoC (/ l))%C) by apply RtoC_mult.
  split; [|split]; intros P P'; intros.
  - apply (potential_scaled (hsl_integrand pr k' ss X Er Ei points) (hsl_integrand pr k ss (scaled l X) Er' Ei' points') l xi w npts 1 els n n' v v' Hn Hn'); [|assumption|assumption|assumption|lia].
    intros e s u j o _. unfold hsl_integrand, helmholtz_sl_potential, cevaluate_scalar. rewrite scaled_surf, SV, SV', (scaled_kappa l Hl). cbn [p_f p_w scaled_point]. unfold points'. rewrite (scaled_h_kernel l Hl). fold k'.
    rewrite <- PR. f_equal. destruct (evaluate_scalar ss Er e _); cbn [bind cvalue_or_zero]; [|ring]. destruct (evaluate_scalar ss Ei e _); cbn [bind cvalue_or_zero]; [|ring]. rewrite !RtoC_mult.
    match goal with |- (?b * ?K * ?V * (?a * ?a * ?kp) * ?W)%C = _ => transitivity ((a * b) * (a * K * V * kp * W))%C; [ring|rewrite CN; ring] end.
  - rewrite <- (Rmult_1_l (v i 0%nat)).
    apply (potential_scaled (hdl_integrand pr k' ss X Er Ei points) (hdl_integrand pr k ss (scaled l X) Er' Ei' points') 1 xi w npts 1 els n n' v v' Hn Hn'); [|assumption|assumption|assumption|lia].
    intros e s u j o _. unfold hdl_integrand, helmholtz_dl_potential, cevaluate_scalar. rewrite scaled_surf, SV, SV', scaled_n. cbn [p_f p_w scaled_point]. unfold points'. rewrite (scaled_hdl_kernel l Hl), hdl_scal. fold k'.
    rewrite Rmult_1_l. f_equal. destruct (evaluate_scalar ss Er e _); cbn [bind cvalue_or_zero]; [|reflexivity]. destruct (evaluate_scalar ss Ei e _); cbn [bind cvalue_or_zero]; [|reflexivity]. rewrite !RtoC_mult.
    match goal with |- (?b * ?b * (?a * ?a * ?K) * ?V * ?W)%C = _ => transitivity ((a * b) * (a * b) * (K * V * W))%C; [ring|rewrite CN; ring] end.
  - rewrite <- (Rmult_1_l (v i o)).
    apply (potential_scaled (maxwell_integrand pr k' ss X Er Ei points) (maxwell_integrand pr k ss (scaled l X) Er' Ei' points') 1 xi w npts 3 els n n' v v' Hn Hn'); [|assumption|assumption|assumption|lia].
    intros e s u j o' _. unfold maxwell_integrand, maxwell_sl_potential, cevaluate_vector, cevaluate_div. rewrite scaled_surf, VV, VV', DV, DV'. cbn [p_f p_w scaled_point]. unfold points'. rewrite (scaled_h_kernel l Hl). fold k'.
    pose proof (scaled_maxwell_gradient l Hl k (points j) (p_f (surf_point X e s u))) as [G1 [G2 G3]]. fold k' in G1, G2, G3.
    destruct (maxwell_gradient k (vscal l (points j)) (vscal l (p_f (surf_point X e s u)))) as [[h1 h2] h3]. destruct (maxwell_gradient k' (points j) (p_f (surf_point X e s u))) as [[g1 g2] g3]. cbn [fst snd] in G1, G2, G3. subst h1 h2 h3.
    rewrite Rmult_1_l. f_equal.
    destruct (evaluate_vector ss Er e _) as [va|]; cbn [bind option_map]; [|reflexivity]. destruct (evaluate_vector ss Ei e _) as [vb|]; cbn [bind option_map]; [|reflexivity].
    destruct (evaluate_div ss Er e _) as [da|]; cbn [bind]; [|reflexivity]. destruct (evaluate_div ss Ei e _) as [db|]; cbn [bind]; [|reflexivity].
    assert (SQ : forall z, (RtoC 1 / (k * k) * z = RtoC l * RtoC l * (RtoC 1 / (k' * k') * z))%C) by (intros z; rewrite (square_wave l Hl k (RtoC 1)); unfold k'; ring).
    assert (CO : forall (x : Complex.C) (y z : R) (g : Complex.C), ((RtoC (/ l) * x * ((l * y)%R, (l * z)%R) + RtoC 1 / (k * k) * (RtoC (/ l * / l) * g) * (da, db)) * RtoC (p_w (surf_point X e s u)) = (x * (y, z) + RtoC 1 / (k' * k') * g * (da, db)) * RtoC (p_w (surf_point X e s u)))%C).
    { intros x y z g. f_equal. rewrite SQ, KK. replace (((l * y)%R, (l * z)%R) : Complex.C) with (RtoC l * (y, z))%C by (unfold Cmult, RtoC; cbn [fst snd]; f_equal; ring). set (q := (RtoC 1 / (k' * k'))%C).
      transitivity ((RtoC l * RtoC (/ l)) * (x * (y, z)) + (RtoC l * RtoC (/ l)) * (RtoC l * RtoC (/ l)) * (q * g * (da, db)))%C; [ring|rewrite CN; ring]. }
    destruct o' as [|[|o']]; unfold ccomponent3; cbn [fst snd]; apply CO.
Qed.

(** ** what depends on the unit of length *)
(** corners are identified up to an absolute distance of 1e-9: that is no restriction if corners either agree or keep that distance before
    and after the change of the unit *)
Theorem C90_corners : forall l X P, 0 < l -> (forall a b, In a (concat (corners_of X P)) -> In b (concat (corners_of X P)) -> a = b \/ (/ 10 ^ 9 <= vnorm (vsub a b) /\ / 10 ^ 9 <= l * vnorm (vsub a b))) -> same_corners l X P.
Proof.
  intros l X P Hl HC a b Ia Ib. unfold close_points, pt_tol. rewrite (scal_dist l Hl). destruct (HC a b Ia Ib) as [->|[D1 D2]].
  - assert (Z : vnorm (vsub b b) = 0) by (unfold vnorm; replace (vdot _ _) with 0 by (unfold vdot, vsub, vx, vy, vz; cbn [fst snd]; ring); apply sqrt_0). rewrite Z, Rmult_0_r. destruct (Rlt_dec 0 (/ 10 ^ 9)); reflexivity.
  - destruct (Rlt_dec (l * _) _) as [A|A]; [lra|]. destruct (Rlt_dec _ _) as [B|B]; [lra|reflexivity].
Qed.
(** two square sheets 1000 apart: expressed in a unit 10^13 times as large, all their corners are taken for one *)
Theorem C90_corners_refuted : exists l X P, 0 < l /\ surface_mesh X P /\ (exists g, init_mesh X P 0 = Some g) /\ init_mesh (scaled l X) P 0 <> option_map (scaled_mesh l) (init_mesh X P 0).
Proof.
  exists (/ 10 ^ 13), far_sheets, 2%nat. assert (Hl : 0 < / 10 ^ 13) by (apply Rinv_0_lt_compat, pow_lt; lra). split; [exact Hl|]. destruct far_fits as [MO FI].
  assert (SM : surface_mesh far_sheets 2) by (split; [lia|]; rewrite sheet_numbers; split; assumption). split; [exact SM|]. pose proof (C88_mesh_exists far_sheets 2 0 SM) as EX. split; [exact EX|]. destruct EX as [g Eg].
  rewrite Eg. cbn [option_map]. intros E. destruct (C88_mesh far_sheets 2 0 g ltac:(lia) Eg) as [Et _]. destruct (C88_mesh (scaled (/ 10 ^ 13) far_sheets) 2 0 _ ltac:(lia) E) as [Et' _]. cbn [scaled_mesh g_tree] in Et'.
  rewrite sheet_tree in Et.
  assert (Co : corners_of (scaled (/ 10 ^ 13) far_sheets) 2 = map (map (fun a => vscal (/ 10 ^ 13) (sheet_point a))) far_corners).
  { rewrite (scaled_corners (/ 10 ^ 13)). 
    assert (E0 : corners_of far_sheets 2 = map (map sheet_point) far_corners).
    { unfold corners_of, far_corners, unit_corners, far_sheets, sheet_point. cbn [map seq fst snd]. cbn [Nat.modulo Nat.div Nat.divmod Nat.sub nth].
      unfold far_O, far_U, far_V, vadd, vscal, vx, vy, vz. cbn [fst snd INR].
      repeat match goal with |- cons _ _ = cons _ _ => f_equal end; try reflexivity; f_equal; [f_equal| |f_equal| |f_equal| |f_equal| |f_equal| |f_equal| |f_equal| |f_equal|]; ring. }
    rewrite E0. reflexivity. }
  rewrite Co in Et'. rewrite (init_tree_map (fun _ _ => true) close_points (fun a => vscal (/ 10 ^ 13) (sheet_point a)) (fun a => (a < 8)%nat) far_corners 0) in Et'.
  - rewrite <- Et in Et'. assert (Z : forall close, match init_tree close far_corners 0 with Some t => match t_store t [0%nat] with Some n => n_verts n | None => [] end | None => [] end = match init_tree close far_corners 0 with Some t => match t_store t [0%nat] with Some n => n_verts n | None => [] end | None => [] end) by reflexivity.
    assert (Z1 : match init_tree Nat.eqb far_corners 0 with Some t => match t_store t [0%nat] with Some n => n_verts n | None => [] end | None => [] end = [0; 1; 2; 3]%nat) by (vm_compute; reflexivity).
    assert (Z2 : match init_tree (fun _ _ : nat => true) far_corners 0 with Some t => match t_store t [0%nat] with Some n => n_verts n | None => [] end | None => [] end = [0; 0; 0; 0]%nat) by (vm_compute; reflexivity).
    rewrite Et' in Z2. rewrite Z1 in Z2. discriminate.
  - intros a b Ha Hb. unfold close_points, pt_tol. rewrite (scal_dist (/ 10 ^ 13) Hl). destruct (Rlt_dec _ _) as [L|L]; [reflexivity|]. exfalso. apply L.
    assert (N : vnorm (vsub (sheet_point a) (sheet_point b)) <= 1001).
    { unfold vnorm. rewrite <- (sqrt_square 1001) by lra. apply sqrt_le_1_alt. clear L.
      destruct a as [|[|[|[|[|[|[|[|a]]]]]]]]; [..|lia]; (destruct b as [|[|[|[|[|[|[|[|b]]]]]]]]; [..|lia]); unfold sheet_point, vdot, vsub, vx, vy, vz; cbn [Nat.modulo Nat.div Nat.divmod Nat.sub nth fst snd INR]; lra. }
    apply Rle_lt_trans with (/ 10 ^ 13 * 1001); [apply Rmult_le_compat_l; lra|]. lra.
  - unfold far_corners. repeat constructor.
Qed.
(** the degree of the quadrature of close elements depends on the unit: elements of level 4 at distance 1/32, piecewise constants, single layer *)
Lemma trunc_integer : forall n : Z, trunc (IZR n) = n.
Proof.
  assert (E : forall n : Z, Int_part (IZR n) = n).
  { intros n. destruct (base_Int_part (IZR n)) as [A1 A2]. apply le_IZR in A1. assert (IZR n < IZR (Int_part (IZR n) + 1)) by (rewrite plus_IZR; lra). apply lt_IZR in H. lia. }
  intros n. unfold trunc. destruct (Rle_dec _ _); [apply E|]. rewrite <- opp_IZR, E. lia.
Qed.
Theorem C90_degree_refuted : exists l d M, 0 < l /\ 0 < d /\ let deg d := Z.max (nearfield_degree 0 (-1) d M) (farfield_degree 0 (-1)) in deg d = 4%Z /\ deg (l * d) = 2%Z.
Proof.
  exists 32, (/ 32), 4%nat. split; [lra|]. split; [lra|]. cbv zeta. pose proof ln_lt_2 as L2.
  assert (A : nearfield_degree 0 (-1) (/ 32) 4 = 4%Z).
  { transitivity (trunc (IZR 4)); [|apply trunc_integer]. unfold nearfield_degree. f_equal. unfold nearfield_numerator, nearfield_denominator. cbv zeta.
    assert (D : distance_log (/ 32) 4 = - (4 * ln 2)) by (unfold distance_log; destruct (Rlt_dec _ _) as [Hd|Hd]; [cbn [INR]; ring|exfalso; apply Hd; cbn [pow]; lra]). rewrite D.
    change (2 - -1 + 2 * 0 + 0)%Z with 3%Z. change (2 - 0 + -1)%Z with 1%Z. cbn [INR Nat.add]. field. lra. }
  assert (B : nearfield_degree 0 (-1) (32 * / 32) 4 = 1%Z).
  { transitivity (trunc (IZR 1)); [|apply trunc_integer]. unfold nearfield_degree. f_equal. unfold nearfield_numerator, nearfield_denominator. cbv zeta. replace (32 * / 32) with 1 by field.
    assert (D : distance_log 1 4 = 0) by (unfold distance_log; destruct (Rlt_dec _ _) as [Hd|Hd]; [exfalso; cbn [pow] in Hd; lra|apply ln_1]). rewrite D.
    change (2 - -1 + 2 * 0 + 0)%Z with 3%Z. change (2 - 0 + -1)%Z with 1%Z. cbn [INR Nat.add]. field. lra. }
  cbv beta. rewrite A, B. split; reflexivity.
Qed.

(** ** not vacuous *)
Lemma sheets_corners : forall a, In a (concat (corners_of far_sheets 2)) -> exists i, (i < 8)%nat /\ a = sheet_point i.
Proof.
  assert (E0 : corners_of far_sheets 2 = map (map sheet_point) far_corners).
  { unfold corners_of, far_corners, unit_corners, far_sheets, sheet_point. cbn [map seq fst snd]. cbn [Nat.modulo Nat.div Nat.divmod Nat.sub nth].
    unfold far_O, far_U, far_V, vadd, vscal, vx, vy, vz. cbn [fst snd INR].
    repeat match goal with |- cons _ _ = cons _ _ => f_equal end; try reflexivity; f_equal; [f_equal| |f_equal| |f_equal| |f_equal| |f_equal| |f_equal| |f_equal| |f_equal|]; ring. }
  intros a Ia. rewrite E0 in Ia. unfold far_corners in Ia. cbn [map concat app In] in Ia.
  destruct Ia as [<-|[<-|[<-|[<-|[<-|[<-|[<-|[<-|[]]]]]]]]]; eexists; (split; [|reflexivity]); lia.
Qed.
Example C90_example : let rules := fun _ : Z => ([/ 2], [1]) in let GS := fun d => tensor_rule (rules d) in let ss := mkSS 0 0 zero_arr zero_arr zero_arr zero_arr in
  0 < 3 /\ surface_mesh far_sheets 2 /\ same_corners 3 far_sheets 2 /\ In (laplace_sl, laplace_sl, 3%nat) (scaled_operators 3 (RtoC 1)) /\
  (exists g, init_mesh far_sheets 2 0 = Some g /\ length (g_elements g) = 2%nat) /\ (forall g, init_mesh far_sheets 2 0 = Some g -> same_quadrature 3 g 0 0 (-1) rules) /\
  forall T, exists A A', full_operator laplace_sl ss far_sheets 2 0 (-1) GS T A /\ full_operator laplace_sl ss (scaled 3 far_sheets) 2 0 (-1) GS T A'.
Proof.
  intros rules GS ss. split; [lra|]. destruct far_fits as [MO FI]. assert (SM : surface_mesh far_sheets 2) by (split; [lia|]; rewrite sheet_numbers; split; assumption). split; [exact SM|].
  assert (SC : same_corners 3 far_sheets 2).
  { apply C90_corners; [lra|]. intros a b Ia Ib. destruct (sheets_corners a Ia) as [i [Hi ->]]. destruct (sheets_corners b Ib) as [j [Hj ->]]. pose proof (sheet_close i j Hi Hj) as Cl. unfold close_points in Cl.
    destruct (Nat.eqb_spec i j) as [ -> |Ne]; [left; reflexivity|right]. destruct (Rlt_dec _ _) as [L|L]; [discriminate|]. unfold pt_tol in L. pose proof (vnorm_nonneg (vsub (sheet_point i) (sheet_point j))). split; lra. }
  split; [exact SC|]. split; [left; reflexivity|]. split; [destruct C87_example as [_ [g [Eg [Lg _]]]]; eauto|].
  split.
  { intros g _ E1 E2 _ _. cbv zeta. change (farfield_degree 0 (-1)) with 2%Z. pose proof (flat_degree (snd (compare_elements E1 E2))) as F1. pose proof (flat_degree (3 * snd (compare_elements E1 E2))) as F2. split; [lia|]. split; [lia|reflexivity]. }
  intros T.
  destruct (C88_full_exists laplace_sl ss far_sheets 2 0 (-1) GS T SM) as [A FA]. exists A.
  destruct (C88_mesh_exists far_sheets 2 0 SM) as [g Eg]. assert (Eg' : init_mesh (scaled 3 far_sheets) 2 0 = Some (scaled_mesh 3 g)) by (rewrite (C90_mesh 3 far_sheets 2 0%nat) by (lra || exact SC); rewrite Eg; reflexivity).
  destruct (C33_assembly_exists (op_vd laplace_sl) (ss_n2 ss) (t_elements (g_tree g)) (op_form laplace_sl ss (scaled 3 far_sheets) (-1) GS (g_elements (scaled_mesh 3 g))) (map e_node (g_elements (scaled_mesh 3 g)))) as [m Am].
  eexists. split; [exact FA|]. exists (scaled_mesh 3 g), m. split; [exact Eg'|]. split; [exact Am|reflexivity].
Qed.

(* BEGIN ASSUMPTIONS *)
Print Assumptions C90_local.
Print Assumptions C90_scalar_traces.
Print Assumptions C90_vector_traces.
Print Assumptions C90_surface_error.
Print Assumptions C90_laplace_potentials.
Print Assumptions C90_complex_potentials.
Print Assumptions C90_corners.
Print Assumptions C90_corners_refuted.
Print Assumptions C90_degree_refuted.
