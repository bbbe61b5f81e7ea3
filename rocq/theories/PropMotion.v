(** C87: moving (rotating and translating) the geometry moves the mesh and changes neither the matrices of the operators nor the results
    of the scalar computations; vector-valued potentials turn with the geometry. *)
From Coq Require Import Reals Lra Lia Arith Bool List ZArith QArith Qreals FunctionalExtensionality.
From Coquelicot Require Import Complex.
From Verif Require Import RSum ModelBase ModelBernstein ModelTree ModelBall ModelBlock ModelH2 ModelH2Init ModelQuad ModelDuffy ModelAssembly ModelUtil ModelOperators ModelForms ModelL2 ModelPipeline SpecTree SpecBall SpecMotion SpecFlat ProofMotion.
From Verif Require Import PropTopo PropBall PropInterp PropAssembly PropFarLaplace.
Import ListNotations.
Local Close Scope Q_scope.
Local Open Scope R_scope.

(** the mesh of the moved geometry is the moved mesh; it exists exactly if the mesh of the geometry exists *)
Theorem C87_mesh : forall m X P M, rotation m -> init_mesh (moved m X) P M = option_map (moved_mesh m) (init_mesh X P M).
Proof. intros m X P M HR. apply (moved_init_mesh m HR). Qed.

(** the full matrix: the possible results are the same *)
Theorem C87_full : forall m X k op ss P M order GS T A, rotation m -> In op (library_operators k) ->
  (full_operator op ss (moved m X) P M order GS T A <-> full_operator op ss X P M order GS T A).
Proof.
  intros m X k op ss P M order GS T A HR Hop.
  assert (Fo : forall els, op_form op ss (moved m X) order GS (map (moved_element m) els) = op_form op ss X order GS els)
    by (intros els; apply functional_extensionality; intros e1; apply functional_extensionality; intros e2; apply (moved_op_form m HR k op ss X order GS els e1 e2 Hop)).
  assert (Nd : forall els, map e_node (map (moved_element m) els) = map e_node els) by (intros els; rewrite map_map; reflexivity).
  unfold full_operator. rewrite (C87_mesh m X P M HR). split; intros [g [d [Eg [As Ea]]]].
  - destruct (init_mesh X P M) as [g0|]; [|discriminate]. cbn [option_map] in Eg. injection Eg as <-. cbn [moved_mesh g_tree g_elements] in As, Ea. rewrite Fo, Nd in As. exists g0, d. auto.
  - rewrite Eg. exists (moved_mesh m g), d. split; [reflexivity|]. cbn [moved_mesh g_tree g_elements]. rewrite Fo, Nd. auto.
Qed.

(** the compressed matrix *)
Theorem C87_compressed : forall m X k op ss P M order GS eta mincl n xi w ja jm, rotation m -> In op (library_operators k) ->
  compressed_operator op ss (moved m X) P M order GS eta mincl n xi w ja jm = compressed_operator op ss X P M order GS eta mincl n xi w ja jm.
Proof.
  intros m X k op ss P M order GS eta mincl n xi w ja jm HR Hop. unfold compressed_operator. rewrite (C87_mesh m X P M HR).
  destruct (init_mesh X P M) as [g|]; [|reflexivity]. cbn [bind option_map]. cbn [moved_mesh g_tree g_elements g_balls].
  assert (L : op_linop op ss (moved m X) (op_form op ss (moved m X) order GS (map (moved_element m) (g_elements g))) = op_linop op ss X (op_form op ss X order GS (g_elements g))).
  { unfold op_linop. f_equal.
    - apply functional_extensionality. intros e1. apply functional_extensionality. intros e2. apply (moved_op_form m HR k op ss X order GS (g_elements g) e1 e2 Hop).
    - apply functional_extensionality. intros c1. apply functional_extensionality. intros s. apply functional_extensionality. intros c2. apply functional_extensionality. intros u.
      rewrite !moved_surf. apply (proj2 (moved_operator m HR k op Hop)). }
  assert (Ne : near_of (mid_of (moved_balls m (g_balls g))) (rad_of (moved_balls m (g_balls g))) eta = near_of (mid_of (g_balls g)) (rad_of (g_balls g)) eta).
  { apply functional_extensionality. intros a. apply functional_extensionality. intros c. apply (moved_near m HR). }
  rewrite L, Ne. reflexivity.
Qed.

(** mass matrix and Laplace-Beltrami operator *)
Theorem C87_local : forall m X integrand ss Q vd N T els, rotation m -> In integrand [identity_integrand; laplace_beltrami_integrand] ->
  local_operator integrand ss (moved m X) Q vd N T els = local_operator integrand ss X Q vd N T els.
Proof.
  intros m X integrand ss Q vd N T els HR Hi.
  assert (I : forall p q, integrand ss (moved_point m p) (moved_point m q) = integrand ss p q).
  { intros p q. destruct Hi as [<-|[<-|[]]].
    - unfold identity_integrand. cbv zeta. rewrite ?(moved_kappa m HR). reflexivity.
    - unfold laplace_beltrami_integrand, addScaledSurfaceGradientInteraction. apply functional_extensionality. intros z. cbv zeta. rewrite ?(moved_kappa m HR). cbn [p_w moved_point].
      change (mkSP (p_s p) (p_w p) (move m (p_f p)) (turn m (p_dx p)) (turn m (p_dy p))) with (moved_point m p). change (mkSP (p_s q) (p_w q) (move m (p_f q)) (turn m (p_dx q)) (turn m (p_dy q))) with (moved_point m q).
      rewrite (moved_curls m HR). reflexivity. }
  assert (E : forall e, element_matrix integrand ss (moved m X) Q e = element_matrix integrand ss X Q e).
  { intros e. unfold element_matrix. f_equal. apply functional_extensionality. intros i. apply functional_extensionality. intros z. cbv zeta. rewrite moved_surf, I. reflexivity. }
  unfold local_operator. cbv zeta. f_equal. f_equal. induction els as [|e els IH]; [reflexivity|]. cbn [flat_map]. rewrite E, IH. reflexivity.
Qed.

(** linear forms: the given function is moved with the geometry *)
Section Linear.
Variables (m : motion) (X : surface).
Hypothesis HR : rotation m.
Lemma linear_moved : forall lf lf' ss Q vd N T els, (forall p z, lf' ss (moved_point m p) z = lf ss p z) ->
  linear_form lf' ss (moved m X) Q vd N T els = linear_form lf ss X Q vd N T els.
Proof.
  intros lf lf' ss Q vd N T els HL.
  assert (E : forall e, element_form lf' ss (moved m X) Q e = element_form lf ss X Q e).
  { intros e. unfold element_form. f_equal. apply functional_extensionality. intros i. apply functional_extensionality. intros z. rewrite moved_surf. apply HL. }
  unfold linear_form. cbv zeta. f_equal. generalize zero_mat. induction els as [|e els IH]; intros z; [reflexivity|]. cbn [form_loop]. rewrite E. destruct (write_block _ _ _ _ z); [|reflexivity]. cbn [bind]. apply IH.
Qed.
End Linear.
Theorem C87_scalar_traces : forall m X (g g' : vec3 -> R) ss Q vd N T els, rotation m -> (forall x, g' (move m x) = g x) ->
  linear_form (dirichlet_trace g') ss (moved m X) Q vd N T els = linear_form (dirichlet_trace g) ss X Q vd N T els.
Proof.
  intros m X g g' ss Q vd N T els HR Hg. apply linear_moved. intros p z. unfold dirichlet_trace. rewrite (moved_kappa m HR). cbn [moved_point p_s p_w p_f]. rewrite Hg. reflexivity.
Qed.
Theorem C87_vector_traces : forall m X (g g' : vec3 -> vec3) ss Q vd N T els, rotation m -> (forall x, g' (move m x) = turn m (g x)) ->
  linear_form (neumann_trace g') ss (moved m X) Q vd N T els = linear_form (neumann_trace g) ss X Q vd N T els /\
  linear_form (tangential_trace g') ss (moved m X) Q vd N T els = linear_form (tangential_trace g) ss X Q vd N T els /\
  linear_form (rotated_tangential_trace g') ss (moved m X) Q vd N T els = linear_form (rotated_tangential_trace g) ss X Q vd N T els.
Proof.
  intros m X g g' ss Q vd N T els HR Hg.
  split; [|split]; apply linear_moved; intros p z.
  - unfold neumann_trace. rewrite (moved_n m HR). cbn [moved_point p_s p_w p_f]. rewrite Hg, (turn_dot m HR). reflexivity.
  - unfold tangential_trace. cbv zeta. rewrite (moved_n m HR), (turn_normalized m HR). cbn [moved_point p_s p_w p_f p_dx p_dy]. rewrite Hg, (turn_cross m HR), <- (turn_scal m), !(turn_dot m HR). reflexivity.
  - unfold rotated_tangential_trace. cbv zeta. rewrite (moved_n m HR), (turn_normalized m HR). cbn [moved_point p_s p_w p_f p_dx p_dy].
    rewrite Hg, (turn_dot m HR), <- (turn_scal m), <- (turn_sub m), <- (turn_scal m), !(turn_dot m HR). reflexivity.
Qed.

(** potentials *)
Section Potentials.
Variables (m : motion) (X : surface).
Hypothesis HR : rotation m.
(** the evaluators of the same coefficients with the geometry and the moved geometry *)
Definition same_coefficients (E E' : evaluator surface arr) : Prop := e_fun E' = e_fun E /\ e_p2 E' = e_p2 E.
Lemma moved_scalar : forall ss E E' e p, same_coefficients E E' -> evaluate_scalar ss E' e (moved_point m p) = evaluate_scalar ss E e p.
Proof. intros ss E E' e p [A B]. unfold evaluate_scalar, evaluate, coefficients. rewrite A, B. reflexivity. Qed.
Lemma moved_vector : forall ss E E' e p, same_coefficients E E' -> evaluate_vector ss E' e (moved_point m p) = option_map (turn m) (evaluate_vector ss E e p).
Proof.
  intros ss E E' e p [A B]. unfold evaluate_vector, evaluate, coefficients. rewrite A, B. destruct (assert _); [|reflexivity]. cbn [bind option_map]. unfold eval_vector. cbv zeta. cbn [moved_point p_s p_dx p_dy].
  rewrite !turn_scal, turn_add, !turn_scal. reflexivity.
Qed.
Lemma moved_divergence : forall ss E E' e p, same_coefficients E E' -> evaluate_div ss E' e (moved_point m p) = evaluate_div ss E e p.
Proof. intros ss E E' e p [A B]. unfold evaluate_div, evaluate, coefficients. rewrite A, B. reflexivity. Qed.
Lemma moved_gradient : forall x y, laplace_gradient (move m x) (move m y) = turn m (laplace_gradient x y).
Proof.
  intros. unfold laplace_gradient. cbv zeta. rewrite (move_sub m), (turn_norm m HR). unfold Rdiv. generalize (/ (vnorm (vsub x y) * vnorm (vsub x y) * vnorm (vsub x y))). intros q.
  apply vec_eq; unfold turn, vadd, vscal, vx, vy, vz; cbn [fst snd]; ring.
Qed.
Lemma moved_dl_gradient : forall x y, laplace_dl_gradient (move m x) (move m y) = turn m (laplace_dl_gradient x y).
Proof.
  intros. unfold laplace_dl_gradient. cbv zeta. rewrite (move_sub m), (turn_norm m HR). unfold Rdiv. generalize (/ (vnorm (vsub x y) * vnorm (vsub x y) * vnorm (vsub x y))). intros q.
  apply vec_eq; unfold turn, vadd, vscal, vx, vy, vz; cbn [fst snd]; ring.
Qed.
End Potentials.
Theorem C87_potentials : forall m X ss t pp f E E' points k Er Er' Ei Ei' fr fi pr, rotation m ->
  init_evaluator (t, X) pp f = Some E -> init_evaluator (t, moved m X) pp f = Some E' ->
  init_evaluator (t, X) pp fr = Some Er -> init_evaluator (t, moved m X) pp fr = Some Er' ->
  init_evaluator (t, X) pp fi = Some Ei -> init_evaluator (t, moved m X) pp fi = Some Ei' ->
  sl_integrand ss (moved m X) E' (fun i => move m (points i)) = sl_integrand ss X E points /\
  dl_integrand ss (moved m X) E' (fun i => move m (points i)) = dl_integrand ss X E points /\
  hsl_integrand pr k ss (moved m X) Er' Ei' (fun i => move m (points i)) = hsl_integrand pr k ss X Er Ei points /\
  hdl_integrand pr k ss (moved m X) Er' Ei' (fun i => move m (points i)) = hdl_integrand pr k ss X Er Ei points.
Proof.
  intros m X ss t pp f E E' points k Er Er' Ei Ei' fr fi pr HR I1 I2 I3 I4 I5 I6.
  assert (SC : forall (g : list arr) A B, init_evaluator (t, X) pp g = Some A -> init_evaluator (t, moved m X) pp g = Some B -> same_coefficients A B).
  { intros g A B. unfold init_evaluator. cbn [fst]. destruct (reordering_vector t); [|discriminate]. cbn [bind]. intros EA EB. injection EA as <-. injection EB as <-. split; reflexivity. }
  pose proof (SC f E E' I1 I2) as S1. pose proof (SC fr Er Er' I3 I4) as S2. pose proof (SC fi Ei Ei' I5 I6) as S3.
  repeat split; repeat (apply functional_extensionality; intros ?).
  - unfold sl_integrand, laplace_sl_potential. rewrite moved_surf, (moved_scalar m ss E E' _ _ S1), (moved_kappa m HR). cbn [moved_point p_f p_w]. rewrite (moved_kernel m HR). reflexivity.
  - unfold dl_integrand, laplace_dl_potential. rewrite moved_surf, (moved_scalar m ss E E' _ _ S1), (moved_n m HR). cbn [moved_point p_f p_w]. rewrite (moved_dl_gradient m HR), (turn_dot m HR). reflexivity.
  - unfold hsl_integrand, helmholtz_sl_potential, cevaluate_scalar. rewrite moved_surf, (moved_scalar m ss Er Er' _ _ S2), (moved_scalar m ss Ei Ei' _ _ S3), (moved_kappa m HR). cbn [moved_point p_f p_w]. rewrite (moved_h_kernel m HR). reflexivity.
  - unfold hdl_integrand, helmholtz_dl_potential, cevaluate_scalar. rewrite moved_surf, (moved_scalar m ss Er Er' _ _ S2), (moved_scalar m ss Ei Ei' _ _ S3), (moved_n m HR). cbn [moved_point p_f p_w]. rewrite (moved_hdl_kernel m HR). reflexivity.
Qed.

(** vector-valued potentials turn: the row i of the result v is the vector of the three components at the point i *)
Definition row3 (v : mat) (i : nat) : vec3 := (v i 0%nat, v i 1%nat, v i 2%nat).
Section Rows.
Variables (m : motion) (X : surface).
Hypothesis HR : rotation m.
Lemma sum_turn : forall (a b c : nat -> R) n, (rsum (fun e => vx (turn m (a e, b e, c e))) n, rsum (fun e => vy (turn m (a e, b e, c e))) n, rsum (fun e => vz (turn m (a e, b e, c e))) n) = turn m (rsum a n, rsum b n, rsum c n).
Proof.
  intros a b c n. induction n as [|n IH].
  - apply vec_eq; unfold turn, vadd, vscal, vx, vy, vz; cbn [fst snd rsum]; ring.
  - cbn [rsum]. apply vec_eq.
    + apply (f_equal vx) in IH. unfold vx at 1 in IH. cbn [fst snd] in IH. unfold vx at 1. cbn [fst snd]. rewrite IH. unfold turn, vadd, vscal, vx, vy, vz; cbn [fst snd]; ring.
    + apply (f_equal vy) in IH. unfold vy at 1 in IH. cbn [fst snd] in IH. unfold vy at 1. cbn [fst snd]. rewrite IH. unfold turn, vadd, vscal, vx, vy, vz; cbn [fst snd]; ring.
    + apply (f_equal vz) in IH. unfold vz at 1 in IH. cbn [fst snd] in IH. unfold vz at 1. cbn [fst snd]. rewrite IH. unfold turn, vadd, vscal, vx, vy, vz; cbn [fst snd]; ring.
Qed.
Lemma potential_turned : forall (F F' : integrand) xi w npts els n n' v v', (0 < n)%nat -> (0 < n')%nat ->
  (forall e s u i, (F' e s u i 0%nat, F' e s u i 1%nat, F' e s u i 2%nat) = turn m (F e s u i 0%nat, F e s u i 1%nat, F e s u i 2%nat)) ->
  potential F xi w npts 3 els n v -> potential F' xi w npts 3 els n' v' -> forall i, (i < npts)%nat -> row3 v' i = turn m (row3 v i).
Proof.
  intros F F' xi w npts els n n' v v' Hn Hn' HF P P' i Hi. unfold row3.
  rewrite !(C50_potential F' xi w npts 3 els n' v' Hn' P' i) by (exact Hi || lia). rewrite !(C50_potential F xi w npts 3 els n v Hn P i) by (exact Hi || lia).
  rewrite <- sum_turn.
  assert (T0 : turn m (0, 0, 0) = (0, 0, 0)) by (apply vec_eq; unfold turn, vadd, vscal, vx, vy, vz; cbn [fst snd]; ring).
  f_equal; [f_equal|]; apply rsum_ext; intros e He; (destruct (nth_error els e) as [el|]; [|rewrite T0; reflexivity]); rewrite <- sum_turn; unfold vx, vy, vz; cbn [fst snd]; apply rsum_ext; intros j Hj.
  - specialize (HF el (nth j xi (0, 0)) (Q2R (get_h el) * Q2R (get_h el) * nth j w 0) i). apply (f_equal vx) in HF. exact HF.
  - specialize (HF el (nth j xi (0, 0)) (Q2R (get_h el) * Q2R (get_h el) * nth j w 0) i). apply (f_equal vy) in HF. exact HF.
  - specialize (HF el (nth j xi (0, 0)) (Q2R (get_h el) * Q2R (get_h el) * nth j w 0) i). apply (f_equal vz) in HF. exact HF.
Qed.
End Rows.
Theorem C87_gradient_potential : forall m X ss t pp f E E' points xi w npts els n n' v v', rotation m -> (0 < n)%nat -> (0 < n')%nat ->
  init_evaluator (t, X) pp f = Some E -> init_evaluator (t, moved m X) pp f = Some E' ->
  potential (sl_gradient_integrand ss X E points) xi w npts 3 els n v ->
  potential (sl_gradient_integrand ss (moved m X) E' (fun i => move m (points i))) xi w npts 3 els n' v' ->
  forall i, (i < npts)%nat -> row3 v' i = turn m (row3 v i).
Proof.
  intros m X ss t pp f E E' points xi w npts els n n' v v' HR Hn Hn' I1 I2. apply potential_turned; [exact Hn|exact Hn'|].
  assert (SC : same_coefficients E E').
  { unfold init_evaluator in *. cbn [fst] in *. destruct (reordering_vector t); [|discriminate]. cbn [bind] in *. injection I1 as <-. injection I2 as <-. split; reflexivity. }
  intros e s u i. unfold sl_gradient_integrand, laplace_sl_gradient_potential. rewrite moved_surf, (moved_scalar m ss E E' _ _ SC), (moved_kappa m HR). cbn [moved_point p_f p_w]. rewrite (moved_gradient m HR).
  destruct (evaluate_scalar ss E e (surf_point X e s u)) as [z|]; cbn [bind].
  - rewrite <- turn_scal. set (y := vscal _ _). destruct y as [[y1 y2] y3]. apply vec_eq; reflexivity.
  - apply vec_eq; unfold turn, vadd, vscal, vx, vy, vz; cbn [fst snd]; ring.
Qed.
Theorem C87_maxwell_potential : forall m X k ss t pp fr fi Er Er' Ei Ei' points xi w npts els n n' v v' pr, rotation m -> (0 < n)%nat -> (0 < n')%nat -> In pr [@fst R R; @snd R R] ->
  init_evaluator (t, X) pp fr = Some Er -> init_evaluator (t, moved m X) pp fr = Some Er' ->
  init_evaluator (t, X) pp fi = Some Ei -> init_evaluator (t, moved m X) pp fi = Some Ei' ->
  potential (maxwell_integrand pr k ss X Er Ei points) xi w npts 3 els n v ->
  potential (maxwell_integrand pr k ss (moved m X) Er' Ei' (fun i => move m (points i))) xi w npts 3 els n' v' ->
  forall i, (i < npts)%nat -> row3 v' i = turn m (row3 v i).
Proof.
  intros m X k ss t pp fr fi Er Er' Ei Ei' points xi w npts els n n' v v' pr HR Hn Hn' Hpr I1 I2 I3 I4. apply potential_turned; [exact Hn|exact Hn'|].
  assert (SC : forall (g : list arr) A B, init_evaluator (t, X) pp g = Some A -> init_evaluator (t, moved m X) pp g = Some B -> same_coefficients A B).
  { intros g A B. unfold init_evaluator. cbn [fst]. destruct (reordering_vector t); [|discriminate]. cbn [bind]. intros EA EB. injection EA as <-. injection EB as <-. split; reflexivity. }
  pose proof (SC fr Er Er' I1 I2) as S1. pose proof (SC fi Ei Ei' I3 I4) as S2.
  intros e s u i. unfold maxwell_integrand, maxwell_sl_potential, cevaluate_vector, cevaluate_div.
  rewrite moved_surf, (moved_vector m ss Er Er' _ _ S1), (moved_vector m ss Ei Ei' _ _ S2), (moved_divergence m ss Er Er' _ _ S1), (moved_divergence m ss Ei Ei' _ _ S2).
  cbn [moved_point p_f p_w]. rewrite (moved_h_kernel m HR). unfold maxwell_gradient. cbv zeta. rewrite (move_sub m), (turn_norm m HR).
  set (c := vsub (points i) (p_f (surf_point X e s u))). set (a := (_ / RtoC (vnorm c * vnorm c * vnorm c))%C). generalize (helmholtz_kernel k (points i) (p_f (surf_point X e s u))). intros K.
  clearbody a c. set (q := (RtoC 1 / (k * k))%C). clearbody q.
  destruct (evaluate_vector ss Er e (surf_point X e s u)) as [va|], (evaluate_vector ss Ei e (surf_point X e s u)) as [vb|], (evaluate_div ss Er e (surf_point X e s u)) as [da|], (evaluate_div ss Ei e (surf_point X e s u)) as [db|]; cbn [bind option_map].
  2-16: cbn; destruct Hpr as [<-|[<-|[]]]; apply vec_eq; unfold turn, vadd, vscal, vx, vy, vz; cbn [fst snd RtoC]; ring.
  destruct va as [[va1 va2] va3], vb as [[vb1 vb2] vb3], c as [[c1 c2] c3], K as [K1 K2], a as [a1 a2], q as [q1 q2].
  set (w0 := p_w (surf_point X e s u)). clearbody w0.
  assert (LIN : exists A B D, forall x y z, pr (((K1, K2) * (x, y) + (q1, q2) * ((a1, a2) * RtoC z) * (da, db)) * RtoC w0)%C = A * x + B * y + D * z).
  { destruct Hpr as [<-|[<-|[]]].
    - exists (K1 * w0), (- K2 * w0), (((q1 * a1 - q2 * a2) * da - (q1 * a2 + q2 * a1) * db) * w0). intros x y z. unfold Cmult, Cplus, RtoC. cbn [fst snd]. ring.
    - exists (K2 * w0), (K1 * w0), (((q1 * a1 - q2 * a2) * db + (q1 * a2 + q2 * a1) * da) * w0). intros x y z. unfold Cmult, Cplus, RtoC. cbn [fst snd]. ring. }
  destruct LIN as [A [B [D LIN]]]. cbn [ccomponent3 fst snd]. rewrite !LIN. clear LIN.
  apply vec_eq; unfold turn, vadd, vscal, vx, vy, vz; cbn [fst snd]; ring.
Qed.
(** the norm of the error *)
Theorem C87_surface_error : forall m X qr t ss nd T v g g' deg, rotation m -> (forall x, g' (move m x) = g x) ->
  surfaceL2error qr t (moved m X) ss nd T v g' deg = surfaceL2error qr t X ss nd T v g deg.
Proof.
  intros m X qr t ss nd T v g g' deg HR Hg. unfold surfaceL2error, init_evaluator. cbn [fst]. destruct (reordering_vector t) as [rv|]; [|reflexivity]. cbn [bind].
  destruct (elements t) as [els|]; [|reflexivity]. cbn [bind]. f_equal.
  set (E := Evaluator rv (t, X) _ _). set (E' := Evaluator rv (t, moved m X) _ _). assert (SC : same_coefficients E E') by (split; reflexivity).
  generalize 0. induction els as [|e els IH]; intros r; [reflexivity|]. cbn [l2_loop].
  assert (P : l2_point (evaluate_scalar ss E') (moved m X) (gauss_square qr deg) g' e = l2_point (evaluate_scalar ss E) X (gauss_square qr deg) g e).
  { apply functional_extensionality. intros i. apply functional_extensionality. intros z. unfold l2_point. cbv zeta. rewrite moved_surf, (moved_scalar m ss E E' _ _ SC).
    pose proof (moved_kappa m HR (surf_point X e (q_xi (gauss_square qr deg) i) (n_h e * q_w (gauss_square qr deg) i))) as Kp. unfold p_kappa, p_n in Kp. cbn [moved_point p_dx p_dy p_f] in *.
    unfold p_kappa, p_n. first [rewrite Kp|idtac]. rewrite ?Hg. destruct (evaluate_scalar ss E e _); [|reflexivity]. cbn [bind]. f_equal. unfold surf_point. cbn [p_dx p_dy p_f]. rewrite !(turn_cross m HR), !(turn_norm m HR), ?Hg. reflexivity. }
  rewrite P. destruct (for_opt _ _ r); [|reflexivity]. cbn [bind]. apply IH.
Qed.

(** ** not vacuous *)
Lemma quarter_rotation : rotation quarter.
Proof. unfold rotation, quarter, vdot, vcross, vx, vy, vz. cbn [m_x m_y m_z fst snd]. repeat split; try lra. f_equal; [f_equal|]; lra. Qed.
(** the corners of the two sheets of PropFarLaplace *)
Definition sheet_point (l : nat) : vec3 := nth (l mod 4) [(0, 0, 1000 * INR (l / 4)); (1, 0, 1000 * INR (l / 4)); (1, 1, 1000 * INR (l / 4)); (0, 1, 1000 * INR (l / 4))] (0, 0, 0).
Lemma sheet_close : forall a b, (a < 8)%nat -> (b < 8)%nat -> close_points (sheet_point a) (sheet_point b) = Nat.eqb a b.
Proof.
  intros a b Ha Hb. unfold close_points, pt_tol. destruct (Nat.eqb_spec a b) as [ -> |Ne].
  - destruct (Rlt_dec _ _) as [L|L]; [reflexivity|]. exfalso. apply L. unfold vnorm. replace (vdot _ _) with 0 by (unfold vdot, vsub, vx, vy, vz; cbn [fst snd]; ring). rewrite sqrt_0. apply Rinv_0_lt_compat, pow_lt. lra.
  - destruct (Rlt_dec _ _) as [L|L]; [|reflexivity]. exfalso. assert (T1 : / 10 ^ 9 < 1) by (rewrite <- Rinv_1; apply Rinv_lt_contravar; [rewrite Rmult_1_l; apply pow_lt; lra|simpl; lra]).
    assert (N : 1 <= vnorm (vsub (sheet_point a) (sheet_point b))); [|lra]. unfold vnorm. rewrite <- sqrt_1 at 1. apply sqrt_le_1_alt. clear L T1.
    destruct a as [|[|[|[|[|[|[|[|a]]]]]]]]; [..|lia]; (destruct b as [|[|[|[|[|[|[|[|b]]]]]]]]; [..|lia]); try congruence; unfold sheet_point, vdot, vsub, vx, vy, vz; cbn [Nat.modulo Nat.div Nat.divmod Nat.sub nth fst snd INR]; lra.
Qed.
Lemma sheet_tree : init_tree close_points (corners_of far_sheets 2) 0 = init_tree Nat.eqb far_corners 0.
Proof.
  assert (E : corners_of far_sheets 2 = map (map sheet_point) far_corners).
  { unfold corners_of, far_corners, unit_corners, far_sheets, sheet_point. cbn [map seq fst snd]. cbn [Nat.modulo Nat.div Nat.divmod Nat.sub nth].
    unfold far_O, far_U, far_V, vadd, vscal, vx, vy, vz. cbn [fst snd INR].
    repeat match goal with |- cons _ _ = cons _ _ => f_equal end; try reflexivity; f_equal; [f_equal| |f_equal| |f_equal| |f_equal| |f_equal| |f_equal| |f_equal| |f_equal|]; ring. }
  rewrite E. apply (init_tree_map Nat.eqb close_points sheet_point (fun l => (l < 8)%nat) far_corners 0).
  - intros a b Ha Hb. apply sheet_close; assumption.
  - unfold far_corners. repeat constructor.
Qed.
Example C87_example : rotation quarter /\ exists g, init_mesh far_sheets 2 0 = Some g /\ length (g_elements g) = 2%nat /\
  forall op ss order GS, exists H B, compressed_operator op ss far_sheets 2 0 order GS 1 0 4 [/ 2] [1] zero_arr zero_mat = Some H /\ In B (leaves (h_blocks H)) /\ b_cc B = LowRank.
Proof.
  split; [exact quarter_rotation|]. destruct C78_example as [t [P [b [mid [rad [FS [H0 [A0 [B [E1 [E2 [c1 [c2 [EH0 [_ [_ [HB [Cc [S1 [S2 _]]]]]]]]]]]]]]]]]]]].
  pose proof (fs_tree _ _ _ _ _ _ _ _ _ _ _ _ FS) as Et. pose proof (fs_points _ _ _ _ _ _ _ _ _ _ _ _ FS) as EP. pose proof (fs_balls _ _ _ _ _ _ _ _ _ _ _ _ FS) as EB.
  destruct (C15_balls_enclose_surface_corners nat Nat.eqb far_corners _ t (points_of far_sheets) ltac:(discriminate) (fs_geometry _ _ _ _ _ _ _ _ _ _ _ _ FS) (fs_mesh _ _ _ _ _ _ _ _ _ _ _ _ FS) (fs_fits _ _ _ _ _ _ _ _ _ _ _ _ FS)) as [P' [b' [EP' [Eb' Bd]]]].
  rewrite EP in EP'. apply some_eq in EP'. subst P'. rewrite EB in Eb'. apply some_eq in Eb'. subst b'.
  assert (Z : (t <- init_tree Nat.eqb far_corners 0 ;; l <- traverse t ;; n1 <- t_store t [0%nat] ;; n2 <- t_store t [1%nat] ;; Some (l, n_ref n1, n_ref n2)) = Some ([[0%nat]; [1%nat]], false, false)) by (vm_compute; reflexivity).
  rewrite Et in Z. cbn [bind] in Z. apply bind_some in Z. destruct Z as [l [Tr Z]]. apply bind_some in Z. destruct Z as [n1 [N1 Z]]. apply bind_some in Z. destruct Z as [n2 [N2 Z]]. apply some_eq in Z. injection Z as -> R1 R2.
  assert (Lf : forall a n, t_store t a = Some n -> n_ref n = false -> exists x, b a = Some x).
  { intros a n En Rn. destruct (Bd a a 0%nat) as [x [Bx _]]; [unfold exists_node; congruence|exists n; auto|exists []; reflexivity|lia|eauto]. }
  destruct (Lf _ _ N1 R1) as [x1 X1]. destruct (Lf _ _ N2 R2) as [x2 X2].
  assert (G : exists g, init_mesh far_sheets 2 0 = Some g /\ g_tree g = t /\ g_balls g = b /\ length (g_elements g) = 2%nat).
  { unfold init_mesh. rewrite sheet_tree, Et. cbn [bind]. change (point_list (fun p x y => fst (fst (far_sheets p (x, y)))) t) with (point_list (points_of far_sheets) t). rewrite EP. cbn [bind]. rewrite EB. cbn [bind]. rewrite Tr. cbn [bind map_opt]. unfold element_of. rewrite N1, N2, X1, X2. cbn [bind].
    eexists. split; [reflexivity|]. cbn. auto. }
  destruct G as [g [Eg [Gt [Gb Gl]]]]. exists g. split; [exact Eg|]. split; [exact Gl|]. intros op ss order GS. unfold compressed_operator. rewrite Eg. cbn [bind]. rewrite Gt, Gb.
  destruct (h2_init_facts _ _ _ _ _ _ _ _ _ _ EH0) as [_ [_ [Ebt _]]].
  assert (Nn : near_of (mid_of b) (rad_of b) 1 = near_of mid rad 1).
  { apply functional_extensionality. intros a. apply functional_extensionality. intros c. unfold near_of. rewrite !(fs_rad _ _ _ _ _ _ _ _ _ _ _ _ FS). unfold rad_of, mid_of.
    destruct (b a) as [xa|] eqn:Ea; [|reflexivity]. destruct (b c) as [xc|] eqn:Ec; [|reflexivity]. cbn [option_map].
    rewrite (fs_mid _ _ _ _ _ _ _ _ _ _ _ _ FS a xa Ea), (fs_mid _ _ _ _ _ _ _ _ _ _ _ _ FS c xc Ec). reflexivity. }
  unfold h2_init. rewrite Nn, Ebt. cbn [bind]. eexists. exists B. split; [reflexivity|]. cbn [h_blocks]. auto.
Qed.
(** the error of div-conforming functions compares the first Cartesian component only: it depends on the position of the geometry *)
Lemma constant_basis : forall ja jb s, basis (mkSS 0 0 ja jb ja jb) s 0%nat = 1.
Proof. intros. unfold basis. cbn [ss_j1 ss_j2 ss_p]. cbv -[Rplus Rmult Rminus Ropp R1 R0]. ring. Qed.
Theorem C87_div_error_refuted : exists t X, init_tree Nat.eqb [[0; 1; 2; 3]]%nat 0 = Some t /\ rotation quarter /\
  forall ja jb, let err X := surfaceL2error_div (fun _ => ([/ 2], [1])) t X (mkSS 0 0 ja jb ja jb) 1 (fun r _ => if (r =? 0)%nat then 1 else 0) (fun _ => 1) (fun _ => 0) 0 in
  err X = Some 1 /\ err (moved quarter X) = Some 0.
Proof.
  destruct (init_tree Nat.eqb [[0; 1; 2; 3]]%nat 0) as [t|] eqn:Et; [|vm_compute in Et; discriminate]. exists t, far_sheets. split; [reflexivity|]. split; [exact quarter_rotation|]. intros ja jb err.
  assert (Z : (t <- init_tree Nat.eqb [[0; 1; 2; 3]]%nat 0 ;; rv <- reordering_vector t ;; es <- elements t ;; e <- get es 0 ;; Some (rv, length es, n_id e, n_level e, t_elements t)) = Some ([0], 1, 0, 0, 1)%nat) by (vm_compute; reflexivity).
  rewrite Et in Z. cbn [bind] in Z. apply bind_some in Z. destruct Z as [rv [Rv Z]]. apply bind_some in Z. destruct Z as [es [Es Z]]. apply bind_some in Z. destruct Z as [e [Ge Z]]. apply some_eq in Z. injection Z as -> Le Id Lv Te.
  assert (Hh : n_h e = 1) by (unfold n_h, get_h; rewrite Lv; unfold Q2R, pow2Q; cbn; lra).
  destruct es as [|e' [|? ?]]; cbn [length] in Le; try discriminate. cbn in Ge. injection Ge as ->.
  set (ss := mkSS 0 0 ja jb ja jb) in *. set (Tm := fun (r _ : nat) => if (r =? 0)%nat then 1 else 0) in *.
  assert (G : forall Y, err Y = Some (sqrt (0 + vnorm (vcross (p_dx (surf_point Y e (/ 2, / 2) 1)) (p_dy (surf_point Y e (/ 2, / 2) 1))) * (1 * 1) * n_h e * n_h e *
     (0 - vx (p_dx (surf_point Y e (/ 2, / 2) 1))) * (0 - vx (p_dx (surf_point Y e (/ 2, / 2) 1)))))).
  { intros Y. unfold err, surfaceL2error_div, init_evaluator. cbn [fst]. rewrite Rv, Es, Te. cbn [bind l2_loop]. change (q_size (gauss_square (fun _ => ([/ 2], [1])) 0)) with 1%nat. cbn [for_opt bind]. unfold l2_point. cbv zeta.
    unfold evaluate_vector, evaluate, coefficients. cbn [e_p2 e_fun ss_p ss]. rewrite Id. change (ss_n2 ss) with 1%nat. unfold set_function. cbv zeta. change (1 * 1 * 1)%nat with 1%nat. change ((2 * 1 * 1) / 2)%nat with 1%nat. cbn [seq map length Nat.mul Nat.add Nat.leb assert bind skipn firstn].
    cbn [e_p2 e_fun ss_p ss length Nat.leb ModelBase.assert bind skipn firstn].
    assert (EV : forall p, eval_vector ss e p [fun c : nat => transform 1 Tm (fun _ : nat => 1) (c * 1 + 0)%nat] = p_dx p).
    { intros p. unfold eval_vector. cbv zeta. change (ss_n2 ss) with 1%nat. cbn [rsum]. unfold ss. rewrite !constant_basis, Hh. unfold coef, transform, Tm. cbn [nth rsum Nat.mul Nat.add Nat.eqb].
      destruct (p_dx p) as [[a1 a2] a3], (p_dy p) as [[d1 d2] d3]. unfold vscal, vadd, vx, vy, vz. cbn [fst snd]. f_equal; [f_equal|]; field. }
    rewrite EV. reflexivity. }
  rewrite !G. clear G err. set (s2 := (/ 2, / 2)).
  assert (C1 : vnorm (vcross (p_dx (surf_point far_sheets e s2 1)) (p_dy (surf_point far_sheets e s2 1))) = 1).
  { change (p_dx (surf_point far_sheets e s2 1)) with ((1, 0, 0) : vec3). change (p_dy (surf_point far_sheets e s2 1)) with ((0, 1, 0) : vec3). unfold vnorm, vdot, vcross, vx, vy, vz. cbn [fst snd].
    match goal with |- sqrt ?z = _ => replace z with 1 by ring end. exact sqrt_1. }
  assert (C2 : vnorm (vcross (p_dx (surf_point (moved quarter far_sheets) e s2 1)) (p_dy (surf_point (moved quarter far_sheets) e s2 1))) = 1).
  { rewrite moved_surf. cbn [moved_point p_dx p_dy]. rewrite (turn_cross quarter quarter_rotation), (turn_norm quarter quarter_rotation). exact C1. }
  rewrite C1, C2, !Hh. change (vx (p_dx (surf_point far_sheets e s2 1))) with 1.
  replace (vx (p_dx (surf_point (moved quarter far_sheets) e s2 1))) with 0.
  2: { change (p_dx (surf_point (moved quarter far_sheets) e s2 1)) with (turn quarter (1, 0, 0)). unfold turn, quarter, vadd, vscal, vx, vy, vz. cbn [m_x m_y m_z fst snd]. ring. }
  split; f_equal.
  - match goal with |- sqrt ?z = _ => replace z with 1 by ring end. exact sqrt_1.
  - match goal with |- sqrt ?z = _ => replace z with 0 by ring end. exact sqrt_0.
Qed.

(* BEGIN ASSUMPTIONS *)
Print Assumptions C87_mesh.
Print Assumptions C87_full.
Print Assumptions C87_compressed.
Print Assumptions C87_local.
Print Assumptions C87_scalar_traces.
Print Assumptions C87_vector_traces.
Print Assumptions C87_potentials.
Print Assumptions C87_gradient_potential.
Print Assumptions C87_maxwell_potential.
Print Assumptions C87_surface_error.
Print Assumptions C87_div_error_refuted.
