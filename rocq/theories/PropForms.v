(** C61, C62: discrete functions; linear forms and local operators as integrals of discrete functions. *)
From Coq Require Import Reals Arith Bool List Lia Lra QArith Qreals.
From Verif Require Import ModelBase RSum ModelBernstein SpecBernstein ProofBernstein ModelTree ModelBall ModelQuad ModelAssembly ModelDuffy ModelUtil
  ModelOperators ModelForms SpecTree SpecOperators SpecForms ProofPar ProofAssembly ProofOperators PropOperators ProofNearFar PropNearFar ProofForms
  ProofTree ProofTreeWF ProofTreeHist PropTree PropAssembly.
Import ListNotations.
Local Close Scope Q_scope.
Local Open Scope R_scope.

(** the uniformly refined mesh of level M and its elements in the order of the iterator *)
Definition uniform_mesh {Pt} (close : Pt -> Pt -> bool) corners M t els : Prop :=
  corners <> [] /\ (forall c, In c corners -> length c = 4%nat) /\ init_tree close corners M = Some t /\ mesh_elements t els.
(** E is the FunctionEvaluator of an ansatz space over this mesh with vd components per function and transformation matrix T
    (nd columns), holding the function with coefficient vector v *)
Definition evaluator_of (t : tree) (X : surface) (ss : sspace) (vd nd : nat) (T : mat) (v : arr) (E : evaluator surface arr) : Prop :=
  init_evaluator (t, X) (ss_p ss) (set_function vd (vd * ss_n2 ss * t_elements t) nd T v) = Some E.

Section Mesh.
Context {Pt : Type} (close : Pt -> Pt -> bool) (corners : list (list Pt)) (M : nat) (t : tree) (els : list node).
Hypothesis Hm : uniform_mesh close corners M t els.
Lemma mesh_numbered : numbered (t_elements t) els.
Proof. destruct Hm as [Hc [H4 [E Me]]]. destruct (uniform_ids close corners M t els Hc H4 E Me) as [L [_ H]]. split; assumption. Qed.
Lemma mesh_leaf : forall a e, is_leaf t a -> t_store t a = Some e -> In e els.
Proof.
  intros a e Ha Sa. destruct Hm as [Hc [H4 [E [l [El Em]]]]].
  destruct (init_tree_ok close corners M H4) as [t' [l' [E' [W [P [A ML]]]]]]. rewrite E in E'. injection E' as <-.
  assert (HP : (0 < t_patches t)%nat) by (rewrite P; destruct corners; [congruence|simpl; lia]).
  rewrite (traverse_ok t l' W HP) in El. injection El as <-. apply (wf_leaf t l' W) in Ha.
  destruct (els_length t l' els Em) as [L H]. destruct (In_nth l' a [] Ha) as [i [Hi Ei]]. destruct (H i Hi) as [e' [He Se]].
  rewrite Ei, Sa in Se. injection Se as <-. eapply nth_error_In. exact He.
Qed.
Lemma mesh_width : forall e, In e els -> n_level e = M.
Proof.
  intros e He. destruct Hm as [Hc [H4 [E [l [El Em]]]]].
  destruct (init_tree_ok close corners M H4) as [t' [l' [E' [W [P [A ML]]]]]]. rewrite E in E'. injection E' as <-.
  assert (HP : (0 < t_patches t)%nat) by (rewrite P; destruct corners; [congruence|simpl; lia]).
  rewrite (traverse_ok t l' W HP) in El. injection El as <-. destruct (els_length t l' els Em) as [L H].
  apply In_nth_error in He. destruct He as [i Hi]. assert (Hl : (i < length els)%nat) by (apply nth_error_Some; congruence). rewrite L in Hl.
  destruct (H i Hl) as [e' [He' Se]]. assert (e' = e) by congruence. subst e'.
  rewrite (nk_level _ _ (wf_node t l' W _ _ Se)). apply A. apply (wf_leaf t l' W). apply nth_In. exact Hl.
Qed.

(** ** C61: discrete functions *)
Theorem C61_evaluator_exists : forall X ss vd nd T v, exists E, evaluator_of t X ss vd nd T v E.
Proof.
  intros. destruct Hm as [Hc [H4 [E Me]]]. destruct (C12_reordering_is_permutation Pt close corners M t Hc H4 E) as [rv [Er _]].
  unfold evaluator_of, init_evaluator. cbn [fst]. rewrite Er. cbn [bind]. eauto.
Qed.

(** the value on an element is the combination of its basis functions, which are the tensor product Bernstein polynomials
    divided by the width of the element *)
Theorem C61_scalar : forall X ss nd T v E e p, evaluator_of t X ss 1 nd T v E -> In e els ->
  evaluate_scalar ss E e p = Some (discrete_value (ss_p ss) (t_elements t) nd T v 0 (n_id e) (n_h e) (p_s p)).
Proof.
  intros X ss nd T v E e p HE I. destruct (numbered_in _ _ e mesh_numbered I) as [Hid _].
  destruct (coefficients_value ss t X 1 (t_elements t) nd T v E e ltac:(lia) HE Hid) as [rows [Ec Hr]].
  unfold evaluate_scalar, evaluate. rewrite Ec. cbn [bind]. f_equal. unfold eval_scalar, discrete_value. f_equal.
  apply rsum_ext. intros i Hi. rewrite Hr, basis_value by exact Hi. reflexivity.
Qed.
(** div-conforming functions: two components, along the tangents of the surface *)
Theorem C61_vector : forall X ss nd T v E e p, evaluator_of t X ss 2 nd T v E -> In e els ->
  evaluate_vector ss E e p = Some (vadd (vscal (discrete_value (ss_p ss) (t_elements t) nd T v 0 (n_id e) (n_h e) (p_s p)) (p_dx p))
                                        (vscal (discrete_value (ss_p ss) (t_elements t) nd T v 1 (n_id e) (n_h e) (p_s p)) (p_dy p))).
Proof.
  intros X ss nd T v E e p HE I. destruct (numbered_in _ _ e mesh_numbered I) as [Hid _].
  destruct (coefficients_value ss t X 2 (t_elements t) nd T v E e ltac:(lia) HE Hid) as [rows [Ec Hr]].
  unfold evaluate_vector, evaluate. rewrite Ec. cbn [bind]. f_equal. unfold eval_vector. cbv zeta.
  assert (D : forall c, discrete_value (ss_p ss) (t_elements t) nd T v c (n_id e) (n_h e) (p_s p) = rsum (fun i => coef rows i c * basis ss (p_s p) i) (ss_n2 ss) / n_h e).
  { intros c. unfold discrete_value. f_equal. apply rsum_ext. intros i Hi. rewrite Hr, basis_value by exact Hi. reflexivity. }
  rewrite !D. unfold vadd, vscal, vx, vy, vz. cbn [fst snd]. unfold Rdiv. f_equal; [f_equal|]; ring.
Qed.
(** the derivatives of a discrete function in the coordinates of the patch *)
Lemma discrete_derivatives : forall ss N nd T v c k h s, h <> 0 ->
  patch_derivatives h (discrete_value (ss_p ss) N nd T v c k h) s
    (rsum (fun i => local_coefficient (ss_p ss) N nd T v c k i * basisDx ss s i) (ss_n2 ss) / h / h)
    (rsum (fun i => local_coefficient (ss_p ss) N nd T v c k i * basisDy ss s i) (ss_n2 ss) / h / h).
Proof.
  intros ss N nd T v c k h s Hh.
  assert (Aff : forall f x l, derivable_pt_lim f x l -> derivable_pt_lim (fun z => f (x + z / h)) 0 (l / h)).
  { intros f x l D. replace (l / h) with (l * (1 / h)) by (unfold Rdiv; ring). apply (derivable_pt_lim_comp (fun z => x + z / h) f).
    - replace (1 / h) with (0 + (1 / h)) by ring. apply (derivable_pt_lim_plus (fun _ => x) (fun z => z / h)); [apply derivable_pt_lim_const|].
      replace (1 / h) with (1 * / h + 0 * 0) by (unfold Rdiv; ring). apply (derivable_pt_lim_mult (fun z => z) (fun _ => / h) 0 1 0); [apply derivable_pt_lim_id|apply derivable_pt_lim_const].
    - replace (x + 0 / h) with x by (unfold Rdiv; ring). exact D. }
  assert (Sc : forall f x l a, derivable_pt_lim f x l -> derivable_pt_lim (fun z => f z * a) x (l * a)).
  { intros f x l a D. replace (l * a) with (l * a + f x * 0) by ring. apply (derivable_pt_lim_mult f (fun _ => a)); [exact D|apply derivable_pt_lim_const]. }
  assert (Ext : forall f g x l, (forall z, f z = g z) -> derivable_pt_lim f x l -> derivable_pt_lim g x l).
  { intros f g x l Ex D eps He. destruct (D eps He) as [d Hd]. exists d. intros z Z1 Z2. rewrite <- !Ex. apply Hd; assumption. }
  unfold patch_derivatives, discrete_value. cbn [fst snd]. fold (ss_n2 ss). set (n := ss_n2 ss).
  split.
  - replace (rsum (fun i => local_coefficient (ss_p ss) N nd T v c k i * basisDx ss s i) n / h / h) with
      (rsum (fun i => basisDx ss s i / h * local_coefficient (ss_p ss) N nd T v c k i) n * / h)
      by (unfold Rdiv at 2; f_equal; unfold Rdiv; rewrite <- rsum_scal_r; apply rsum_ext; intros; ring).
    apply (Sc (fun z => rsum (fun i => local_coefficient (ss_p ss) N nd T v c k i * tensor_bernstein (ss_p ss) i (fst s + z / h, snd s)) n)).
    apply (rsum_derivable (fun i z => local_coefficient (ss_p ss) N nd T v c k i * tensor_bernstein (ss_p ss) i (fst s + z / h, snd s))
      (fun i _ => basisDx ss s i / h * local_coefficient (ss_p ss) N nd T v c k i)).
    intros i Hi. destruct (split_index _ i Hi) as [_ [A1 A2]]. rewrite dx_value by exact Hi. unfold tensor_bernstein. cbn [fst snd].
    apply (Ext (fun z => bern (ss_p ss) (i mod (ss_p ss + 1)) (fst s + z / h) * bern (ss_p ss) (i / (ss_p ss + 1)) (snd s) * local_coefficient (ss_p ss) N nd T v c k i)); [intros; ring|].
    apply Sc. replace (dbern (ss_p ss) (i mod (ss_p ss + 1)) (fst s) * bern (ss_p ss) (i / (ss_p ss + 1)) (snd s) / h) with
      (dbern (ss_p ss) (i mod (ss_p ss + 1)) (fst s) / h * bern (ss_p ss) (i / (ss_p ss + 1)) (snd s)) by (unfold Rdiv; ring).
    apply (Sc (fun z => bern (ss_p ss) (i mod (ss_p ss + 1)) (fst s + z / h))). apply Aff. apply bern_derivable. exact A2.
  - replace (rsum (fun i => local_coefficient (ss_p ss) N nd T v c k i * basisDy ss s i) n / h / h) with
      (rsum (fun i => basisDy ss s i / h * local_coefficient (ss_p ss) N nd T v c k i) n * / h)
      by (unfold Rdiv at 2; f_equal; unfold Rdiv; rewrite <- rsum_scal_r; apply rsum_ext; intros; ring).
    apply (Sc (fun z => rsum (fun i => local_coefficient (ss_p ss) N nd T v c k i * tensor_bernstein (ss_p ss) i (fst s, snd s + z / h)) n)).
    apply (rsum_derivable (fun i z => local_coefficient (ss_p ss) N nd T v c k i * tensor_bernstein (ss_p ss) i (fst s, snd s + z / h))
      (fun i _ => basisDy ss s i / h * local_coefficient (ss_p ss) N nd T v c k i)).
    intros i Hi. destruct (split_index _ i Hi) as [_ [A1 A2]]. rewrite dy_value by exact Hi. unfold tensor_bernstein. cbn [fst snd].
    apply (Ext (fun z => bern (ss_p ss) (i / (ss_p ss + 1)) (snd s + z / h) * bern (ss_p ss) (i mod (ss_p ss + 1)) (fst s) * local_coefficient (ss_p ss) N nd T v c k i)); [intros; ring|].
    apply Sc. replace (bern (ss_p ss) (i mod (ss_p ss + 1)) (fst s) * dbern (ss_p ss) (i / (ss_p ss + 1)) (snd s) / h) with
      (dbern (ss_p ss) (i / (ss_p ss + 1)) (snd s) / h * bern (ss_p ss) (i mod (ss_p ss + 1)) (fst s)) by (unfold Rdiv; ring).
    apply (Sc (fun z => bern (ss_p ss) (i / (ss_p ss + 1)) (snd s + z / h))). apply Aff. apply bern_derivable. exact A1.
Qed.
(** evaluateDiv: the derivative of the first component in x plus that of the second one in y *)
Theorem C61_divergence : forall X ss nd T v E e p, evaluator_of t X ss 2 nd T v E -> In e els ->
  exists ax ay bx byy, evaluate_div ss E e p = Some (ax + byy) /\
    patch_derivatives (n_h e) (discrete_value (ss_p ss) (t_elements t) nd T v 0 (n_id e) (n_h e)) (p_s p) ax ay /\
    patch_derivatives (n_h e) (discrete_value (ss_p ss) (t_elements t) nd T v 1 (n_id e) (n_h e)) (p_s p) bx byy.
Proof.
  intros X ss nd T v E e p HE I. destruct (numbered_in _ _ e mesh_numbered I) as [Hid _].
  destruct (coefficients_value ss t X 2 (t_elements t) nd T v E e ltac:(lia) HE Hid) as [rows [Ec Hr]].
  assert (Hh : n_h e <> 0) by (pose proof (n_h_pos e); lra).
  do 4 eexists. split; [|split; apply discrete_derivatives; exact Hh].
  unfold evaluate_div, evaluate. rewrite Ec. cbn [bind]. f_equal. unfold eval_div.
  rewrite (rsum_ext (fun i => basisDx ss (p_s p) i * coef rows i 0) (fun i => local_coefficient (ss_p ss) (t_elements t) nd T v 0 (n_id e) i * basisDx ss (p_s p) i)) by (intros i Hi; rewrite Hr by exact Hi; ring).
  rewrite (rsum_ext (fun i => basisDy ss (p_s p) i * coef rows i 1) (fun i => local_coefficient (ss_p ss) (t_elements t) nd T v 1 (n_id e) i * basisDy ss (p_s p) i)) by (intros i Hi; rewrite Hr by exact Hi; ring).
  unfold Rdiv. ring.
Qed.
(** evaluation by patch and point: the value on an element containing the point *)
Theorem C61_on_patch : forall X ss nd T v E patch x y, evaluator_of t X ss 1 nd T v E -> (patch < length corners)%nat ->
  (0 <= x)%Q -> (x <= 1)%Q -> (0 <= y)%Q -> (y <= 1)%Q ->
  exists e a b, In e els /\ n_patch e = patch /\ (0 <= a <= 1 /\ 0 <= b <= 1)%Q /\
    (x == fst (n_llc e) + get_h e * a /\ y == snd (n_llc e) + get_h e * b)%Q /\
    scalar_on_patch ss E patch x y = Some (discrete_value (ss_p ss) (t_elements t) nd T v 0 (n_id e) (n_h e) (Q2R a, Q2R b)).
Proof.
  intros X ss nd T v E patch x y HE Hp X0 X1 Y0 Y1. assert (HE' := HE). unfold evaluator_of, init_evaluator in HE'. cbn [fst] in HE'. apply bind_some in HE'.
  destruct HE' as [rv [Rv HE']]. destruct Hm as [Hc [H4 [Et Me]]].
  destruct (C12_lookup_finds_element Pt close corners M t rv patch x y Hc H4 Et Rv Hp X0 X1 Y0 Y1) as [a [n [u [w [La [Le [Sn [Pn [_ [Hu Hx]]]]]]]]]].
  assert (In_e : In n els) by (apply (mesh_leaf a); assumption).
  exists n, u, w. split; [exact In_e|]. split; [exact Pn|]. split; [exact Hu|]. split; [exact Hx|].
  set (q := let z := X patch (Q2R x, Q2R y) in mkSP (Q2R u, Q2R w) 1 (fst (fst z)) (snd (fst z)) (snd z)).
  change (Q2R u, Q2R w) with (p_s q). rewrite <- (C61_scalar X ss nd T v E n q HE In_e).
  injection HE' as HE'. unfold scalar_on_patch, evaluateOnPatch. rewrite <- HE'. cbn [e_space e_rv fst]. rewrite La. cbn [bind fst snd]. rewrite Sn. cbn [bind].
  unfold evaluate_scalar, evaluate. reflexivity.
Qed.
(** functions with equal coefficients on an element are constant there *)
Theorem C61_constant : forall X ss nd T v E e p a, evaluator_of t X ss 1 nd T v E -> In e els ->
  (forall i, (i < (ss_p ss + 1) * (ss_p ss + 1))%nat -> local_coefficient (ss_p ss) (t_elements t) nd T v 0 (n_id e) i = a * n_h e) ->
  evaluate_scalar ss E e p = Some a.
Proof.
  intros X ss nd T v E e p a HE I Ha. rewrite (C61_scalar X ss nd T v E e p HE I). f_equal. unfold discrete_value.
  rewrite (rsum_ext _ (fun i => a * n_h e * tensor_bernstein (ss_p ss) i (p_s p))) by (intros i Hi; rewrite Ha by exact Hi; reflexivity).
  rewrite rsum_scal. rewrite rsum_flatten.
  rewrite (rsum_ext _ (fun iy => bern (ss_p ss) iy (snd (p_s p)) * rsum (fun ix => bern (ss_p ss) ix (fst (p_s p))) (ss_p ss + 1))).
  - rewrite bern_sum. rewrite rsum_scal_r, bern_sum. pose proof (n_h_pos e). field. lra.
  - intros iy Hy. rewrite <- rsum_scal. apply rsum_ext. intros ix Hx. unfold tensor_bernstein.
    rewrite (Nat.add_comm (iy * _)), Nat.mod_add, Nat.div_add, Nat.mod_small, Nat.div_small by lia. cbn [Nat.add]. ring.
Qed.
(** evaluation is linear in the coefficient vector *)
Theorem C61_linear : forall X ss nd T v w a E1 E2 E3 e p, evaluator_of t X ss 1 nd T v E1 -> evaluator_of t X ss 1 nd T w E2 ->
  evaluator_of t X ss 1 nd T (fun i => v i + a * w i) E3 -> In e els ->
  exists x y, evaluate_scalar ss E1 e p = Some x /\ evaluate_scalar ss E2 e p = Some y /\ evaluate_scalar ss E3 e p = Some (x + a * y).
Proof.
  intros X ss nd T v w a E1 E2 E3 e p H1 H2 H3 I. do 2 eexists. split; [apply (C61_scalar X ss nd T v); assumption|]. split; [apply (C61_scalar X ss nd T w); assumption|].
  rewrite (C61_scalar X ss nd T (fun i => v i + a * w i) E3 e p H3 I). f_equal. unfold discrete_value, Rdiv. rewrite <- Rmult_assoc. rewrite <- rsum_scal, <- Rmult_plus_distr_r, <- rsum_plus. f_equal.
  apply rsum_ext. intros i Hi. rewrite <- Rmult_assoc, <- Rmult_plus_distr_r. f_equal. unfold local_coefficient. rewrite <- rsum_scal, <- rsum_plus. apply rsum_ext. intros. ring.
Qed.

(** ** C62: linear forms *)
Theorem C62_linear_form_defined : forall lf ss X Q vd T, exists b, linear_form lf ss X Q vd (t_elements t) T els = Some b.
Proof. intros. apply linear_form_defined. exact mesh_numbered. Qed.
Lemma form_identity : forall lf ss X Q vd nd T v b (A : spoint -> nat -> R),
  (forall p m i c, (c < vd)%nat -> (i < ss_n2 ss)%nat -> lf ss p m i c = m i c + p_w p * A p c * tensor_bernstein (ss_p ss) i (p_s p)) ->
  (forall e s w, A (surf_point X e s w) = A (surf_point X e s 1)) ->
  linear_form lf ss X Q vd (t_elements t) T els = Some b ->
  dotp nd v b = surface_sum els Q (fun e s => rsum (fun c => A (surf_point X e s 1) c * discrete_value (ss_p ss) (t_elements t) nd T v c (n_id e) (n_h e) s) vd).
Proof.
  intros lf ss X Q vd nd T v b A Hl Hw Eb. rewrite (linear_form_dot lf ss X Q _ vd nd T els mesh_numbered b v Eb). unfold surface_sum.
  destruct mesh_numbered as [L H]. match goal with |- rsum ?f ?n = _ => replace (rsum f n) with (rsum f (length els)) by (rewrite L; reflexivity) end. apply rsum_ext. intros k Hk. destruct (H k Hk) as [e [He Id]]. rewrite He.
  rewrite (rsum_ext _ (fun c => rsum (fun q => n_h e * n_h e * (q_w Q q * (A (surf_point X e (q_xi Q q) 1) c * discrete_value (ss_p ss) (t_elements t) nd T v c (n_id e) (n_h e) (q_xi Q q)))) (q_size Q))).
  - rewrite rsum_swap. change (Q2R (get_h e)) with (n_h e). rewrite <- rsum_scal. apply rsum_ext. intros q Hq. rewrite !rsum_scal. reflexivity.
  - intros c Hc.
    rewrite (rsum_ext _ (fun i => rsum (fun q => local_coefficient (ss_p ss) (t_elements t) nd T v c k i *
      (n_h e * q_w Q q * A (surf_point X e (q_xi Q q) 1) c * tensor_bernstein (ss_p ss) i (q_xi Q q))) (q_size Q))).
    + rewrite rsum_swap. apply rsum_ext. intros q Hq. unfold discrete_value. rewrite Id. pose proof (n_h_pos e).
      replace (n_h e * n_h e * (q_w Q q * (A (surf_point X e (q_xi Q q) 1) c * (rsum (fun i => local_coefficient (ss_p ss) (t_elements t) nd T v c k i * tensor_bernstein (ss_p ss) i (q_xi Q q)) ((ss_p ss + 1) * (ss_p ss + 1)) / n_h e))))
        with (n_h e * q_w Q q * A (surf_point X e (q_xi Q q) 1) c * rsum (fun i => local_coefficient (ss_p ss) (t_elements t) nd T v c k i * tensor_bernstein (ss_p ss) i (q_xi Q q)) ((ss_p ss + 1) * (ss_p ss + 1))) by (field; lra).
      rewrite <- rsum_scal. apply rsum_ext. intros. ring.
    + intros i Hi. rewrite (element_form_value lf ss X Q vd A e i c Hl Hi Hc). rewrite <- rsum_scal. apply rsum_ext. intros q Hq. rewrite Hw. reflexivity.
Qed.
Lemma scaled_value : forall ss w s m i c, (c < 1)%nat -> (i < ss_n2 ss)%nat -> addScaledBasis ss w s m i c = m i c + w * tensor_bernstein (ss_p ss) i s.
Proof.
  intros ss w s m i c Hc Hi. assert (c = 0%nat) by lia. subst c. unfold addScaledBasis. cbn [Nat.eqb]. destruct (split_index _ i Hi) as [Ei [A1 A2]].
  pose proof (phiphi_spec (ss_j1 ss) (ss_j2 ss) (ss_p ss) (fun i => m i 0%nat) w (fst s) (snd s) _ _ A1 A2) as P. rewrite <- Ei in P. rewrite P. unfold tensor_bernstein. ring.
Qed.
(** the surface sum of a function f of the surface point times the function v *)
Theorem C62_dirichlet : forall g ss X Q nd T v E vh b, evaluator_of t X ss 1 nd T v E ->
  (forall e p, In e els -> evaluate_scalar ss E e p = Some (vh e p)) ->
  linear_form (dirichlet_trace g) ss X Q 1 (t_elements t) T els = Some b ->
  dotp nd v b = surface_sum els Q (fun e s => let p := surf_point X e s 1 in g (p_f p) * vh e p * p_kappa p).
Proof.
  intros g ss X Q nd T v E vh b HE Hv Eb. rewrite (form_identity _ ss X Q 1 nd T v b (fun p _ => g (p_f p) * p_kappa p)) with (3 := Eb).
  - unfold surface_sum. apply rsum_ext. intros k Hk. destruct (nth_error els k) as [e|] eqn:Ek; [|reflexivity]. apply nth_error_In in Ek. f_equal. apply rsum_ext. intros q Hq. f_equal.
    cbv zeta. cbn [rsum]. specialize (Hv e (surf_point X e (q_xi Q q) 1) Ek). rewrite (C61_scalar X ss nd T v E e _ HE Ek) in Hv. injection Hv as Hv. rewrite <- Hv.
    change (p_s (surf_point X e (q_xi Q q) 1)) with (q_xi Q q). ring.
  - intros p m i c Hc Hi. unfold dirichlet_trace. rewrite scaled_value by assumption. ring.
  - reflexivity.
Qed.
(** n is the vector product of the tangents: the unit normal times the surface measure *)
Theorem C62_neumann : forall g ss X Q nd T v E vh b, evaluator_of t X ss 1 nd T v E ->
  (forall e p, In e els -> evaluate_scalar ss E e p = Some (vh e p)) ->
  linear_form (neumann_trace g) ss X Q 1 (t_elements t) T els = Some b ->
  dotp nd v b = surface_sum els Q (fun e s => let p := surf_point X e s 1 in vdot (vcross (p_dx p) (p_dy p)) (g (p_f p)) * vh e p).
Proof.
  intros g ss X Q nd T v E vh b HE Hv Eb. rewrite (form_identity _ ss X Q 1 nd T v b (fun p _ => vdot (p_n p) (g (p_f p)))) with (3 := Eb).
  - unfold surface_sum. apply rsum_ext. intros k Hk. destruct (nth_error els k) as [e|] eqn:Ek; [|reflexivity]. apply nth_error_In in Ek. f_equal. apply rsum_ext. intros q Hq. f_equal.
    cbv zeta. cbn [rsum]. specialize (Hv e (surf_point X e (q_xi Q q) 1) Ek). rewrite (C61_scalar X ss nd T v E e _ HE Ek) in Hv. injection Hv as Hv. rewrite <- Hv.
    change (p_s (surf_point X e (q_xi Q q) 1)) with (q_xi Q q). unfold p_n. ring.
  - intros p m i c Hc Hi. unfold neumann_trace. rewrite scaled_value by assumption. ring.
  - reflexivity.
Qed.
Lemma columns_value : forall ss cx cy s m i c, (c < 2)%nat -> (i < ss_n2 ss)%nat ->
  add_columns ss cx cy s m i c = m i c + (match c with O => cx | _ => cy end) * tensor_bernstein (ss_p ss) i s.
Proof. intros ss cx cy s m i c Hc Hi. unfold add_columns. rewrite basis_value by exact Hi. destruct c as [|[|c]]; [reflexivity|reflexivity|lia]. Qed.
Lemma dot_comb : forall a b (dx dy f : vec3), vdot dx f * a + vdot dy f * b = vdot (vadd (vscal a dx) (vscal b dy)) f.
Proof. intros. unfold vdot, vadd, vscal, vx, vy, vz. cbn [fst snd]. ring. Qed.
Lemma normal_orthogonal : forall p, vdot (p_dx p) (vnormalized (p_n p)) = 0 /\ vdot (p_dy p) (vnormalized (p_n p)) = 0.
Proof.
  intros p. assert (A : vdot (p_dx p) (p_n p) = 0 /\ vdot (p_dy p) (p_n p) = 0) by (unfold p_n, vdot, vcross, vx, vy, vz; cbn [fst snd]; split; ring).
  unfold vnormalized. destruct (Rlt_dec 0 (vdot (p_n p) (p_n p))); [|exact A]. destruct A as [A B].
  split; [replace 0 with (vdot (p_dx p) (p_n p) / vnorm (p_n p)) by (rewrite A; unfold Rdiv; ring)|replace 0 with (vdot (p_dy p) (p_n p) / vnorm (p_n p)) by (rewrite B; unfold Rdiv; ring)];
    unfold vdot, vx, vy, vz; cbn [fst snd]; unfold Rdiv; ring.
Qed.
(** the tangential trace f x n; the factor of the surface measure belongs to the discrete function *)
Theorem C62_tangential : forall g ss X Q nd T v E vh b, evaluator_of t X ss 2 nd T v E ->
  (forall e p, In e els -> evaluate_vector ss E e p = Some (vh e p)) ->
  linear_form (tangential_trace g) ss X Q 2 (t_elements t) T els = Some b ->
  dotp nd v b = surface_sum els Q (fun e s => let p := surf_point X e s 1 in
    vdot (vh e p) (vcross (g (p_f p)) (vnormalized (vcross (p_dx p) (p_dy p))))).
Proof.
  intros g ss X Q nd T v E vh b HE Hv Eb.
  rewrite (form_identity _ ss X Q 2 nd T v b (fun p c => vdot (match c with O => p_dx p | _ => p_dy p end) (vcross (g (p_f p)) (vnormalized (p_n p))))) with (3 := Eb).
  - unfold surface_sum. apply rsum_ext. intros k Hk. destruct (nth_error els k) as [e|] eqn:Ek; [|reflexivity]. apply nth_error_In in Ek. f_equal. apply rsum_ext. intros q Hq. f_equal.
    cbv zeta. cbn [rsum]. specialize (Hv e (surf_point X e (q_xi Q q) 1) Ek). rewrite (C61_vector X ss nd T v E e _ HE Ek) in Hv. apply (f_equal (fun o => match o with Some z => z | None => (0, 0, 0) end)) in Hv. rewrite <- Hv.
    change (p_s (surf_point X e (q_xi Q q) 1)) with (q_xi Q q). unfold p_n. rewrite <- dot_comb. ring.
  - intros p m i c Hc Hi. unfold tangential_trace. cbv zeta. rewrite columns_value by assumption.
    destruct c; unfold vdot, vscal, vx, vy, vz; cbn [fst snd]; ring.
  - reflexivity.
Qed.
(** the rotated tangential trace n x (f x n) is the tangential part of f; its product with v is that of f *)
Theorem C62_rotated_tangential : forall g ss X Q nd T v E vh b, evaluator_of t X ss 2 nd T v E ->
  (forall e p, In e els -> evaluate_vector ss E e p = Some (vh e p)) ->
  linear_form (rotated_tangential_trace g) ss X Q 2 (t_elements t) T els = Some b ->
  dotp nd v b = surface_sum els Q (fun e s => let p := surf_point X e s 1 in vdot (vh e p) (g (p_f p))).
Proof.
  intros g ss X Q nd T v E vh b HE Hv Eb.
  rewrite (form_identity _ ss X Q 2 nd T v b (fun p c => vdot (match c with O => p_dx p | _ => p_dy p end) (g (p_f p)))) with (3 := Eb).
  - unfold surface_sum. apply rsum_ext. intros k Hk. destruct (nth_error els k) as [e|] eqn:Ek; [|reflexivity]. apply nth_error_In in Ek. f_equal. apply rsum_ext. intros q Hq. f_equal.
    cbv zeta. cbn [rsum]. specialize (Hv e (surf_point X e (q_xi Q q) 1) Ek). rewrite (C61_vector X ss nd T v E e _ HE Ek) in Hv. apply (f_equal (fun o => match o with Some z => z | None => (0, 0, 0) end)) in Hv. rewrite <- Hv.
    change (p_s (surf_point X e (q_xi Q q) 1)) with (q_xi Q q). rewrite <- dot_comb. ring.
  - intros p m i c Hc Hi. unfold rotated_tangential_trace. cbv zeta. rewrite columns_value by assumption. destruct (normal_orthogonal p) as [Nx Ny].
    set (n := vnormalized (p_n p)) in *. clearbody n.
    assert (Z : forall d, vdot d n = 0 -> vdot d (vscal (p_w p) (vsub (g (p_f p)) (vscal (vdot (g (p_f p)) n) n))) = p_w p * vdot d (g (p_f p))).
    { intros d Hd. replace (vdot d (vscal (p_w p) (vsub (g (p_f p)) (vscal (vdot (g (p_f p)) n) n)))) with (p_w p * vdot d (g (p_f p)) - p_w p * vdot (g (p_f p)) n * vdot d n)
        by (unfold vdot, vscal, vsub, vx, vy, vz; cbn [fst snd]; ring). rewrite Hd. ring. }
    destruct c; rewrite Z by assumption; ring.
  - reflexivity.
Qed.

(** ** C62: the mass matrix and the Laplace-Beltrami operator *)
Lemma local_identity : forall integrand ss X Q nd T v w (B : spoint -> nat -> nat -> R),
  (forall p m i j, (i < ss_n2 ss)%nat -> (j < ss_n2 ss)%nat -> integrand ss p p m i j = m i j + p_w p * B p i j) ->
  (forall e s w, B (surf_point X e s w) = B (surf_point X e s 1)) ->
  dotp nd v (times nd (local_operator integrand ss X Q 1 (t_elements t) T els) w) =
  rsum (fun k => match nth_error els k with
    | Some e => rsum (fun q => q_w Q q * rsum (fun i => rsum (fun j => local_coefficient (ss_p ss) (t_elements t) nd T v 0 k i * B (surf_point X e (q_xi Q q) 1) i j *
        local_coefficient (ss_p ss) (t_elements t) nd T w 0 k j) (ss_n2 ss)) (ss_n2 ss)) (q_size Q)
    | None => 0 end) (length els).
Proof.
  intros integrand ss X Q nd T v w B Hi Hw. rewrite (local_form _ _ _ _ _ _ _ _ _ _ _ mesh_numbered). destruct mesh_numbered as [L H]. match goal with |- rsum ?f ?n = _ => replace (rsum f n) with (rsum f (length els)) by (rewrite L; reflexivity) end.
  apply rsum_ext. intros k Hk. destruct (H k Hk) as [e [He Id]]. rewrite He. cbn [rsum Nat.mul]. rewrite !Rplus_0_l. cbn [Nat.add].
  rewrite rsum_swap.
  rewrite (rsum_ext _ (fun i => rsum (fun j => rsum (fun q => q_w Q q * (local_coefficient (ss_p ss) (t_elements t) nd T v 0 k i * B (surf_point X e (q_xi Q q) 1) i j *
     local_coefficient (ss_p ss) (t_elements t) nd T w 0 k j)) (q_size Q)) (ss_n2 ss))).
  - rewrite (rsum_ext _ (fun i => rsum (fun q => rsum (fun j => q_w Q q * (local_coefficient (ss_p ss) (t_elements t) nd T v 0 k i * B (surf_point X e (q_xi Q q) 1) i j *
     local_coefficient (ss_p ss) (t_elements t) nd T w 0 k j)) (ss_n2 ss)) (q_size Q))) by (intros; apply rsum_swap).
    rewrite rsum_swap. apply rsum_ext. intros q Hq. rewrite <- rsum_scal. apply rsum_ext. intros i Hi'. rewrite rsum_scal. reflexivity.
  - intros i Hi'. apply rsum_ext. intros j Hj. rewrite (element_matrix_value integrand ss X Q e i j (fun p => B p i j)) by (intros; apply Hi; assumption).
    rewrite <- rsum_scal, <- rsum_scal_r. apply rsum_ext. intros q Hq. rewrite Hw. ring.
Qed.
Theorem C62_mass : forall ss X Q nd T v w E E' vh wh, evaluator_of t X ss 1 nd T v E -> evaluator_of t X ss 1 nd T w E' ->
  (forall e p, In e els -> evaluate_scalar ss E e p = Some (vh e p)) -> (forall e p, In e els -> evaluate_scalar ss E' e p = Some (wh e p)) ->
  dotp nd v (times nd (local_operator identity_integrand ss X Q 1 (t_elements t) T els) w) =
  surface_sum els Q (fun e s => let p := surf_point X e s 1 in vh e p * wh e p * p_kappa p).
Proof.
  intros ss X Q nd T v w E E' vh wh HE HE' Hv Hw.
  rewrite (local_identity _ ss X Q nd T v w (fun p i j => p_kappa p * (tensor_bernstein (ss_p ss) i (p_s p) * tensor_bernstein (ss_p ss) j (p_s p)))).
  - unfold surface_sum. apply rsum_ext. intros k Hk. destruct (nth_error els k) as [e|] eqn:Ek; [|reflexivity].
    destruct mesh_numbered as [L H]. destruct (H k Hk) as [e' [He' Id]]. assert (e' = e) by congruence. subst e'. apply nth_error_In in Ek.
    change (Q2R (get_h e)) with (n_h e). rewrite <- rsum_scal. apply rsum_ext. intros q Hq. cbv zeta.
    specialize (Hv e (surf_point X e (q_xi Q q) 1) Ek). rewrite (C61_scalar X ss nd T v E e _ HE Ek) in Hv. injection Hv as Hv. rewrite <- Hv.
    specialize (Hw e (surf_point X e (q_xi Q q) 1) Ek). rewrite (C61_scalar X ss nd T w E' e _ HE' Ek) in Hw. injection Hw as Hw. rewrite <- Hw.
    change (p_s (surf_point X e (q_xi Q q) 1)) with (q_xi Q q). unfold discrete_value. rewrite Id. fold (ss_n2 ss). pose proof (n_h_pos e).
    set (K := p_kappa (surf_point X e (q_xi Q q) 1)).
    match goal with |- _ = ?h * ?h * (?w * (?a / ?h * (?b / ?h) * K)) => replace (h * h * (w * (a / h * (b / h) * K))) with (w * (K * (a * b))) by (field; lra) end.
    f_equal. rewrite <- rsum_scal_r, <- rsum_scal. apply rsum_ext. intros i Hi. rewrite <- !rsum_scal. apply rsum_ext. intros j Hj. ring.
  - intros p m i j Hi Hj. unfold identity_integrand. rewrite interaction_value by assumption. unfold shape, tensor_bernstein. ring.
  - reflexivity.
Qed.
Lemma vsum_dot : forall (f : nat -> vec3) (a : arr) n u, rsum (fun i => a i * vdot (f i) u) n =
  vdot (rsum (fun i => a i * vx (f i)) n, rsum (fun i => a i * vy (f i)) n, rsum (fun i => a i * vz (f i)) n) u.
Proof.
  intros. unfold vdot, vx, vy, vz. cbn [fst snd]. rewrite <- !rsum_scal_r, <- !rsum_plus. apply rsum_ext. intros. ring.
Qed.
(** the surface gradients of the two functions *)
Theorem C62_laplace_beltrami : forall ss X Q nd T v w E E' vh wh gv gw, evaluator_of t X ss 1 nd T v E -> evaluator_of t X ss 1 nd T w E' -> ss_M ss = M ->
  (forall e p, In e els -> evaluate_scalar ss E e p = Some (vh e p)) -> (forall e p, In e els -> evaluate_scalar ss E' e p = Some (wh e p)) ->
  (forall e s, In e els -> p_kappa (surf_point X e s 1) <> 0) ->
  (forall e s, In e els -> surface_gradient (n_h e) (fun s => vh e (surf_point X e s 1)) (surf_point X e s 1) (gv e s)) ->
  (forall e s, In e els -> surface_gradient (n_h e) (fun s => wh e (surf_point X e s 1)) (surf_point X e s 1) (gw e s)) ->
  dotp nd v (times nd (local_operator laplace_beltrami_integrand ss X Q 1 (t_elements t) T els) w) =
  surface_sum els Q (fun e s => vdot (gv e s) (gw e s) * p_kappa (surf_point X e s 1)).
Proof.
  intros ss X Q nd T v w E E' vh wh gv gw HE HE' HM Hv Hw Hk Gv Gw.
  rewrite (local_identity _ ss X Q nd T v w (fun p i j => p_kappa p / (ss_h ss * ss_h ss) * vdot (surface_curl ss p i) (surface_curl ss p j))).
  - unfold surface_sum. apply rsum_ext. intros k Hk'. destruct (nth_error els k) as [e|] eqn:Ek; [|reflexivity].
    destruct mesh_numbered as [L H]. destruct (H k Hk') as [e' [He' Id]]. assert (e' = e) by congruence. subst e'. apply nth_error_In in Ek.
    change (Q2R (get_h e)) with (n_h e). rewrite <- rsum_scal. apply rsum_ext. intros q Hq. cbv zeta. set (s := q_xi Q q). set (p := surf_point X e s 1).
    specialize (Gv e s Ek). specialize (Gw e s Ek). specialize (Hk e s Ek). fold p in Gv, Gw, Hk. pose proof (n_h_pos e) as Hh.
    assert (Eh : ss_h ss = n_h e) by (unfold n_h; rewrite width, (mesh_width e Ek); unfold ss_h; rewrite HM; reflexivity).
    set (CV := local_coefficient (ss_p ss) (t_elements t) nd T v 0 k). set (CW := local_coefficient (ss_p ss) (t_elements t) nd T w 0 k).
    assert (Gr : forall u E0 uh g, evaluator_of t X ss 1 nd T u E0 -> (forall e p, In e els -> evaluate_scalar ss E0 e p = Some (uh e p)) ->
      surface_gradient (n_h e) (fun s => uh e (surf_point X e s 1)) p g ->
      vdot g (p_dx p) = rsum (fun i => local_coefficient (ss_p ss) (t_elements t) nd T u 0 k i * basisDx ss s i) (ss_n2 ss) / n_h e / n_h e /\
      vdot g (p_dy p) = rsum (fun i => local_coefficient (ss_p ss) (t_elements t) nd T u 0 k i * basisDy ss s i) (ss_n2 ss) / n_h e / n_h e /\ vdot g (p_n p) = 0).
    { intros u E0 uh g H0 Hu [a [b [[Da Db] [Ga [Gb Gn]]]]].
      destruct (discrete_derivatives ss (t_elements t) nd T u 0 k (n_h e) s ltac:(lra)) as [Da' Db'].
      assert (Ev : forall z, uh e (surf_point X e z 1) = discrete_value (ss_p ss) (t_elements t) nd T u 0 k (n_h e) z).
      { intros z. specialize (Hu e (surf_point X e z 1) Ek). rewrite (C61_scalar X ss nd T u E0 e _ H0 Ek) in Hu. injection Hu as Hu. rewrite <- Hu, Id. reflexivity. }
      assert (Ext : forall f g x l, (forall z, f z = g z) -> derivable_pt_lim f x l -> derivable_pt_lim g x l).
      { intros f g0 x l Ex D eps He. destruct (D eps He) as [d Hd]. exists d. intros z Z1 Z2. rewrite <- !Ex. apply Hd; assumption. }
      split; [|split; [|exact Gn]].
      - rewrite Ga. eapply uniqueness_limite; [|exact Da']. eapply Ext; [|exact Da]. intros z. apply Ev.
      - rewrite Gb. eapply uniqueness_limite; [|exact Db']. eapply Ext; [|exact Db]. intros z. apply Ev. }
    destruct (Gr v E vh (gv e s) HE Hv Gv) as [VX [VY VN]]. destruct (Gr w E' wh (gw e s) HE' Hw Gw) as [WX [WY WN]]. clear Gr Gv Gw.
    fold CV in VX, VY. fold CW in WX, WY.
    match goal with |- _ = ?h * ?h * (?a * ?b) => replace (h * h * (a * b)) with (a * (h * h * b)) by ring end. f_equal.
    (* the curl of the combination *)
    assert (Cu : forall C : arr, (rsum (fun i => C i * vx (surface_curl ss p i)) (ss_n2 ss), rsum (fun i => C i * vy (surface_curl ss p i)) (ss_n2 ss), rsum (fun i => C i * vz (surface_curl ss p i)) (ss_n2 ss)) =
      vscal (1 / p_kappa p) (vadd (vscal (rsum (fun i => C i * basisDy ss s i) (ss_n2 ss)) (vscal (-1) (p_dx p))) (vscal (rsum (fun i => C i * basisDx ss s i) (ss_n2 ss)) (p_dy p)))).
    { intros C. unfold surface_curl, vscal, vadd, vx, vy, vz. cbn [fst snd]. change (p_s p) with s. rewrite <- !rsum_scal_r, <- !rsum_plus, <- !rsum_scal.
      f_equal; [f_equal|]; apply rsum_ext; intros; ring. }
    rewrite (rsum_ext _ (fun i => CV i * vdot (surface_curl ss p i) (vscal (p_kappa p / (ss_h ss * ss_h ss))
       (rsum (fun j => CW j * vx (surface_curl ss p j)) (ss_n2 ss), rsum (fun j => CW j * vy (surface_curl ss p j)) (ss_n2 ss), rsum (fun j => CW j * vz (surface_curl ss p j)) (ss_n2 ss))))).
    2:{ intros i Hi. unfold vdot at 2, vscal, vx, vy, vz. cbn [fst snd]. rewrite <- !rsum_scal, <- !rsum_plus, <- rsum_scal. apply rsum_ext. intros j Hj. unfold vdot, vx, vy, vz. ring. }
    rewrite vsum_dot, !Cu. rewrite Eh. clear Cu.
    set (ax := rsum (fun i => CV i * basisDx ss s i) (ss_n2 ss)) in *. set (ay := rsum (fun i => CV i * basisDy ss s i) (ss_n2 ss)) in *.
    set (bx := rsum (fun i => CW i * basisDx ss s i) (ss_n2 ss)) in *. set (by0 := rsum (fun i => CW i * basisDy ss s i) (ss_n2 ss)) in *.
    assert (Sx : ax = n_h e * n_h e * vdot (gv e s) (p_dx p)) by (rewrite VX; field; lra). assert (Sy : ay = n_h e * n_h e * vdot (gv e s) (p_dy p)) by (rewrite VY; field; lra).
    assert (Tx : bx = n_h e * n_h e * vdot (gw e s) (p_dx p)) by (rewrite WX; field; lra). assert (Ty : by0 = n_h e * n_h e * vdot (gw e s) (p_dy p)) by (rewrite WY; field; lra).
    rewrite Sx, Sy, Tx, Ty. clear - VN WN Hh Hk. set (h := n_h e) in *.
    assert (K2 : p_kappa p * p_kappa p = vdot (p_n p) (p_n p)) by (apply vnorm_sq).
    set (K := p_kappa p) in *. set (g := gv e s) in *. set (g' := gw e s) in *. clearbody g g' h K.
    assert (Id1 : vdot (vadd (vscal (vdot g (p_dy p)) (vscal (-1) (p_dx p))) (vscal (vdot g (p_dx p)) (p_dy p)))
                       (vadd (vscal (vdot g' (p_dy p)) (vscal (-1) (p_dx p))) (vscal (vdot g' (p_dx p)) (p_dy p))) =
                  vdot (p_n p) (p_n p) * vdot g g' - vdot g (p_n p) * vdot g' (p_n p))
      by (unfold p_n, vdot, vadd, vscal, vcross, vx, vy, vz; cbn [fst snd]; ring).
    rewrite VN, WN in Id1.
    match goal with |- ?l = _ => replace l with (h * h / K * vdot (vadd (vscal (vdot g (p_dy p)) (vscal (-1) (p_dx p))) (vscal (vdot g (p_dx p)) (p_dy p)))
                       (vadd (vscal (vdot g' (p_dy p)) (vscal (-1) (p_dx p))) (vscal (vdot g' (p_dx p)) (p_dy p)))) end.
    + rewrite Id1, <- K2. field. exact Hk.
    + unfold vdot, vadd, vscal, vx, vy, vz; cbn [fst snd]. field. repeat split; first [exact Hk|lra].
  - intros p m i j Hi Hj. unfold laplace_beltrami_integrand, addScaledSurfaceGradientInteraction. cbv zeta. rewrite curl_value by assumption. unfold Rdiv. ring.
  - reflexivity.
Qed.

(** every discrete function has a surface gradient where the tangents are independent *)
Theorem C62_gradient_exists : forall ss X nd T v E vh e s, evaluator_of t X ss 1 nd T v E ->
  (forall e p, In e els -> evaluate_scalar ss E e p = Some (vh e p)) -> In e els -> p_kappa (surf_point X e s 1) <> 0 ->
  exists g, surface_gradient (n_h e) (fun s => vh e (surf_point X e s 1)) (surf_point X e s 1) g.
Proof.
  intros ss X nd T v E vh e s HE Hv Ek Hk. set (p := surf_point X e s 1) in *. pose proof (n_h_pos e) as Hh.
  destruct (discrete_derivatives ss (t_elements t) nd T v 0 (n_id e) (n_h e) s ltac:(lra)) as [Da Db].
  assert (Ext : forall f g x l, (forall z, f z = g z) -> derivable_pt_lim f x l -> derivable_pt_lim g x l).
  { intros f g0 x l Ex D eps He. destruct (D eps He) as [d Hd]. exists d. intros z Z1 Z2. rewrite <- !Ex. apply Hd; assumption. }
  assert (Ev : forall z, discrete_value (ss_p ss) (t_elements t) nd T v 0 (n_id e) (n_h e) z = vh e (surf_point X e z 1)).
  { intros z. specialize (Hv e (surf_point X e z 1) Ek). rewrite (C61_scalar X ss nd T v E e _ HE Ek) in Hv. injection Hv as Hv. rewrite <- Hv. reflexivity. }
  match type of Da with derivable_pt_lim _ _ ?x => set (a := x) in * end. match type of Db with derivable_pt_lim _ _ ?x => set (b := x) in * end. clearbody a b.
  assert (K2 : p_kappa p * p_kappa p = vdot (p_n p) (p_n p)) by (apply vnorm_sq).
  assert (Kn : vdot (p_n p) (p_n p) <> 0) by (rewrite <- K2; intro Z; apply Rmult_integral in Z; tauto). clear K2 Hk.
  exists (vscal (1 / vdot (p_n p) (p_n p)) (vadd (vscal (a * vdot (p_dy p) (p_dy p) - b * vdot (p_dx p) (p_dy p)) (p_dx p)) (vscal (b * vdot (p_dx p) (p_dx p) - a * vdot (p_dx p) (p_dy p)) (p_dy p)))).
  exists a, b. split.
  - split; [eapply Ext; [|exact Da]|eapply Ext; [|exact Db]]; intros z; apply Ev.
  - clear - Kn. set (D := vdot (p_n p) (p_n p)) in *.
    assert (L : forall g d, vdot (vscal (1 / D) g) d = vdot g d / D) by (intros; unfold vdot, vscal, vx, vy, vz; cbn [fst snd]; field; exact Kn).
    rewrite !L. assert (E1 : forall z x, z = x * D -> z / D = x) by (intros z x ->; field; exact Kn).
    repeat split; apply E1; unfold D; unfold p_n, vdot, vadd, vscal, vcross, vx, vy, vz; cbn [fst snd]; ring.
Qed.
Lemma scalar_function : forall X ss nd T v, exists E vh, evaluator_of t X ss 1 nd T v E /\ (forall e p, In e els -> evaluate_scalar ss E e p = Some (vh e p)).
Proof.
  intros. destruct (C61_evaluator_exists X ss 1 nd T v) as [E HE]. exists E, (fun e p => discrete_value (ss_p ss) (t_elements t) nd T v 0 (n_id e) (n_h e) (p_s p)).
  split; [exact HE|]. intros. apply (C61_scalar X); assumption.
Qed.
(** symmetric, positive semidefinite *)
Theorem C62_mass_symmetric : forall ss X Q nd T v w,
  let A := local_operator identity_integrand ss X Q 1 (t_elements t) T els in
  dotp nd v (times nd A w) = dotp nd w (times nd A v).
Proof.
  intros ss X Q nd T v w A. destruct (scalar_function X ss nd T v) as [E [vh [HE Hv]]]. destruct (scalar_function X ss nd T w) as [E' [wh [HE' Hw]]].
  unfold A. rewrite (C62_mass ss X Q nd T v w E E' vh wh HE HE' Hv Hw), (C62_mass ss X Q nd T w v E' E wh vh HE' HE Hw Hv).
  unfold surface_sum. apply rsum_ext. intros k Hk. destruct (nth_error els k); [|reflexivity]. f_equal. apply rsum_ext. intros. cbv zeta. ring.
Qed.
Lemma surface_sum_nonneg : forall Q f, (forall q, (q < q_size Q)%nat -> 0 <= q_w Q q) -> (forall e s, In e els -> 0 <= f e s) -> 0 <= surface_sum els Q f.
Proof.
  intros Q f Hw Hf. unfold surface_sum. apply rsum_nonneg. intros k Hk. destruct (nth_error els k) as [e|] eqn:Ek; [|lra]. apply nth_error_In in Ek.
  apply Rmult_le_pos; [apply Rle_0_sqr|]. apply rsum_nonneg. intros q Hq. apply Rmult_le_pos; [apply Hw; exact Hq|apply Hf; exact Ek].
Qed.
Theorem C62_mass_positive : forall ss X Q nd T v, (forall q, (q < q_size Q)%nat -> 0 <= q_w Q q) ->
  0 <= dotp nd v (times nd (local_operator identity_integrand ss X Q 1 (t_elements t) T els) v).
Proof.
  intros ss X Q nd T v Hq. destruct (scalar_function X ss nd T v) as [E [vh [HE Hv]]].
  rewrite (C62_mass ss X Q nd T v v E E vh vh HE HE Hv Hv). apply surface_sum_nonneg; [exact Hq|]. intros e s I. cbv zeta.
  apply Rmult_le_pos; [apply Rle_0_sqr|apply sqrt_pos].
Qed.
Lemma gradients : forall X ss nd T v E vh, evaluator_of t X ss 1 nd T v E -> (forall e p, In e els -> evaluate_scalar ss E e p = Some (vh e p)) ->
  (forall e s, In e els -> p_kappa (surf_point X e s 1) <> 0) ->
  exists gv, forall e s, In e els -> surface_gradient (n_h e) (fun s => vh e (surf_point X e s 1)) (surf_point X e s 1) (gv e s).
Proof.
  intros X ss nd T v E vh HE Hv Hk.
  exists (fun e s => let p := surf_point X e s 1 in
    let a := rsum (fun i => local_coefficient (ss_p ss) (t_elements t) nd T v 0 (n_id e) i * basisDx ss s i) (ss_n2 ss) / n_h e / n_h e in
    let b := rsum (fun i => local_coefficient (ss_p ss) (t_elements t) nd T v 0 (n_id e) i * basisDy ss s i) (ss_n2 ss) / n_h e / n_h e in
    vscal (1 / vdot (p_n p) (p_n p)) (vadd (vscal (a * vdot (p_dy p) (p_dy p) - b * vdot (p_dx p) (p_dy p)) (p_dx p)) (vscal (b * vdot (p_dx p) (p_dx p) - a * vdot (p_dx p) (p_dy p)) (p_dy p)))).
  intros e s Ek. cbv zeta. set (p := surf_point X e s 1) in *. pose proof (n_h_pos e) as Hh. specialize (Hk e s Ek). fold p in Hk.
  destruct (discrete_derivatives ss (t_elements t) nd T v 0 (n_id e) (n_h e) s ltac:(lra)) as [Da Db].
  assert (Ext : forall f g x l, (forall z, f z = g z) -> derivable_pt_lim f x l -> derivable_pt_lim g x l).
  { intros f g0 x l Ex D eps He. destruct (D eps He) as [d Hd]. exists d. intros z Z1 Z2. rewrite <- !Ex. apply Hd; assumption. }
  assert (Ev : forall z, discrete_value (ss_p ss) (t_elements t) nd T v 0 (n_id e) (n_h e) z = vh e (surf_point X e z 1)).
  { intros z. specialize (Hv e (surf_point X e z 1) Ek). rewrite (C61_scalar X ss nd T v E e _ HE Ek) in Hv. injection Hv as Hv. rewrite <- Hv. reflexivity. }
  match type of Da with derivable_pt_lim _ _ ?x => set (a := x) in * end. match type of Db with derivable_pt_lim _ _ ?x => set (b := x) in * end. clearbody a b.
  assert (K2 : p_kappa p * p_kappa p = vdot (p_n p) (p_n p)) by (apply vnorm_sq).
  assert (Kn : vdot (p_n p) (p_n p) <> 0) by (rewrite <- K2; intro Z; apply Rmult_integral in Z; tauto). clear K2 Hk.
  exists a, b. split.
  - split; [eapply Ext; [|exact Da]|eapply Ext; [|exact Db]]; intros z; apply Ev.
  - clear - Kn. set (D := vdot (p_n p) (p_n p)) in *.
    assert (L : forall g d, vdot (vscal (1 / D) g) d = vdot g d / D) by (intros; unfold vdot, vscal, vx, vy, vz; cbn [fst snd]; field; exact Kn).
    rewrite !L. assert (E1 : forall z x, z = x * D -> z / D = x) by (intros z x ->; field; exact Kn).
    repeat split; apply E1; unfold D; unfold p_n, vdot, vadd, vscal, vcross, vx, vy, vz; cbn [fst snd]; ring.
Qed.
Theorem C62_beltrami_symmetric_positive : forall ss X Q nd T v w, ss_M ss = M -> (forall e s, In e els -> p_kappa (surf_point X e s 1) <> 0) ->
  let A := local_operator laplace_beltrami_integrand ss X Q 1 (t_elements t) T els in
  dotp nd v (times nd A w) = dotp nd w (times nd A v) /\
  ((forall q, (q < q_size Q)%nat -> 0 <= q_w Q q) -> 0 <= dotp nd v (times nd A v)).
Proof.
  intros ss X Q nd T v w HM Hk A. destruct (scalar_function X ss nd T v) as [E [vh [HE Hv]]]. destruct (scalar_function X ss nd T w) as [E' [wh [HE' Hw]]].
  destruct (gradients X ss nd T v E vh HE Hv Hk) as [gv Gv]. destruct (gradients X ss nd T w E' wh HE' Hw Hk) as [gw Gw]. unfold A. split.
  - rewrite (C62_laplace_beltrami ss X Q nd T v w E E' vh wh gv gw HE HE' HM Hv Hw Hk Gv Gw), (C62_laplace_beltrami ss X Q nd T w v E' E wh vh gw gv HE' HE HM Hw Hv Hk Gw Gv).
    unfold surface_sum. apply rsum_ext. intros k Hk'. destruct (nth_error els k); [|reflexivity]. f_equal. apply rsum_ext. intros. unfold vdot. ring.
  - intros Hq. rewrite (C62_laplace_beltrami ss X Q nd T v v E E vh vh gv gv HE HE HM Hv Hv Hk Gv Gv). apply surface_sum_nonneg; [exact Hq|]. intros e s I.
    apply Rmult_le_pos; [|apply sqrt_pos]. unfold vdot. repeat apply Rplus_le_le_0_compat; apply Rle_0_sqr.
Qed.
(** functions that are constant on every element are in the kernel of the Laplace-Beltrami operator *)
Theorem C62_beltrami_constants : forall ss X Q nd T v w E, ss_M ss = M -> (forall e s, In e els -> p_kappa (surf_point X e s 1) <> 0) ->
  evaluator_of t X ss 1 nd T v E -> (forall e, In e els -> exists a, forall p, evaluate_scalar ss E e p = Some a) ->
  dotp nd w (times nd (local_operator laplace_beltrami_integrand ss X Q 1 (t_elements t) T els) v) = 0.
Proof.
  intros ss X Q nd T v w E HM Hk HE Ha. destruct (scalar_function X ss nd T w) as [E' [wh [HE' Hw]]].
  set (vh := fun e p => match evaluate_scalar ss E e p with Some z => z | None => 0 end).
  assert (Hv : forall e p, In e els -> evaluate_scalar ss E e p = Some (vh e p)) by (intros e p I; unfold vh; destruct (Ha e I) as [a Ea]; rewrite Ea; reflexivity).
  destruct (gradients X ss nd T w E' wh HE' Hw Hk) as [gw Gw].
  rewrite (C62_laplace_beltrami ss X Q nd T w v E' E wh vh gw (fun _ _ => (0, 0, 0)) HE' HE HM Hw Hv Hk Gw).
  - unfold surface_sum. apply rsum_zero. intros k Hk'. destruct (nth_error els k); [|reflexivity]. rewrite rsum_zero; [ring|]. intros. unfold vdot, vx, vy, vz. cbn [fst snd]. ring.
  - intros e s I. exists 0, 0. unfold patch_derivatives.
    assert (C0 : forall a f, (forall z : R, f z = a) -> derivable_pt_lim f 0 0).
    { intros a f Hf eps He. exists (mkposreal 1 Rlt_0_1). intros z Z1 Z2. rewrite !Hf. replace ((a - a) / z - 0) with 0 by (unfold Rdiv; ring). rewrite Rabs_R0. exact He. }
    destruct (Ha e I) as [a Ea].
    split; [split; apply (C0 a); intros z; unfold vh; rewrite Ea; reflexivity|].
    unfold vdot, vx, vy, vz; cbn [fst snd]. repeat split; ring.
Qed.
End Mesh.

(** ** the hypotheses are met: the three squares of PropNearFar, refined once, functions that are bilinear on every element *)
Definition ss1 : sspace := mkSS 1 1 zero_arr zero_arr zero_arr zero_arr.
Example C62_example : exists t els E, uniform_mesh Nat.eqb strip 1 t els /\ length els = 12%nat /\
  evaluator_of t sheets ss1 1 48 (fun r c => if Nat.eqb r c then 1 else 0) (fun i => INR i) E /\
  (forall e s, In e els -> p_kappa (surf_point sheets e s 1) <> 0) /\ ss_M ss1 = 1%nat.
Proof.
  destruct assembly_example as [t [els [E [Me L]]]].
  assert (U : uniform_mesh Nat.eqb strip 1 t els) by (split; [discriminate|]; split; [exact (proj2 strip_ok)|]; split; assumption).
  destruct (C61_evaluator_exists Nat.eqb strip 1 t els U sheets ss1 1 48 (fun r c => if Nat.eqb r c then 1 else 0) (fun i => INR i)) as [Ev HE].
  exists t, els, Ev. split; [exact U|]. split; [exact L|]. split; [exact HE|]. split; [|reflexivity]. intros e s _. rewrite sheets_kappa. lra.
Qed.

(* BEGIN ASSUMPTIONS *)
Print Assumptions C61_evaluator_exists.
Print Assumptions C61_scalar.
Print Assumptions C61_vector.
Print Assumptions C61_divergence.
Print Assumptions C61_on_patch.
Print Assumptions C61_constant.
Print Assumptions C61_linear.
Print Assumptions C62_linear_form_defined.
Print Assumptions C62_dirichlet.
Print Assumptions C62_neumann.
Print Assumptions C62_tangential.
Print Assumptions C62_rotated_tangential.
Print Assumptions C62_mass.
Print Assumptions C62_laplace_beltrami.
Print Assumptions C62_gradient_exists.
Print Assumptions C62_mass_symmetric.
Print Assumptions C62_mass_positive.
Print Assumptions C62_beltrami_symmetric_positive.
Print Assumptions C62_beltrami_constants.
