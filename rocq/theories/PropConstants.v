(** C83: functions with equal coefficients. *)
From Coq Require Import Reals Lra Lia Arith Bool List ZArith QArith Qreals Permutation Relations.
From Verif Require Import RSum ModelBase ModelBernstein SpecBernstein ProofBernstein ModelTree SpecTree SpecMesh ModelGlue SpecGlue ModelDeBoor SpecDeBoor ProofDeBoor ProofDeBoorDer PropDeBoor ProofIndep ProofTopoInfo ProofGlueMat ProofGlueMesh PropTopo PropGlue
  SpecPatch ProofProjection SpecForms ModelBall ModelOperators SpecOperators ModelForms ProofForms PropTree PropAssembly PropForms ModelProj SpecProj ProofPiece ProofProj ProofProjMesh PropProj
  ProofOperators PropUtil ModelAnsatz SpecConform ProofConform ProofAnsatz SpecInterp ProofInterp PropConform PropComplete.
Import ListNotations.
Local Close Scope Q_scope.
Local Open Scope R_scope.

(** ** one element *)
(** a combination of tensor product Bernstein polynomials which is constant inside of the square has equal coefficients *)
Lemma tensor_constant : forall p (c : nat -> R) a,
  (forall s, 0 <= fst s < 1 -> 0 <= snd s < 1 -> rsum (fun i => c i * tensor_bernstein p i s) ((p + 1) * (p + 1)) = a) ->
  forall i, (i < (p + 1) * (p + 1))%nat -> c i = a.
Proof.
  intros p c a Hc i Hi. set (x := fun k : nat => INR k / INR (p + 2)). assert (Pp : 0 < INR (p + 2)) by (apply lt_0_INR; lia).
  assert (Dx : distinct (p + 1) x).
  { intros k l _ _ Ne Q. unfold x in Q. apply Rmult_eq_reg_r in Q; [apply INR_eq in Q; lia|apply Rinv_neq_0_compat; lra]. }
  assert (Ux : forall k, (k < p + 1)%nat -> 0 <= x k < 1).
  { intros k Hk. unfold x. split; [apply Rmult_le_pos; [apply pos_INR|left; apply Rinv_0_lt_compat; lra]|]. apply (Rmult_lt_reg_r (INR (p + 2))); [lra|]. unfold Rdiv. rewrite Rmult_assoc, Rinv_l by lra. rewrite Rmult_1_r, Rmult_1_l. apply lt_INR. lia. }
  assert (One : forall z, bernstein_form p (fun _ => a) z = a) by (intros z; unfold bernstein_form; rewrite rsum_scal, bern_sum; ring).
  assert (Row : forall iy z, (iy <= p)%nat -> 0 <= z < 1 -> bernstein_form p (fun ix => c (iy * (p + 1) + ix)%nat) z = a).
  { intros iy z Hy Hz. apply (bern_indep p (fun iy => bernstein_form p (fun ix => c (iy * (p + 1) + ix)%nat) z) (fun _ => a) x Dx); [|exact Hy].
    intros k Hk. rewrite One. rewrite <- (Hc (z, x k)); [|exact Hz|apply Ux; exact Hk]. rewrite rsum_flatten. unfold bernstein_form. apply rsum_ext. intros jy Hjy. rewrite <- rsum_scal_r. apply rsum_ext. intros jx Hjx.
    unfold tensor_bernstein. rewrite (Nat.add_comm (jy * _)), Nat.mod_add, Nat.div_add, Nat.mod_small, Nat.div_small by lia. cbn [Nat.add fst snd]. ring. }
  rewrite (Nat.div_mod i (p + 1)) by lia. assert (Q1 : (i / (p + 1) < p + 1)%nat) by (apply Nat.div_lt_upper_bound; lia). assert (Q2 : (i mod (p + 1) < p + 1)%nat) by (apply Nat.mod_upper_bound; lia).
  rewrite (Nat.mul_comm (p + 1)).
  apply (bern_indep p (fun ix => c (i / (p + 1) * (p + 1) + ix)%nat) (fun _ => a) x Dx); [|lia]. intros k Hk. rewrite One. apply Row; [lia|apply Ux; exact Hk].
Qed.
(** the splines with equal coefficients *)
Lemma spline_ones : forall p n rep off q a x y, (1 <= n)%nat -> (1 <= rep)%nat -> 0 <= x < 1 -> 0 <= y < 1 -> tensor_spline p p n rep off q (fun _ => a) x y = a.
Proof.
  intros p n rep off q a x y Hn Hr H1 H2. unfold tensor_spline.
  assert (U : forall z, 0 <= z < 1 -> rsum (fun d => uspline p n rep d z) (spline_dim p n rep) = 1).
  { intros z Hz. rewrite <- (closed_partition p n rep z Hn Hr ltac:(lra)). apply rsum_ext. intros d _. unfold closed_uspline. destruct Req_EM_T as [F|_]; [lra|reflexivity]. }
  transitivity (rsum (fun dy => a * uspline p n rep dy y) (spline_dim p n rep)); [|rewrite rsum_scal, (U y H2); ring]. apply rsum_ext. intros dy _.
  rewrite (rsum_ext _ (fun dx => a * uspline p n rep dy y * uspline p n rep dx x)) by (intros; ring). rewrite rsum_scal, (U x H1). ring.
Qed.

Section Mesh.
Context {Pt : Type} (close : Pt -> Pt -> bool) (corners : list (list Pt)) (M : nat) (t : tree) (els : list node).
Hypothesis Hm : uniform_mesh close corners M t els.
Variables (ws : list R) (junk : mat) (j1 j2 : arr) (solve : nat -> mat -> arr -> arr).
Hypothesis Hw : (20 <= length ws)%nat.
Hypothesis Hs : good_solve solve.
Notation verts := (fst (patch_vertices close [] corners)).
Hypothesis HM : mesh_ok verts.
Hypothesis HO : oriented verts.
Notation n := (2 ^ M)%nat.
Notation P := (length corners).

(** a space with scalar functions, continuous or not, of degree p *)
Definition scalar_space (p rep : nat) (S : ansatz) : Prop :=
  ((1 <= rep <= p)%nat /\ ansatz_continuous ws junk j1 j2 solve p M P rep t els = Some S) \/
  ((1 <= rep)%nat /\ ansatz_discontinuous ws junk j1 j2 solve p M P rep t els = Some S).

(** gluing does not change functions with equal coefficients *)
Lemma glue_ones : forall p rep S, (p <= 19)%nat -> scalar_space p rep S -> exists r A, (1 <= r)%nat /\ r = Nat.min rep (p + 1) /\ projector_discontinuous ws junk j1 j2 solve p M P rep els = Some A /\
  forall a c k h s, discrete_value p (P * 4 ^ M) (as_cols S) (as_T S) (fun _ => a) c k h s = discrete_value p (P * 4 ^ M) (sm_cols A) (sm_entry A) (fun _ => a) c k h s.
Proof.
  intros p rep S Hp [[Hr ES]|[Hr ES]].
  - exists rep. assert (Mn : rep = Nat.min rep (p + 1)) by lia.
    destruct (disc_run close corners M t els Hm ws junk j1 j2 solve Hw Hs p rep Hp ltac:(lia)) as [A [EA [ER [Ec _]]]]. rewrite <- Mn in Ec. exists A. split; [lia|]. split; [exact Mn|]. split; [exact EA|].
    destruct (over_mesh close corners M t els Hm) as [npts [HN HR]]. pose proof (verts_length close corners) as VL.
    destruct (C22_mesh verts npts t p rep M HM HO HN HR ltac:(lia)) as [edges [groups [stored [Ee [Iff [Eg H]]]]]].
    change (one_d_dim p rep M) with (spline_dim p n rep) in *. set (D := spline_dim p n rep) in *. rewrite VL in *. rewrite <- Ec in *.
    unfold ansatz_continuous in ES. rewrite cont_run in ES by lia. rewrite EA in ES. cbn [bind] in ES. rewrite Ee in ES. cbn [bind] in ES. apply bind_some in ES. destruct ES as [ids [Ei ES]]. apply bind_some in ES. destruct ES as [G [Ea ES]].
    assert (NG : no_gap groups).
    { unfold cont_identification in Ei. destruct (assert (1 <=? p)%nat); [|discriminate]. cbn [bind] in Ei. change (one_d_dim p rep M) with D in Ei. rewrite Eg in Ei. cbn [bind fst] in Ei.
      apply (proj2 (C23_cleanup groups) ids Ei). apply (assemble_nonempty _ _ _ Ea). }
    destruct (H NG) as [ids' [post [trips [Ei' [Same [Ea' [Gl One]]]]]]]. assert (ids' = ids) by congruence. subst ids'.
    destruct (product_value A G S ES) as [tr [EG [Er V]]]. assert (Ps : as_cols S = post) by congruence. assert (tr = trips) by congruence. subst tr.
    intros a c k h s. unfold discrete_value, local_coefficient. f_equal. apply rsum_ext. intros i _. f_equal. rewrite V. apply rsum_ext. intros j Hj. f_equal.
    destruct (has_row _ _ _ _ j Gl Hj) as [cj [vj Ij]]. rewrite Ps. rewrite (glued_value _ _ _ _ _ j cj vj Gl Ij). rewrite (One _ _ _ Ij). ring.
  - destruct (C64_discontinuous close corners M t els Hm ws junk j1 j2 solve Hw Hs HM p rep Hp Hr) as [S' [A [ES' [EA [_ [_ V]]]]]]. rewrite ES in ES'. injection ES' as <-.
    exists (Nat.min rep (p + 1)), A. split; [lia|]. split; [reflexivity|]. split; [exact EA|]. intros. apply V.
Qed.
Lemma elements_count : t_elements t = (P * 4 ^ M)%nat.
Proof. pose proof (mesh_numbered close corners M t els Hm) as Nb. destruct (mesh_grid close corners M t els Hm) as [_ [Le _]]. destruct Nb as [Ln _]. lia. Qed.
Lemma width : forall e, In e els -> n_h e = / 2 ^ M.
Proof.
  intros e I. destruct (mesh_cells close corners M t els Hm e I) as [[X [Y C]] _]. unfold n_h. destruct C as [_ [_ [_ [_ ->]]]]. rewrite pow2_INR. unfold Rdiv. ring.
Qed.
Lemma cell_unit : forall e s, In e els -> 0 <= fst s < 1 -> 0 <= snd s < 1 -> 0 <= Q2R (fst (n_llc e)) + Q2R (get_h e) * fst s < 1 /\ 0 <= Q2R (snd (n_llc e)) + Q2R (get_h e) * snd s < 1.
Proof.
  intros e s I H1 H2. destruct (mesh_cells close corners M t els Hm e I) as [[X [Y C]] _]. pose proof (cell_patch_point M e X Y s C) as Pp. pose proof (n_pos M) as Hn.
  pose proof (f_equal fst Pp) as Px. pose proof (f_equal snd Pp) as Py. cbn [fst snd] in Px, Py. unfold patch_point in Px, Py. cbn [fst snd] in Px, Py.
  destruct C as [CX [CY _]]. pose proof (at_el_01 1 n 1 ltac:(lia) Hn ltac:(lia) X (fst s) CX H1) as Ax. pose proof (at_el_01 1 n 1 ltac:(lia) Hn ltac:(lia) Y (snd s) CY H2) as Ay. unfold at_el in Ax, Ay.
  rewrite Px, Py. split; assumption.
Qed.

(** The function with all coefficients equal to a is the constant 2^M a: at every point of every element for degrees up to 4. *)
Theorem C83_constant : forall p rep S X ss a E e pt, (p <= 4)%nat -> scalar_space p rep S -> ss_p ss = p ->
  evaluator_of t X ss 1 (as_cols S) (as_T S) (fun _ => a) E -> In e els -> evaluate_scalar ss E e pt = Some (2 ^ M * a).
Proof.
  intros p rep S X ss a E e pt Hp ES Ep HE I. destruct (glue_ones p rep S ltac:(lia) ES) as [r [A [Hr [Er [EA V]]]]].
  pose proof (mesh_numbered close corners M t els Hm) as Nb. destruct (ProofForms.numbered_in _ _ e Nb I) as [_ Ek]. pose proof (n_h_pos e) as Ph. pose proof (n_pos M) as Hn.
  assert (P2 : 2 ^ M <> 0) by (apply pow_nonzero; lra).
  apply (C61_constant close corners M t els Hm X ss _ _ _ E e pt _ HE I). rewrite Ep, elements_count, (width e I). intros i Hi.
  transitivity a; [|field; exact P2]. apply (tensor_constant p (fun i => local_coefficient p (P * 4 ^ M) (as_cols S) (as_T S) (fun _ => a) 0 (n_id e) i) a); [|exact Hi]. intros s H1 H2.
  pose proof (V a 0%nat (n_id e) (n_h e) s) as Q. pose proof (C25_discontinuous_exact close corners M t els Hm ws junk j1 j2 solve Hw Hs p rep A (fun _ => a) _ e s Hp ltac:(lia) EA Ek H1 H2) as G.
  change (Q2R (get_h e)) with (n_h e) in G. rewrite <- Q in G. unfold discrete_value in G. destruct (cell_unit e s I H1 H2) as [U1 U2].
  change (Q2R (get_h e)) with (n_h e) in U1, U2. rewrite (spline_ones p n (Nat.min rep (p + 1)) 0 _ a _ _ Hn ltac:(lia) U1 U2) in G. etransitivity; [|exact G]. field. lra.
Qed.
(** for higher degrees up to the loss of small entries of the projector *)
Theorem C83_nearly_constant : forall p rep S X ss a E e pt, (p <= 19)%nat -> scalar_space p rep S -> ss_p ss = p ->
  evaluator_of t X ss 1 (as_cols S) (as_T S) (fun _ => a) E -> In e els -> 0 <= fst (p_s pt) < 1 -> 0 <= snd (p_s pt) < 1 ->
  exists v, evaluate_scalar ss E e pt = Some v /\ Rabs (v - 2 ^ M * a) <= 2 ^ M * Rabs a * INR ((p + 1) * (p + 1)) / 10000.
Proof.
  intros p rep S X ss a E e pt Hp ES Ep HE I H1 H2. destruct (glue_ones p rep S ltac:(lia) ES) as [r [A [Hr [Er [EA V]]]]].
  pose proof (mesh_numbered close corners M t els Hm) as Nb. destruct (ProofForms.numbered_in _ _ e Nb I) as [_ Ek]. pose proof (n_h_pos e) as Ph. pose proof (n_pos M) as Hn.
  assert (P2 : 0 < 2 ^ M) by (apply pow_lt; lra). eexists. split; [apply (C61_scalar close corners M t els Hm X ss _ _ _ E e pt HE I)|]. rewrite Ep, elements_count, V.
  destruct (mesh_cells close corners M t els Hm e I) as [[x [y C]] _]. destruct (cell_unit e (p_s pt) I H1 H2) as [U1 U2].
  pose proof (C25_discontinuous_error close corners M t els Hm ws junk j1 j2 solve Hw Hs p rep A (fun _ => a) _ e x y (p_s pt) Hp ltac:(lia) EA Ek C H1 H2) as G.
  rewrite (spline_ones p n (Nat.min rep (p + 1)) 0 _ a _ _ Hn ltac:(lia) U1 U2) in G. change (Q2R (get_h e)) with (n_h e) in G.
  replace (active_coefficients p p n (Nat.min rep (p + 1)) 0 (n_patch e) (fun _ => a) x y) with (INR ((p + 1) * (p + 1)) * Rabs a) in G.
  2:{ unfold active_coefficients. rewrite (rsum_ext _ (fun _ => INR (p + 1) * Rabs a)) by (intros; rewrite rsum_const; ring). rewrite rsum_const, mult_INR. ring. }
  set (v := discrete_value _ _ _ _ _ _ _ _ _) in *. rewrite (width e I) in G.
  replace (v - 2 ^ M * a) with (2 ^ M * (/ 2 ^ M * v - a)) by (field; lra). rewrite Rabs_mult, (Rabs_pos_eq (2 ^ M)) by lra.
  apply Rle_trans with (2 ^ M * (1 / 10000 * (INR ((p + 1) * (p + 1)) * Rabs a))); [apply Rmult_le_compat_l; [lra|exact G]|]. right. field.
Qed.

(** ** vectors and matrices *)
Lemma ones_evaluator : forall p rep S X ss a, (p <= 4)%nat -> scalar_space p rep S -> ss_p ss = p -> exists E, evaluator_of t X ss 1 (as_cols S) (as_T S) (fun _ => a) E /\ forall e pt, In e els -> evaluate_scalar ss E e pt = Some (2 ^ M * a).
Proof.
  intros p rep S X ss a Hp ES Ep. destruct (C61_evaluator_exists close corners M t els Hm X ss 1 (as_cols S) (as_T S) (fun _ => a)) as [E HE]. exists E. split; [exact HE|]. intros e pt I. apply (C83_constant p rep S X ss a E e pt Hp ES Ep HE I).
Qed.
Lemma unit_dot : forall nd i (v : arr), (i < nd)%nat -> dotp nd (fun j => if Nat.eqb j i then 1 else 0) v = v i.
Proof. intros nd i v Hi. unfold dotp. rewrite (rsum_single _ nd i Hi); [rewrite Nat.eqb_refl; ring|]. intros j _ Ne. apply Nat.eqb_neq in Ne. rewrite Ne. ring. Qed.
(** the sum of the entries of the load vector is 2^M times the integral of the given function, by quadrature *)
Theorem C83_load_sum : forall p rep S g ss X Q b, (p <= 4)%nat -> scalar_space p rep S -> ss_p ss = p ->
  linear_form (dirichlet_trace g) ss X Q 1 (t_elements t) (as_T S) els = Some b ->
  rsum b (as_cols S) = 2 ^ M * surface_sum els Q (fun e s => g (p_f (surf_point X e s 1)) * p_kappa (surf_point X e s 1)).
Proof.
  intros p rep S g ss X Q b Hp ES Ep Eb. destruct (ones_evaluator p rep S X ss 1 Hp ES Ep) as [E [HE Hv]].
  transitivity (dotp (as_cols S) (fun _ => 1) b); [unfold dotp; apply rsum_ext; intros; ring|].
  rewrite (C62_dirichlet close corners M t els Hm g ss X Q _ _ _ E (fun _ _ => 2 ^ M * 1) b HE Hv Eb). unfold surface_sum. rewrite <- rsum_scal. apply rsum_ext. intros k Hk. destruct (nth_error els k) as [e|]; [|ring].
  match goal with |- ?h * _ = ?m * (?h * ?r) => replace (m * (h * r)) with (h * (m * r)) by ring end. f_equal. rewrite <- rsum_scal. apply rsum_ext. intros. ring.
Qed.
(** the sum of all entries of the mass matrix is 4^M times the area, by quadrature *)
Theorem C83_mass_sum : forall p rep S ss X Q, (p <= 4)%nat -> scalar_space p rep S -> ss_p ss = p ->
  rsum (fun i => rsum (fun j => local_operator identity_integrand ss X Q 1 (t_elements t) (as_T S) els i j) (as_cols S)) (as_cols S)
  = 4 ^ M * surface_sum els Q (fun e s => p_kappa (surf_point X e s 1)).
Proof.
  intros p rep S ss X Q Hp ES Ep. destruct (ones_evaluator p rep S X ss 1 Hp ES Ep) as [E [HE Hv]].
  transitivity (dotp (as_cols S) (fun _ => 1) (times (as_cols S) (local_operator identity_integrand ss X Q 1 (t_elements t) (as_T S) els) (fun _ => 1))).
  { unfold dotp, times. apply rsum_ext. intros i _. rewrite Rmult_1_l. apply rsum_ext. intros j _. ring. }
  rewrite (C62_mass close corners M t els Hm ss X Q _ _ _ _ E E (fun _ _ => 2 ^ M * 1) (fun _ _ => 2 ^ M * 1) HE HE Hv Hv). unfold surface_sum. rewrite <- rsum_scal. apply rsum_ext. intros k Hk. destruct (nth_error els k) as [e|]; [|ring].
  replace (4 ^ M) with (2 ^ M * 2 ^ M) by (rewrite <- Rpow_mult_distr; f_equal; ring).
  match goal with |- ?h * _ = ?m * (?h * ?r) => replace (m * (h * r)) with (h * (m * r)) by ring end. f_equal. rewrite <- rsum_scal. apply rsum_ext. intros. ring.
Qed.
(** The L2 projection of a constant function is that function: the coefficients a / 2^M solve the system of the mass matrix and
    the load vector of the constant a. *)
Theorem C83_constant_is_solution : forall p rep S ss X Q a b i, (p <= 4)%nat -> scalar_space p rep S -> ss_p ss = p ->
  linear_form (dirichlet_trace (fun _ => a)) ss X Q 1 (t_elements t) (as_T S) els = Some b -> (i < as_cols S)%nat ->
  times (as_cols S) (local_operator identity_integrand ss X Q 1 (t_elements t) (as_T S) els) (fun _ => a / 2 ^ M) i = b i.
Proof.
  intros p rep S ss X Q a b i Hp ES Ep Eb Hi. assert (P2 : 2 ^ M <> 0) by (apply pow_nonzero; lra). destruct (ones_evaluator p rep S X ss (a / 2 ^ M) Hp ES Ep) as [E [HE Hv]].
  destruct (scalar_function close corners M t els Hm X ss (as_cols S) (as_T S) (fun j => if Nat.eqb j i then 1 else 0)) as [E' [wh [HE' Hwh]]].
  rewrite <- (unit_dot (as_cols S) i b Hi), <- (unit_dot (as_cols S) i (times _ _ _) Hi).
  rewrite (C62_mass close corners M t els Hm ss X Q _ _ _ _ E' E wh (fun _ _ => 2 ^ M * (a / 2 ^ M)) HE' HE Hwh Hv).
  rewrite (C62_dirichlet close corners M t els Hm (fun _ => a) ss X Q _ _ _ E' wh b HE' Hwh Eb). unfold surface_sum. apply rsum_ext. intros k Hk. destruct (nth_error els k) as [e|]; [|reflexivity]. f_equal. apply rsum_ext. intros. field. exact P2.
Qed.
(** the rows of the Laplace-Beltrami matrix sum to zero, and so do its columns *)
Theorem C83_beltrami_rows : forall p rep S ss X Q i, (p <= 4)%nat -> scalar_space p rep S -> ss_p ss = p -> ss_M ss = M -> (forall e s, In e els -> p_kappa (surf_point X e s 1) <> 0) -> (i < as_cols S)%nat ->
  rsum (fun j => local_operator laplace_beltrami_integrand ss X Q 1 (t_elements t) (as_T S) els i j) (as_cols S) = 0 /\
  rsum (fun j => local_operator laplace_beltrami_integrand ss X Q 1 (t_elements t) (as_T S) els j i) (as_cols S) = 0.
Proof.
  intros p rep S ss X Q i Hp ES Ep EM Hk Hi. destruct (ones_evaluator p rep S X ss 1 Hp ES Ep) as [E [HE Hv]].
  assert (Row : dotp (as_cols S) (fun j => if Nat.eqb j i then 1 else 0) (times (as_cols S) (local_operator laplace_beltrami_integrand ss X Q 1 (t_elements t) (as_T S) els) (fun _ => 1)) = 0).
  { apply (C62_beltrami_constants close corners M t els Hm ss X Q _ _ _ _ E EM Hk HE). intros e I. exists (2 ^ M * 1). intros pt. apply Hv. exact I. }
  split.
  - rewrite <- Row, unit_dot by exact Hi. unfold times. apply rsum_ext. intros; ring.
  - pose proof (C62_beltrami_symmetric_positive close corners M t els Hm ss X Q (as_cols S) (as_T S) (fun j => if Nat.eqb j i then 1 else 0) (fun _ => 1) EM Hk) as [Sy _].
    cbv zeta in Sy. rewrite Row in Sy. rewrite Sy. unfold dotp, times. apply rsum_ext. intros j Hj. rewrite Rmult_1_l. symmetry. rewrite (rsum_single _ _ i Hi); [rewrite Nat.eqb_refl; ring|]. intros l _ Ne. apply Nat.eqb_neq in Ne. rewrite Ne. ring.
Qed.
End Mesh.

(** ** the hypotheses are met: the continuous space of degree 2 on the cube of C64, refined once *)
Example C83_example : exists t els solve S, uniform_mesh Nat.eqb cube 1 t els /\ good_solve solve /\ mesh_ok (fst (patch_vertices Nat.eqb [] cube)) /\ oriented (fst (patch_vertices Nat.eqb [] cube)) /\
  scalar_space cube 1 t els (repeat 0 20) (fun _ _ => 0) (fun _ => 0) (fun _ => 0) solve 2 1 S /\ as_cols S = 56%nat.
Proof.
  destruct C64_example as [t [els [solve [S [U [Hs [HM [HO [ES [_ Ec]]]]]]]]]]. exists t, els, solve, S. repeat (split; [assumption|]). split; [|exact Ec]. left. split; [lia|exact ES].
Qed.

(* BEGIN ASSUMPTIONS *)
Print Assumptions C83_constant.
Print Assumptions C83_nearly_constant.
Print Assumptions C83_load_sum.
Print Assumptions C83_mass_sum.
Print Assumptions C83_constant_is_solution.
Print Assumptions C83_beltrami_rows.
