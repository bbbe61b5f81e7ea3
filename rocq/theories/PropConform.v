(** C64, C65: conforming ansatz spaces. *)
From Coq Require Import Reals Lra Lia Arith Bool List ZArith QArith Qreals Permutation Relations.
From Verif Require Import RSum ModelBase ModelBernstein SpecBernstein ModelTree SpecTree SpecMesh ModelGlue SpecGlue ProofTreeWF ProofTree ProofTreeHist ProofTopoInfo ProofGlueMat ProofGlueMesh PropTopo PropGlue
  SpecPatch ProofProjection SpecForms ModelBall ModelOperators ModelForms PropTree PropAssembly PropForms ModelProj SpecProj ProofPiece ProofProj ProofProjMesh PropProj
  ProofOperators PropUtil ModelAnsatz SpecConform ProofConform ProofAnsatz.
Import ListNotations.
Local Close Scope Q_scope.
Local Open Scope R_scope.

Lemma assemble_nonempty : forall D ids G, assemble_glue D ids = Some G -> forall g, In g ids -> fst g <> [].
Proof.
  intros D ids G H g Hg Ng. unfold assemble_glue in H. apply bind_some in H. destruct H as [m [Hm _]].
  revert Hm. generalize (repeat false D, repeat false D, 0%nat). induction ids as [|g' r IH]; intros m0 Hm; [destruct Hg|].
  cbn [fold_opt] in Hm. apply bind_some in Hm. destruct Hm as [m1 [H1 H2]]. destruct Hg as [->|Hg]; [|apply (IH Hg m1 H2)].
  unfold mark_group in H1. destruct m0 as [[sl ma] k]. rewrite Ng in H1. cbn in H1. discriminate.
Qed.
Lemma opposed_self : forall verts a i j, mesh_ok verts -> (a < length verts)%nat -> (i < 4)%nat -> (j < 4)%nat -> ~ opposed verts a i a j.
Proof.
  intros verts a i j HM Ha Hi Hj [H1 H2]. unfold pvert in H1, H2. set (vs := nth a verts []) in *. assert (I : In vs verts) by (apply nth_In; exact Ha).
  pose proof (mo_nodup verts HM vs I) as ND. pose proof (mo_len verts HM vs I) as L. rewrite NoDup_nth in ND. rewrite L in ND.
  assert (M1 : forall k, ((k + 1) mod 4 < 4)%nat) by (intros k; apply Nat.mod_upper_bound; lia).
  apply ND in H1; [|exact Hi|apply M1]. apply ND in H2; [|apply M1|exact Hj].
  destruct i as [|[|[|[|i]]]], j as [|[|[|[|j]]]]; try lia; cbn in H1, H2; lia.
Qed.
Lemma opposed_sym' : forall verts a i b j, opposed verts a i b j -> opposed verts b j a i.
Proof. intros verts a i b j [H1 H2]. split; congruence. Qed.

Section Mesh.
Context {Pt : Type} (close : Pt -> Pt -> bool) (corners : list (list Pt)) (M : nat) (t : tree) (els : list node).
Hypothesis Hm : uniform_mesh close corners M t els.
(** uninitialised memory, the work space of the spline evaluation and Eigen's solver *)
Variables (ws : list R) (junk : mat) (j1 j2 : arr) (solve : nat -> mat -> arr -> arr).
Hypothesis Hw : (20 <= length ws)%nat.
Hypothesis Hs : good_solve solve.
(** the corner indices of the patches: a proper mesh with consistently oriented patches *)
Notation verts := (fst (patch_vertices close [] corners)).
Hypothesis HM : mesh_ok verts.
Hypothesis HO : oriented verts.
Notation n := (2 ^ M)%nat.
Notation P := (length corners).

Lemma verts_length : length verts = P.
Proof. destruct (patch_vertices_length close corners []) as [L _]. exact L. Qed.
Lemma over_mesh : exists npts, SpecMesh.numbered verts npts /\ reachable_over verts npts t.
Proof.
  destruct Hm as [Hc [H4 [E _]]]. apply (C18_geometries Pt close corners verts t). exists M, [], t.
  split; [reflexivity|]. split; [exact H4|]. split; [exact E|]. split; [exact I|reflexivity].
Qed.
Lemma cell_element : forall q X Y, (q < P)%nat -> (X < n)%nat -> (Y < n)%nat -> exists k e, nth_error els k = Some e /\ at_cell n e X Y /\ n_patch e = q.
Proof.
  intros q X Y Hq HX HY. destruct (mesh_grid close corners M t els Hm) as [pos [Le [Pm Hc]]]. pose proof (n_pos M) as Hn.
  assert (P4 : (4 ^ M = n * n)%nat) by (rewrite <- Nat.pow_mul_l; reflexivity).
  assert (I : In ((q * n + Y) * n + X)%nat (seq 0 (P * 4 ^ M))).
  { apply in_seq. rewrite P4. split; [lia|]. cbn [Nat.add]. rewrite Nat.mul_assoc. apply pair_lt; [apply pair_lt; assumption|assumption]. }
  apply (Permutation_in _ (Permutation_sym Pm)) in I. apply in_map_iff in I. destruct I as [k [Ek Hk]]. apply in_seq in Hk.
  destruct (nth_error els k) as [e|] eqn:E; [|apply nth_error_None in E; lia]. exists k, e. split; [exact E|]. destruct (Hc k e E) as [C Pe]. rewrite Ek in C, Pe.
  destruct (divmod_pair (q * n + Y) X n HX) as [D1 D2]. rewrite D1, D2 in *. destruct (divmod_pair q Y n HY) as [D3 D4]. rewrite D3 in Pe. rewrite D4 in C. split; assumption.
Qed.
Lemma cell_patch_point : forall e X Y s, at_cell n e X Y -> patch_point e s = ((INR X + fst s) / INR n, (INR Y + snd s) / INR n).
Proof. clear. intros e X Y s [_ [_ [E1 [E2 E3]]]]. unfold patch_point. rewrite E1, E2, E3. assert (0 < INR n) by (apply lt_0_INR; pose proof (n_pos M); lia). f_equal; field; lra. Qed.
Lemma same_patch_point : forall e e' X Y X' Y' s s', at_cell n e X Y -> at_cell n e' X' Y' -> patch_point e s = patch_point e' s' ->
  INR X + fst s = INR X' + fst s' /\ INR Y + snd s = INR Y' + snd s'.
Proof.
  intros e e' X Y X' Y' s s' C C' E. rewrite (cell_patch_point e X Y s C), (cell_patch_point e' X' Y' s' C') in E.
  pose proof (f_equal fst E) as E1. pose proof (f_equal snd E) as E2. cbn [fst snd] in E1, E2. assert (0 < INR n) by (apply lt_0_INR; pose proof (n_pos M); lia).
  split; (eapply Rmult_eq_reg_r; [eassumption|apply Rinv_neq_0_compat; lra]).
Qed.
Lemma value_local : forall A G S w p c k h s, product A G = Some S -> exists trips, G = (sm_cols A, as_cols S, trips) /\
  discrete_value p (P * 4 ^ M) (as_cols S) (as_T S) w c k h s
  = local_value p (sm_entry A) (sm_cols A) ((c * (P * 4 ^ M) + k) * ((p + 1) * (p + 1))) (glued_vector trips (as_cols S) w) s / h.
Proof.
  intros A G S w p c k h s H. destruct (product_value A G S H) as [trips [EG [_ V]]]. exists trips. split; [exact EG|].
  unfold discrete_value, local_value, local_coefficient, tensor_bernstein. f_equal. apply rsum_ext. intros i _. rewrite V. reflexivity.
Qed.

(** ** continuous spaces *)
(** what the identification gives for the coefficients on two sides of an interface *)
Lemma cont_coefficients : forall p rep A edges ids rows post trips w, (1 <= p)%nat -> sm_cols A = (P * (spline_dim p n rep * spline_dim p n rep))%nat ->
  patch_topology_info t = Some edges -> cont_identification p rep M (sm_cols A) edges = Some ids -> assemble_glue (sm_cols A) ids = Some (rows, post, trips) ->
  forall a b i j d d', (a < P)%nat -> (b < P)%nat -> (i < 4)%nat -> (j < 4)%nat -> opposed verts a i b j -> (d + d' + 1 = spline_dim p n rep)%nat ->
  glued_vector trips post w (edge_coef p p n rep 0 b j d') = glued_vector trips post w (edge_coef p p n rep 0 a i d).
Proof.
  intros p rep A edges ids rows post trips w Hp Ec Ee Ei Ea.
  destruct over_mesh as [npts [HN HR]]. pose proof verts_length as VL.
  destruct (C22_mesh verts npts t p rep M HM HO HN HR Hp) as [edges' [groups [stored [Ee' [Iff [Eg H]]]]]]. rewrite Ee in Ee'. injection Ee' as <-.
  change (one_d_dim p rep M) with (spline_dim p n rep) in *. set (D := spline_dim p n rep) in *. rewrite VL in *.
  rewrite <- Ec in *.
  assert (NG : no_gap groups).
  { unfold cont_identification in Ei. destruct (assert (1 <=? p)%nat); [|discriminate]. cbn [bind] in Ei. change (one_d_dim p rep M) with D in Ei. rewrite Eg in Ei. cbn [bind fst] in Ei.
    apply (proj2 (C23_cleanup groups) ids Ei). apply (assemble_nonempty _ _ _ Ea). }
  destruct (H NG) as [ids' [post' [trips' [Ei' [Same [Ea' [G One]]]]]]]. rewrite Ei in Ei'. injection Ei' as <-.
  assert (Q : (rows, post, trips) = (sm_cols A, post', trips')) by congruence. injection Q as -> -> ->. clear Ea Ea' H.
  assert (Dp : (2 <= D)%nat) by (unfold D, spline_dim; clear -Hp; generalize (rep * (n - 1))%nat; lia).
  assert (Main : forall a b i j d d', (a < b)%nat -> (b < P)%nat -> (i < 4)%nat -> (j < 4)%nat -> opposed verts a i b j -> (d + d' + 1 = D)%nat ->
     glued_vector trips' post' w (edge_coef p p n rep 0 b j d') = glued_vector trips' post' w (edge_coef p p n rep 0 a i d)).
  { intros a b i j d d' Hab Hb Hi Hj Op Hd. symmetry.
    assert (Rg : forall q k m, (q < P)%nat -> (m < D)%nat -> (q * (D * D) <= edge_coef p p n rep 0 q k m < (q + 1) * (D * D))%nat).
    { intros q k m Hq Hmm. assert (U : forall X Y, (X < D)%nat -> (Y < D)%nat -> (q * (D * D) <= 0 + q * (D * D) + D * Y + X < (q + 1) * (D * D))%nat).
      { intros X Y HX HY. pose proof (pair_lt Y X D D HY HX) as Q. clear -Q. lia. }
      unfold edge_coef, spline_dof. fold D. destruct k as [|[|[|k]]]; apply U; lia. }
    pose proof (Rg a i d ltac:(lia) ltac:(lia)) as Ra. pose proof (Rg b j d' Hb ltac:(lia)) as Rb.
    assert (Lb : ((b + 1) * (D * D) <= P * (D * D))%nat) by (apply Nat.mul_le_mono_r; lia).
    assert (La : ((a + 1) * (D * D) <= b * (D * D))%nat) by (apply Nat.mul_le_mono_r; lia).
    apply (glued_same (sm_cols A) post' ids trips'); [exact G|exact One|lia|lia|]. apply Same; [lia|]. apply rst_step.
    exists a, b, i, j, d, d'.
    assert (OE : forall q k m, (k < 4)%nat -> (m < D)%nat -> exists X Y, on_edge (D - 1) k m X Y /\ edge_coef p p n rep 0 q k m = grid_dof D (q * (D * D)) X Y).
    { intros q k m Hk' Hm'. unfold edge_coef, spline_dof, on_edge, grid_dof. fold D. destruct k as [|[|[|[|k]]]]; [exists m, 0%nat|exists (D - 1)%nat, m|exists (D - 1 - m)%nat, (D - 1)%nat|exists 0%nat, (D - 1 - m)%nat|lia]; split; lia. }
    destruct (OE a i d Hi ltac:(lia)) as [X [Y [O1 E1]]]. destruct (OE b j d' Hj ltac:(lia)) as [X' [Y' [O2 E2]]]. exists X, Y, X', Y'.
    split; [apply Iff; repeat (split; [lia|]); exact Op|]. split; [exact O1|]. split; [exact O2|]. split; [lia|]. split; assumption. }
  intros a b i j d d' Ha Hb Hi Hj Op Hd. destruct (lt_eq_lt_dec a b) as [[L|L]|L].
  - apply Main; assumption.
  - exfalso. subst b. apply (opposed_self verts a i j HM ltac:(lia) Hi Hj Op).
  - symmetry. apply Main; try assumption; [apply opposed_sym'; exact Op|lia].
Qed.

(** A discrete function of the continuous space has one value at every point of the surface: the values of two elements agree at
    common points of their boundaries, inside of a patch and across the interfaces of the patches. *)
Theorem C64_continuous : forall p rep S w k k' e e' s s', (1 <= rep <= p)%nat -> (p <= 19)%nat ->
  ansatz_continuous ws junk j1 j2 solve p M P rep t els = Some S ->
  nth_error els k = Some e -> nth_error els k' = Some e' -> unit_square s -> unit_square s' ->
  same_surface_point verts (n_patch e) (patch_point e s) (n_patch e') (patch_point e' s') ->
  discrete_value p (P * 4 ^ M) (as_cols S) (as_T S) w 0 k (Q2R (get_h e)) s = discrete_value p (P * 4 ^ M) (as_cols S) (as_T S) w 0 k' (Q2R (get_h e')) s'.
Proof.
  intros p rep S w k k' e e' s s' Hr Hp ES Ek Ek' U U' SP. unfold ansatz_continuous in ES.
  apply bind_some in ES. destruct ES as [A [EA ES]]. apply bind_some in ES. destruct ES as [edges [Ee ES]]. apply bind_some in ES. destruct ES as [ids [Ei ES]]. apply bind_some in ES. destruct ES as [G [Eg ES]].
  rewrite cont_run in EA by lia. destruct (disc_run close corners M t els Hm ws junk j1 j2 solve Hw Hs p rep Hp ltac:(lia)) as [A' [EA' [_ [Ec [_ V]]]]]. rewrite EA in EA'. injection EA' as <-.
  rewrite Nat.min_l in Ec, V by lia. pose proof (n_pos M) as Hn. assert (Kk : (Nat.max p p = p /\ p <= p + 1 /\ p <= p + 1)%nat) by lia.
  destruct (mesh_cells close corners M t els Hm e (nth_error_In _ _ Ek)) as [[X [Y C]] Pe]. destruct (mesh_cells close corners M t els Hm e' (nth_error_In _ _ Ek')) as [[X' [Y' C']] Pe'].
  assert (Hh : Q2R (get_h e) = Q2R (get_h e')) by (destruct C as [_ [_ [_ [_ ->]]]]; destruct C' as [_ [_ [_ [_ ->]]]]; reflexivity). rewrite Hh.
  destruct (value_local A G S w p 0 k (Q2R (get_h e')) s ES) as [trips [EG ->]]. destruct (value_local A G S w p 0 k' (Q2R (get_h e')) s' ES) as [trips' [EG' ->]].
  assert (trips' = trips) by congruence. subst trips'. f_equal. cbn [Nat.mul Nat.add]. rewrite EG in Eg. clear EG EG'.
  pose proof (V k e X Y Ek C) as H. pose proof (V k' e' X' Y' Ek' C') as H'. set (v := glued_vector trips (as_cols S) w).
  destruct s as [x y], s' as [x' y']. destruct U as [U1 U2], U' as [U1' U2']. cbn [fst snd] in *.
  destruct SP as [[Eq EP]|[i [j [Hi [Hj [Op [u [Hu [E1 E2]]]]]]]]].
  - destruct (same_patch_point e e' X Y X' Y' (x, y) (x', y') C C' EP) as [Qx Qy]. cbn [fst snd] in Qx, Qy. rewrite <- Eq in H'.
    assert (CX' : (X' < n)%nat) by apply C'. assert (CY : (Y < n)%nat) by apply C.
    destruct (cell_element (n_patch e) X' Y Pe CX' CY) as [k2 [e2 [Ek2 [C2 P2]]]]. pose proof (V k2 e2 X' Y Ek2 C2) as H2. rewrite P2 in H2.
    rewrite (move_x p p p n rep P Kk Hp Hn ltac:(lia) _ _ _ _ 0 (n_patch e) X X' Y v x x' y ltac:(lia) H H2 U1 U1' Qx).
    apply (move_y p p p n rep P Kk Hp Hn ltac:(lia) _ _ _ _ 0 (n_patch e) X' Y Y' v x' y y' ltac:(lia) H2 H' U2 U2' Qy).
  - rewrite (cell_patch_point e X Y (x, y) C) in E1. rewrite (cell_patch_point e' X' Y' (x', y') C') in E2.
    destruct (edge_trace p p p n rep P Kk Hp Hn ltac:(lia) _ _ _ 0 (n_patch e) X Y v (x, y) i u Hi H (conj U1 U2) E1) as [c [z [Hc [Hz [Q [_ ->]]]]]].
    destruct (edge_trace p p p n rep P Kk Hp Hn ltac:(lia) _ _ _ 0 (n_patch e') X' Y' v (x', y') j (1 - u) Hj H' (conj U1' U2') E2) as [c' [z' [Hc' [Hz' [Q' [_ ->]]]]]].
    assert (Dg : forall m, edge_deg p p m = p) by (intros [|[|[|m]]]; reflexivity). rewrite !Dg.
    rewrite (trace1_opposite p p n rep ltac:(lia) Hn ltac:(lia) (fun d => v (edge_coef p p n rep 0 (n_patch e) i d)) (fun d => v (edge_coef p p n rep 0 (n_patch e') j d)) 1 c z c' z' Hc Hc' Hz Hz'); [ring|rewrite Q, Q'; ring|lia|].
    intros d d' Hd. rewrite Rmult_1_l. apply (cont_coefficients p rep A edges ids (sm_cols A) (as_cols S) trips w ltac:(lia) Ec Ee Ei Eg (n_patch e) (n_patch e') i j d d'); assumption.
Qed.

(** the same with the FunctionEvaluator *)
Theorem C64_evaluator : forall p rep S w X ss E e e' s s' w0 w0', (1 <= rep <= p)%nat -> (p <= 19)%nat ->
  ansatz_continuous ws junk j1 j2 solve p M P rep t els = Some S ->
  ss_p ss = p -> evaluator_of t X ss 1 (as_cols S) (as_T S) w E ->
  In e els -> In e' els -> unit_square s -> unit_square s' ->
  same_surface_point verts (n_patch e) (patch_point e s) (n_patch e') (patch_point e' s') ->
  evaluate_scalar ss E e (surf_point X e s w0) = evaluate_scalar ss E e' (surf_point X e' s' w0').
Proof.
  intros p rep S w X ss E e e' s s' w0 w0' Hr Hp ES Ep HE I I' U U' SP.
  pose proof (mesh_numbered close corners M t els Hm) as Nb. destruct (ProofForms.numbered_in _ _ e Nb I) as [_ Ek]. destruct (ProofForms.numbered_in _ _ e' Nb I') as [_ Ek'].
  rewrite (C61_scalar close corners M t els Hm X ss _ _ w E e _ HE I), (C61_scalar close corners M t els Hm X ss _ _ w E e' _ HE I').
  assert (Nt : t_elements t = (P * 4 ^ M)%nat) by (destruct (mesh_grid close corners M t els Hm) as [_ [Le _]]; destruct Nb as [Ln _]; lia).
  f_equal. rewrite Nt, Ep. cbn [surf_point p_s]. unfold n_h. exact (C64_continuous p rep S w _ _ e e' s s' Hr Hp ES Ek Ek' U U' SP).
Qed.

(** The space is defined exactly when the clean-up of the identifications finds no gap (C23); then it has one function for every
    class of identified splines. *)
Theorem C64_defined : forall p rep, (1 <= rep <= p)%nat -> (p <= 19)%nat ->
  exists edges groups stored, patch_topology_info t = Some edges /\ cont_groups (spline_dim p n rep) (P * (spline_dim p n rep * spline_dim p n rep)) edges = Some (groups, stored) /\
  (no_gap groups <-> exists S, ansatz_continuous ws junk j1 j2 solve p M P rep t els = Some S) /\
  forall S, ansatz_continuous ws junk j1 j2 solve p M P rep t els = Some S -> as_rows S = ((p + 1) * (p + 1) * (P * 4 ^ M))%nat /\
    (as_cols S + n_slaves (filter nonempty groups) = P * (spline_dim p n rep * spline_dim p n rep))%nat.
Proof.
  intros p rep Hr Hp. destruct over_mesh as [npts [HN HR]]. pose proof verts_length as VL.
  destruct (C22_mesh verts npts t p rep M HM HO HN HR ltac:(lia)) as [edges [groups [stored [Ee [Iff [Eg H]]]]]].
  change (one_d_dim p rep M) with (spline_dim p n rep) in *. set (D := spline_dim p n rep) in *. rewrite VL in *.
  destruct (disc_run close corners M t els Hm ws junk j1 j2 solve Hw Hs p rep Hp ltac:(lia)) as [A [EA [ER [Ec _]]]]. rewrite Nat.min_l in Ec by lia. fold D in Ec.
  exists edges, groups, stored. split; [exact Ee|]. split; [exact Eg|].
  assert (Run : forall S, ansatz_continuous ws junk j1 j2 solve p M P rep t els = Some S <->
      exists ids G, cont_identification p rep M (P * (D * D)) edges = Some ids /\ assemble_glue (P * (D * D)) ids = Some G /\ product A G = Some S).
  { intros S. unfold ansatz_continuous. rewrite cont_run by lia. rewrite EA. cbn [bind]. rewrite Ee. cbn [bind]. rewrite Ec. split.
    - intros Q. apply bind_some in Q. destruct Q as [ids [Q1 Q]]. apply bind_some in Q. destruct Q as [G [Q2 Q3]]. eauto.
    - intros [ids [G [Q1 [Q2 Q3]]]]. rewrite Q1. cbn [bind]. rewrite Q2. cbn [bind]. exact Q3. }
  assert (Gap : forall ids G, cont_identification p rep M (P * (D * D)) edges = Some ids -> assemble_glue (P * (D * D)) ids = Some G -> no_gap groups /\ ids = filter nonempty groups).
  { intros ids G Ei Ea. unfold cont_identification in Ei. destruct (assert (1 <=? p)%nat); [|discriminate]. cbn [bind] in Ei. change (one_d_dim p rep M) with D in Ei. rewrite Eg in Ei. cbn [bind fst] in Ei.
    assert (NG : no_gap groups) by (apply (proj2 (C23_cleanup groups) ids Ei); apply (assemble_nonempty _ _ _ Ea)). split; [exact NG|]. rewrite (proj1 (C23_cleanup groups) NG) in Ei. congruence. }
  split; [split|].
  - intros NG. destruct (H NG) as [ids [post [trips [Ei [_ [Ea _]]]]]]. exists (mkAS (sm_rows A) post (fun r c => rsum (fun j => sm_entry A r j * glue_entry trips j c) (sm_cols A))).
    apply Run. exists ids, (P * (D * D), post, trips)%nat. split; [exact Ei|]. split; [exact Ea|]. unfold product. rewrite Ec, Nat.eqb_refl. reflexivity.
  - intros [S ES]. apply Run in ES. destruct ES as [ids [G [Ei [Ea _]]]]. apply (Gap ids G Ei Ea).
  - intros S ES. apply Run in ES. destruct ES as [ids [G [Ei [Ea EP]]]]. destruct (Gap ids G Ei Ea) as [NG Ef]. destruct (H NG) as [ids' [post [trips [Ei' [_ [Ea' [Gl _]]]]]]].
    assert (ids' = ids) by congruence. subst ids'. destruct (product_value A G S EP) as [tr [EG [Er _]]]. split; [congruence|].
    rewrite <- Ef. replace (as_cols S) with post by congruence. apply (gl_dim _ _ _ _ Gl).
Qed.
(** Every spline whose coefficients agree at identified positions belongs to the space. *)
Theorem C64_complete : forall p rep S A edges u, (1 <= rep <= p)%nat -> (p <= 19)%nat ->
  ansatz_continuous ws junk j1 j2 solve p M P rep t els = Some S -> projector_continuous ws junk j1 j2 solve p M P rep els = Some A -> patch_topology_info t = Some edges ->
  (forall x y, identified (spline_dim p n rep) edges x y -> u x = u y) ->
  exists w, (forall c k h s, discrete_value p (P * 4 ^ M) (as_cols S) (as_T S) w c k h s = discrete_value p (P * 4 ^ M) (sm_cols A) (sm_entry A) u c k h s).
Proof.
  intros p rep S A edges u Hr Hp ES EA Ee Hu. pose proof EA as EA0. rewrite cont_run in EA0 by lia.
  destruct (disc_run close corners M t els Hm ws junk j1 j2 solve Hw Hs p rep Hp ltac:(lia)) as [A' [EA' [ER [Ec _]]]]. assert (A' = A) by congruence. subst A'. rewrite Nat.min_l in Ec by lia.
  destruct over_mesh as [npts [HN HR]]. pose proof verts_length as VL.
  destruct (C22_mesh verts npts t p rep M HM HO HN HR ltac:(lia)) as [edges' [groups [stored [Ee' [Iff [Eg H]]]]]]. assert (edges' = edges) by congruence. subst edges'.
  change (one_d_dim p rep M) with (spline_dim p n rep) in *. set (D := spline_dim p n rep) in *. rewrite VL in *. rewrite <- Ec in *.
  unfold ansatz_continuous in ES. rewrite EA in ES. cbn [bind] in ES. rewrite Ee in ES. cbn [bind] in ES. apply bind_some in ES. destruct ES as [ids [Ei ES]]. apply bind_some in ES. destruct ES as [G [Ea ES]].
  assert (NG : no_gap groups).
  { unfold cont_identification in Ei. destruct (assert (1 <=? p)%nat); [|discriminate]. cbn [bind] in Ei. change (one_d_dim p rep M) with D in Ei. rewrite Eg in Ei. cbn [bind fst] in Ei.
    apply (proj2 (C23_cleanup groups) ids Ei). apply (assemble_nonempty _ _ _ Ea). }
  destruct (H NG) as [ids' [post [trips [Ei' [Same [Ea' [Gl One]]]]]]]. assert (ids' = ids) by congruence. subst ids'.
  destruct (product_value A G S ES) as [tr [EG [Er V]]]. assert (as_cols S = post) by congruence. assert (tr = trips) by congruence. subst tr.
  exists (fun c => match find (fun tr => snd (fst tr) =? c)%nat trips with Some tr => u (fst (fst tr)) | None => 0 end).
  intros c k h s. unfold discrete_value, local_coefficient. f_equal. apply rsum_ext. intros i _. f_equal. rewrite V. apply rsum_ext. intros j Hj. f_equal.
  destruct (has_row _ _ _ _ j Gl Hj) as [cj [vj Ij]]. rewrite H0. rewrite (glued_value _ _ _ _ _ j cj vj Gl Ij). rewrite (One _ _ _ Ij).
  destruct (find (fun tr => snd (fst tr) =? cj)%nat trips) as [[[r c'] v']|] eqn:F.
  - apply find_some in F. destruct F as [Ir Q]. cbn [fst snd] in *. apply Nat.eqb_eq in Q. subst c'. rewrite Rmult_1_l.
    destruct (proj1 (gl_same _ _ _ _ Gl _ _ _ _ _ _ Ir Ij) eq_refl) as [->|Q]; [reflexivity|]. destruct (Nat.eq_dec r j) as [->|Ne]; [reflexivity|]. apply Hu. apply Same; assumption.
  - pose proof (find_none _ _ F _ Ij) as Q. cbn [fst snd] in Q. rewrite Nat.eqb_refl in Q. discriminate.
Qed.

(** ** discontinuous spaces: nothing is glued *)
Theorem C64_discontinuous : forall p rep, (p <= 19)%nat -> (1 <= rep)%nat -> exists S A, ansatz_discontinuous ws junk j1 j2 solve p M P rep t els = Some S
  /\ projector_discontinuous ws junk j1 j2 solve p M P rep els = Some A /\ as_rows S = sm_rows A /\ as_cols S = sm_cols A
  /\ forall w c k h s, discrete_value p (P * 4 ^ M) (as_cols S) (as_T S) w c k h s = discrete_value p (P * 4 ^ M) (sm_cols A) (sm_entry A) w c k h s.
Proof.
  intros p rep Hp Hr. destruct (disc_run close corners M t els Hm ws junk j1 j2 solve Hw Hs p rep Hp Hr) as [A [EA _]].
  destruct over_mesh as [npts [HN HR]]. destruct (C17_interfaces verts npts t HM HN HR) as [edges [Ee _]].
  assert (K : groups_ok (sm_cols A) []) by (split; [intros g []|intros g d []|constructor|intros g d []]).
  destruct (C21_glue_matrix (sm_cols A) [] K) as [post [trips [Ea Gl]]].
  assert (Ep : post = sm_cols A) by (pose proof (gl_dim _ _ _ _ Gl) as Q; cbn in Q; lia). subst post.
  assert (NS : forall r, ~ slave [] r) by (intros r [g [[] _]]).
  assert (Id : forall r c v, In (r, c, v) trips -> r = c).
  { assert (Lr : forall r c v, In (r, c, v) trips -> (r < sm_cols A)%nat).
    { intros r c v I. assert (Q : In r (map (fun t : triplet => fst (fst t)) trips)) by (apply in_map_iff; exists (r, c, v); auto). apply (Permutation_in _ (gl_rows _ _ _ _ Gl)) in Q. apply in_seq in Q. lia. }
    assert (Lc : forall r c v, In (r, c, v) trips -> (c < sm_cols A)%nat) by (intros r c v I; apply (gl_cols _ _ _ _ Gl); eauto).
    assert (Up : forall r c v, In (r, c, v) trips -> (r <= c)%nat).
    { induction r as [r IH] using lt_wf_ind. intros c v I. destruct r as [|r]; [lia|].
      destruct (has_row _ _ _ _ r Gl ltac:(pose proof (Lr _ _ _ I); lia)) as [c1 [v1 I1]]. pose proof (IH r ltac:(lia) c1 v1 I1) as Q.
      pose proof (proj2 (gl_order _ _ _ _ Gl _ _ _ _ _ _ I1 I (NS _) (NS _)) ltac:(lia)). lia. }
    assert (Down : forall m r c v, (r + m + 1 = sm_cols A)%nat -> In (r, c, v) trips -> (c <= r)%nat).
    { induction m as [|m IH]; intros r c v E I; [pose proof (Lc _ _ _ I); lia|].
      destruct (has_row _ _ _ _ (r + 1) Gl ltac:(lia)) as [c1 [v1 I1]]. pose proof (IH (r + 1)%nat c1 v1 ltac:(lia) I1) as Q.
      pose proof (proj2 (gl_order _ _ _ _ Gl _ _ _ _ _ _ I I1 (NS _) (NS _)) ltac:(lia)). lia. }
    intros r c v I. pose proof (Up r c v I). pose proof (Lr _ _ _ I). pose proof (Down (sm_cols A - 1 - r)%nat r c v ltac:(lia) I). lia. }
  exists (mkAS (sm_rows A) (sm_cols A) (fun r c => rsum (fun j => sm_entry A r j * glue_entry trips j c) (sm_cols A))), A.
  assert (EP : product A (sm_cols A, sm_cols A, trips) = Some (mkAS (sm_rows A) (sm_cols A) (fun r c => rsum (fun j => sm_entry A r j * glue_entry trips j c) (sm_cols A)))) by (unfold product; rewrite Nat.eqb_refl; reflexivity).
  split; [unfold ansatz_discontinuous; rewrite EA; cbn [bind]; rewrite Ee; cbn [bind]; rewrite Ea; cbn [bind]; exact EP|]. split; [exact EA|]. split; [reflexivity|]. split; [reflexivity|].
  destruct (product_value A _ _ EP) as [tr [EG [_ V]]]. assert (tr = trips) by congruence. subst tr. intros w c k h s. unfold discrete_value, local_coefficient. f_equal. apply rsum_ext. intros i _. f_equal. rewrite V.
  apply rsum_ext. intros j Hj. f_equal. cbn [as_cols]. destruct (has_row _ _ _ _ j Gl Hj) as [cj [vj Ij]]. rewrite (glued_value _ _ _ _ w j cj vj Gl Ij). rewrite <- (Id _ _ _ Ij). rewrite (gl_one _ _ _ _ Gl _ _ _ Ij (NS _)). ring.
Qed.

(** ** div-conforming spaces *)
Notation side_coef p rep q i d := (if normal_comp i then edge_coef (p - 1) p n rep (P * (spline_dim p n rep * spline_dim (p - 1) n rep)) q i d else edge_coef p (p - 1) n rep 0 q i d).
Lemma div_coefficients : forall p rep A edges ids rows post trips w, (1 <= p)%nat -> sm_cols A = (2 * (P * (spline_dim p n rep * spline_dim (p - 1) n rep)))%nat ->
  patch_topology_info t = Some edges -> div_identification p rep M P (sm_cols A) edges = Some ids -> assemble_glue (sm_cols A) ids = Some (rows, post, trips) ->
  forall a b i j d d', (a < P)%nat -> (b < P)%nat -> (i < 4)%nat -> (j < 4)%nat -> opposed verts a i b j -> (d + d' + 1 = spline_dim (p - 1) n rep)%nat ->
  glued_vector trips post w (side_coef p rep b j d') = - (IZR (out_flux i) * IZR (out_flux j)) * glued_vector trips post w (side_coef p rep a i d).
Proof.
  intros p rep A edges ids rows post trips w Hp Ec Ee Ei Ea.
  destruct over_mesh as [npts [HN HR]]. pose proof verts_length as VL.
  destruct (C24_mesh_sides verts npts t HM HN HR) as [edges' [Ee' [Eok ND]]]. assert (edges' = edges) by congruence. subst edges'.
  destruct (C17_interfaces verts npts t HM HN HR) as [edges' [Ee2 [_ [I1 _]]]]. assert (edges' = edges) by congruence. subst edges'. rewrite VL in *.
  assert (HP : (1 <= P)%nat) by (destruct Hm as [Hc _]; destruct corners; [congruence|simpl; lia]).
  destruct (C24_div_identification p rep M P edges Hp HP Eok ND) as [ids' [Ei' [K [Gr [post' [trips' [Ea' Gl]]]]]]].
  set (Sd := (p + rep * (n - 1))%nat) in *. assert (E1 : spline_dim (p - 1) n rep = Sd) by (unfold spline_dim, Sd; clear -Hp; generalize (rep * (n - 1))%nat; lia).
  assert (E2 : spline_dim p n rep = (Sd + 1)%nat) by (unfold spline_dim, Sd; clear; generalize (rep * (n - 1))%nat; lia).
  assert (Sp : (1 <= Sd)%nat) by (unfold Sd; clear -Hp; generalize (rep * (n - 1))%nat; lia). clearbody Sd.
  assert (Ec' : sm_cols A = (2 * P * (Sd * (Sd + 1)))%nat) by (rewrite Ec, E1, E2; ring). rewrite Ec' in Ei, Ea. assert (ids' = ids) by congruence. subst ids'.
  assert (Q : (rows, post, trips) = (2 * P * (Sd * (Sd + 1)), post', trips')%nat) by congruence. injection Q as -> -> ->. clear Ea Ea' Ei Ei' Ec Ec'.
  assert (Fl : forall i, out_flux i = 1%Z \/ out_flux i = (-1)%Z) by (intros [|[|[|i]]]; cbn; auto).
  assert (Main : forall a b i j d d', (a < b)%nat -> (b < P)%nat -> (i < 4)%nat -> (j < 4)%nat -> opposed verts a i b j -> (d + d' + 1 = Sd)%nat ->
     glued_vector trips' post' w (side_coef p rep b j d') = - (IZR (out_flux i) * IZR (out_flux j)) * glued_vector trips' post' w (side_coef p rep a i d)).
  { intros a b i j d d' Hab Hb Hi Hj Op Hd.
    assert (FP : forall q k m, (k < 4)%nat -> (m < Sd)%nat -> exists X Y, flux_point Sd (Sd + 1) k m X Y /\ side_coef p rep q k m = vec_dof Sd (Sd + 1) P (normal_comp k) q X Y).
    { intros q k m Hk' Hm'. unfold edge_coef, spline_dof, flux_point, vec_dof. rewrite E1, E2.
      destruct k as [|[|[|[|k]]]]; [exists m, 0%nat|exists (Sd + 1 - 1)%nat, m|exists (Sd - 1 - m)%nat, (Sd + 1 - 1)%nat|exists 0%nat, (Sd - 1 - m)%nat|lia]; cbn [normal_comp]; (split; [lia|ring]). }
    destruct (FP a i d Hi ltac:(lia)) as [X [Y [F1 G1]]]. destruct (FP b j d' Hj ltac:(lia)) as [X' [Y' [F2 G2]]]. rewrite G1, G2.
    set (x := vec_dof Sd (Sd + 1) P (normal_comp i) a X Y). set (y := vec_dof Sd (Sd + 1) P (normal_comp j) b X' Y'). set (v := (- (out_flux i * out_flux j))%Z).
    assert (FI : flux_ident Sd (Sd + 1) P edges x y v).
    { exists a, b, i, j, d, d', X, Y, X', Y'. split; [apply I1; repeat (split; [lia|]); right; exact Op|]. split; [exact F1|]. split; [exact F2|]. split; [lia|]. split; [reflexivity|]. split; [reflexivity|].
      unfold v. destruct (Fl i) as [-> | ->], (Fl j) as [-> | ->]; reflexivity. }
    assert (Ig : In ([Nat.min x y; Nat.max x y], v) ids) by (apply Gr; exists x, y, v; auto).
    pose proof (glued_pair _ _ _ _ w _ _ _ Gl K Ig) as GP.
    assert (Ev : IZR v = - (IZR (out_flux i) * IZR (out_flux j))) by (unfold v; rewrite opp_IZR, mult_IZR; reflexivity). rewrite <- Ev.
    assert (V2 : IZR v * IZR v = 1) by (rewrite Ev; destruct (Fl i) as [-> | ->], (Fl j) as [-> | ->]; ring).
    destruct (le_ge_dec x y) as [L|L]; [rewrite Nat.min_l, Nat.max_r in GP by lia; exact GP|].
    rewrite Nat.min_r, Nat.max_l in GP by lia. rewrite GP, <- Rmult_assoc, V2. ring. }
  intros a b i j d d' Ha Hb Hi Hj Op Hd. rewrite E1 in Hd. destruct (lt_eq_lt_dec a b) as [[L|L]|L].
  - apply Main; assumption.
  - exfalso. subst b. apply (opposed_self verts a i j HM ltac:(lia) Hi Hj Op).
  - rewrite (Main b a j i d' d L Ha Hj Hi (opposed_sym' _ _ _ _ _ Op) ltac:(lia)). destruct (Fl i) as [-> | ->], (Fl j) as [-> | ->]; ring.
Qed.

(** Across an interface, away from the corners of the elements, the normal components of a discrete vector field (in the
    coordinates of the patches) are opposite: what leaves one patch enters the other one. *)
Theorem C65_interface : forall p rep S w k k' e e' s s' i j, (1 <= rep <= p)%nat -> (p <= 19)%nat ->
  ansatz_div ws junk j1 j2 solve p M P rep t els = Some S ->
  nth_error els k = Some e -> nth_error els k' = Some e' -> unit_square s -> unit_square s' -> ~ corner s ->
  on_interface verts (n_patch e) (n_patch e') i j (patch_point e s) (patch_point e' s') ->
  let u := fun c => discrete_value p (P * 4 ^ M) (as_cols S) (as_T S) w (if c : bool then 1 else 0) k (Q2R (get_h e)) s in
  let u' := fun c => discrete_value p (P * 4 ^ M) (as_cols S) (as_T S) w (if c : bool then 1 else 0) k' (Q2R (get_h e')) s' in
  IZR (out_flux i) * u (normal_comp i) + IZR (out_flux j) * u' (normal_comp j) = 0.
Proof.
  intros p rep S w k k' e e' s s' i j Hr Hp ES Ek Ek' U U' NC [Hi [Hj [Op [z [Hz [E1 E2]]]]]]. unfold ansatz_div in ES.
  apply bind_some in ES. destruct ES as [A [EA ES]]. apply bind_some in ES. destruct ES as [edges [Ee ES]]. apply bind_some in ES. destruct ES as [ids [Ei ES]]. apply bind_some in ES. destruct ES as [G [Eg ES]].
  destruct (div_run close corners M t els Hm ws junk j1 j2 solve Hw Hs p rep Hr Hp) as [A' [EA' [_ [Ec [_ V]]]]]. rewrite EA in EA'. injection EA' as <-.
  pose proof (n_pos M) as Hn.
  destruct (mesh_cells close corners M t els Hm e (nth_error_In _ _ Ek)) as [[X [Y C]] Pe]. destruct (mesh_cells close corners M t els Hm e' (nth_error_In _ _ Ek')) as [[X' [Y' C']] Pe'].
  assert (Hh : Q2R (get_h e) = Q2R (get_h e')) by (destruct C as [_ [_ [_ [_ ->]]]]; destruct C' as [_ [_ [_ [_ ->]]]]; reflexivity). rewrite Hh. cbv beta zeta.
  set (c := fun b : bool => if b then 1%nat else 0%nat). change (if normal_comp i then 1%nat else 0%nat) with (c (normal_comp i)). change (if normal_comp j then 1%nat else 0%nat) with (c (normal_comp j)).
  destruct (value_local A G S w p (c (normal_comp i)) k (Q2R (get_h e')) s ES) as [trips [EG ->]]. destruct (value_local A G S w p (c (normal_comp j)) k' (Q2R (get_h e')) s' ES) as [trips' [EG' ->]].
  assert (trips' = trips) by congruence. subst trips'. rewrite EG in Eg. clear EG EG'. set (v := glued_vector trips (as_cols S) w).
  set (off := (P * (spline_dim p n rep * spline_dim (p - 1) n rep))%nat).
  rewrite (cell_patch_point e X Y s C) in E1. rewrite (cell_patch_point e' X' Y' s' C') in E2.
  assert (K1 : (Nat.max p (p - 1) = p /\ p <= p + 1 /\ p <= p - 1 + 1)%nat) by lia. assert (K2 : (Nat.max (p - 1) p = p /\ p <= p - 1 + 1 /\ p <= p + 1)%nat) by lia.
  assert (Tr : forall m el Z W pt i z, (i < 4)%nat -> nth_error els m = Some el -> at_cell n el Z W -> unit_square pt -> ((INR Z + fst pt) / INR n, (INR W + snd pt) / INR n) = along i z ->
     exists C x, (C < n)%nat /\ 0 <= x <= 1 /\ INR C + x = INR n * z /\ (x = 0 \/ x = 1 -> corner pt) /\
       local_value p (sm_entry A) (sm_cols A) ((c (normal_comp i) * (P * 4 ^ M) + m) * ((p + 1) * (p + 1))) v pt = trace1 p (p - 1) n rep (fun d => v (side_coef p rep (n_patch el) i d)) C x).
  { intros m el Z W pt i0 z0 Hi0 Em Cm Up Ep. destruct (V m el Z W Em Cm) as [V0 V1]. fold off in V1. fold off. destruct (normal_comp i0) eqn:Ni; unfold c; cbn [Nat.mul Nat.add]; rewrite ?Nat.add_0_r.
    - destruct (edge_trace p (p - 1) p n rep P K2 Hp Hn ltac:(lia) _ _ _ off (n_patch el) Z W v pt i0 z0 Hi0 V1 Up Ep) as [C0 [x0 [B1 [B2 [B3 [B4 B5]]]]]]. exists C0, x0. repeat (split; [assumption|]).
      rewrite B5. destruct i0 as [|[|[|[|i0]]]]; try discriminate Ni; try lia; reflexivity.
    - destruct (edge_trace p p (p - 1) n rep P K1 Hp Hn ltac:(lia) _ _ _ 0 (n_patch el) Z W v pt i0 z0 Hi0 V0 Up Ep) as [C0 [x0 [B1 [B2 [B3 [B4 B5]]]]]]. exists C0, x0. repeat (split; [assumption|]).
      rewrite B5. destruct i0 as [|[|[|[|i0]]]]; try discriminate Ni; try lia; reflexivity. }
  destruct (Tr k e X Y s i z Hi Ek C U E1) as [C1 [x1 [HC1 [Hx1 [Q1 [Co1 ->]]]]]]. destruct (Tr k' e' X' Y' s' j (1 - z) Hj Ek' C' U' E2) as [C2 [x2 [HC2 [Hx2 [Q2 [_ ->]]]]]].
  rewrite (trace1_opposite p (p - 1) n rep ltac:(lia) Hn ltac:(lia) (fun d => v (side_coef p rep (n_patch e) i d)) (fun d => v (side_coef p rep (n_patch e') j d)) (- (IZR (out_flux i) * IZR (out_flux j))) C1 x1 C2 x2 HC1 HC2 Hx1 Hx2).
  - assert (F2 : IZR (out_flux j) * IZR (out_flux j) = 1) by (destruct j as [|[|[|j]]]; cbn; ring).
    set (T1 := trace1 _ _ _ _ _ _ _). replace (IZR (out_flux i) * (T1 / Q2R (get_h e')) + IZR (out_flux j) * (- (IZR (out_flux i) * IZR (out_flux j)) * T1 / Q2R (get_h e')))
      with (IZR (out_flux i) * (T1 / Q2R (get_h e')) * (1 - IZR (out_flux j) * IZR (out_flux j))) by (unfold Rdiv; ring). rewrite F2. ring.
  - rewrite Q1, Q2. ring.
  - right. split; intros F; apply NC, Co1; auto.
  - intros d d' Hd. apply (div_coefficients p rep A edges ids (sm_cols A) (as_cols S) trips w ltac:(lia) Ec Ee Ei Eg (n_patch e) (n_patch e') i j d d'); assumption.
Qed.
(** Inside of a patch: the component normal to a common edge of two elements agrees. *)
Theorem C65_inside : forall p rep S w k k' e e' s s', (1 <= rep <= p)%nat -> (p <= 19)%nat ->
  ansatz_div ws junk j1 j2 solve p M P rep t els = Some S ->
  nth_error els k = Some e -> nth_error els k' = Some e' -> unit_square s -> unit_square s' ->
  n_patch e = n_patch e' -> patch_point e s = patch_point e' s' ->
  (0 < snd s < 1 -> discrete_value p (P * 4 ^ M) (as_cols S) (as_T S) w 0 k (Q2R (get_h e)) s = discrete_value p (P * 4 ^ M) (as_cols S) (as_T S) w 0 k' (Q2R (get_h e')) s') /\
  (0 < fst s < 1 -> discrete_value p (P * 4 ^ M) (as_cols S) (as_T S) w 1 k (Q2R (get_h e)) s = discrete_value p (P * 4 ^ M) (as_cols S) (as_T S) w 1 k' (Q2R (get_h e')) s').
Proof.
  intros p rep S w k k' e e' s s' Hr Hp ES Ek Ek' U U' Eq EP. unfold ansatz_div in ES.
  apply bind_some in ES. destruct ES as [A [EA ES]]. apply bind_some in ES. destruct ES as [edges [Ee ES]]. apply bind_some in ES. destruct ES as [ids [Ei ES]]. apply bind_some in ES. destruct ES as [G [Eg ES]].
  destruct (div_run close corners M t els Hm ws junk j1 j2 solve Hw Hs p rep Hr Hp) as [A' [EA' [_ [Ec [_ V]]]]]. rewrite EA in EA'. injection EA' as <-.
  pose proof (n_pos M) as Hn.
  destruct (mesh_cells close corners M t els Hm e (nth_error_In _ _ Ek)) as [[X [Y C]] Pe]. destruct (mesh_cells close corners M t els Hm e' (nth_error_In _ _ Ek')) as [[X' [Y' C']] Pe'].
  assert (Hh : Q2R (get_h e) = Q2R (get_h e')) by (destruct C as [_ [_ [_ [_ ->]]]]; destruct C' as [_ [_ [_ [_ ->]]]]; reflexivity). rewrite Hh.
  assert (K1 : (Nat.max p (p - 1) = p /\ p <= p + 1 /\ p <= p - 1 + 1)%nat) by lia. assert (K2 : (Nat.max (p - 1) p = p /\ p <= p - 1 + 1 /\ p <= p + 1)%nat) by lia.
  destruct (V k e X Y Ek C) as [V0 V1]. destruct (V k' e' X' Y' Ek' C') as [V0' V1']. rewrite <- Eq in V0', V1'.
  destruct (same_patch_point e e' X Y X' Y' s s' C C' EP) as [Qx Qy]. destruct s as [x y], s' as [x' y']. destruct U as [U1 U2], U' as [U1' U2']. cbn [fst snd] in *.
  split; intros In1.
  - destruct (grid_point Y y Y' y' Qy U2 U2') as [[-> ->]|[[_ [F _]]|[_ [F _]]]]; [|lra|lra].
    destruct (value_local A G S w p 0 k (Q2R (get_h e')) (x, y') ES) as [trips [EG ->]]. destruct (value_local A G S w p 0 k' (Q2R (get_h e')) (x', y') ES) as [trips' [EG' ->]].
    assert (trips' = trips) by congruence. subst trips'. f_equal. cbn [Nat.mul Nat.add].
    apply (move_x p p (p - 1) n rep P K1 Hp Hn ltac:(lia) _ _ _ _ 0 (n_patch e) X X' Y' _ x x' y' ltac:(lia) V0 V0' U1 U1' Qx).
  - destruct (grid_point X x X' x' Qx U1 U1') as [[-> ->]|[[_ [F _]]|[_ [F _]]]]; [|lra|lra].
    destruct (value_local A G S w p 1 k (Q2R (get_h e')) (x', y) ES) as [trips [EG ->]]. destruct (value_local A G S w p 1 k' (Q2R (get_h e')) (x', y') ES) as [trips' [EG' ->]].
    assert (trips' = trips) by congruence. subst trips'. f_equal. rewrite !Nat.mul_1_l.
    apply (move_y p (p - 1) p n rep P K2 Hp Hn ltac:(lia) _ _ _ _ _ (n_patch e) X' Y Y' _ x' y y' ltac:(lia) V1 V1' U2 U2' Qy).
Qed.

(** The space is defined for every mesh. *)
Theorem C65_defined : forall p rep, (1 <= rep <= p)%nat -> (p <= 19)%nat -> exists S, ansatz_div ws junk j1 j2 solve p M P rep t els = Some S
  /\ as_rows S = (2 * ((p + 1) * (p + 1) * (P * 4 ^ M)))%nat.
Proof.
  intros p rep Hr Hp. destruct (div_run close corners M t els Hm ws junk j1 j2 solve Hw Hs p rep Hr Hp) as [A [EA [ER [Ec _]]]].
  destruct over_mesh as [npts [HN HR]]. pose proof verts_length as VL.
  destruct (C24_mesh_sides verts npts t HM HN HR) as [edges [Ee [Eok ND]]]. rewrite VL in Eok.
  assert (HP : (1 <= P)%nat) by (destruct Hm as [Hc _]; destruct corners; [congruence|simpl; lia]).
  destruct (C24_div_identification p rep M P edges ltac:(lia) HP Eok ND) as [ids [Ei [K [Gr [post [trips [Ea Gl]]]]]]].
  set (Sd := (p + rep * (n - 1))%nat) in *. assert (E1 : spline_dim (p - 1) n rep = Sd) by (unfold spline_dim, Sd; clear -Hr; generalize (rep * (n - 1))%nat; lia).
  assert (E2 : spline_dim p n rep = (Sd + 1)%nat) by (unfold spline_dim, Sd; clear; generalize (rep * (n - 1))%nat; lia).
  assert (Ec' : sm_cols A = (2 * P * (Sd * (Sd + 1)))%nat) by (rewrite Ec, E1, E2; ring).
  unfold ansatz_div. rewrite EA. cbn [bind]. rewrite Ee. cbn [bind]. rewrite Ec', Ei. cbn [bind]. rewrite Ea. cbn [bind]. unfold product. rewrite Ec', Nat.eqb_refl. cbn [assert bind].
  eexists. split; [reflexivity|]. exact ER.
Qed.

(** In terms of the surface: u / kappa, the tangential field belonging to the values u returned by the evaluator, has opposite
    conormal components on both sides of an interface, if the parametrisations of the patches agree along the common edge. *)
Lemma flux_conormal : forall i fa fb nu U0 U1, (i < 4)%nat -> conormal i fa fb nu ->
  vnorm (boundary_tangent i fa fb) * vdot (vadd (vscal U0 fa) (vscal U1 fb)) nu = vnorm (vcross fa fb) * (IZR (out_flux i) * (if normal_comp i then U1 else U0)).
Proof.
  intros i fa fb nu U0 U1 Hi [H1 [H2 [H3 H4]]].
  assert (K : vnorm (vcross fa fb) = vnorm (boundary_tangent i fa fb) * vdot nu (outward i fa fb)).
  { assert (A : 0 <= vnorm (vcross fa fb)) by apply sqrt_pos. assert (B : 0 <= vnorm (boundary_tangent i fa fb)) by apply sqrt_pos.
    assert (Sq : vnorm (vcross fa fb) * vnorm (vcross fa fb) = vnorm (boundary_tangent i fa fb) * vdot nu (outward i fa fb) * (vnorm (boundary_tangent i fa fb) * vdot nu (outward i fa fb))).
    { replace (vnorm (boundary_tangent i fa fb) * vdot nu (outward i fa fb) * (vnorm (boundary_tangent i fa fb) * vdot nu (outward i fa fb)))
        with (vnorm (boundary_tangent i fa fb) * vnorm (boundary_tangent i fa fb) * (vdot nu (outward i fa fb) * vdot nu (outward i fa fb))) by ring.
      rewrite !ProofOperators.vnorm_sq.
      assert (L : vdot (vcross fa fb) (vcross fa fb) = vdot (vcross (vcross fa fb) nu) (vcross (vcross fa fb) nu)).
      { assert (Q : vdot (vcross (vcross fa fb) nu) (vcross (vcross fa fb) nu) = vdot (vcross fa fb) (vcross fa fb) * vdot nu nu - vdot nu (vcross fa fb) * vdot nu (vcross fa fb)) by (unfold vdot, vcross, vx, vy, vz; cbn [fst snd]; ring).
        rewrite Q, H1, H2. ring. }
      rewrite L.
      assert (T : vcross (vcross fa fb) nu = vsub (vscal (vdot nu fa) fb) (vscal (vdot nu fb) fa)) by (unfold vsub, vscal, vdot, vcross, vx, vy, vz; cbn [fst snd]; f_equal; [f_equal|]; ring).
      rewrite T. destruct i as [|[|[|[|i]]]]; [| | | |lia]; cbn [boundary_tangent outward] in *.
      - rewrite H3. unfold vsub, vscal, vdot, vx, vy, vz; cbn [fst snd]. ring.
      - rewrite H3. unfold vsub, vscal, vdot, vx, vy, vz; cbn [fst snd]. ring.
      - assert (Z : vdot nu fa = 0) by (revert H3; unfold vscal, vdot, vx, vy, vz; cbn [fst snd]; lra). rewrite Z. unfold vsub, vscal, vdot, vx, vy, vz; cbn [fst snd]. ring.
      - assert (Z : vdot nu fb = 0) by (revert H3; unfold vscal, vdot, vx, vy, vz; cbn [fst snd]; lra). rewrite Z. unfold vsub, vscal, vdot, vx, vy, vz; cbn [fst snd]. ring. }
    apply Rsqr_inj; [exact A|apply Rmult_le_pos; lra|exact Sq]. }
  rewrite K. set (m := vnorm (boundary_tangent i fa fb)).
  assert (V : vdot (vadd (vscal U0 fa) (vscal U1 fb)) nu = U0 * vdot nu fa + U1 * vdot nu fb) by (unfold vadd, vscal, vdot, vx, vy, vz; cbn [fst snd]; ring). rewrite V.
  assert (Sc : forall c a, vdot nu (vscal c a) = c * vdot nu a) by (intros c a; unfold vscal, vdot, vx, vy, vz; cbn [fst snd]; ring).
  destruct i as [|[|[|[|i]]]]; [| | | |lia]; cbn [boundary_tangent outward out_flux normal_comp] in *; rewrite ?Sc in *.
  - rewrite H3. ring.
  - rewrite H3. ring.
  - replace (vdot nu fa) with 0 by lra. ring.
  - replace (vdot nu fb) with 0 by lra. ring.
Qed.
Theorem C65_conormal : forall p rep S w X ss E e e' s s' i j w0 w0' v v' nu nu', (1 <= rep <= p)%nat -> (p <= 19)%nat ->
  ansatz_div ws junk j1 j2 solve p M P rep t els = Some S ->
  ss_p ss = p -> evaluator_of t X ss 2 (as_cols S) (as_T S) w E ->
  In e els -> In e' els -> unit_square s -> unit_square s' -> ~ corner s ->
  on_interface verts (n_patch e) (n_patch e') i j (patch_point e s) (patch_point e' s') ->
  let q := surf_point X e s w0 in let q' := surf_point X e' s' w0' in
  boundary_tangent i (p_dx q) (p_dy q) = vscal (-1) (boundary_tangent j (p_dx q') (p_dy q')) ->
  p_kappa q <> 0 -> p_kappa q' <> 0 -> conormal i (p_dx q) (p_dy q) nu -> conormal j (p_dx q') (p_dy q') nu' ->
  evaluate_vector ss E e q = Some v -> evaluate_vector ss E e' q' = Some v' ->
  vdot v nu / p_kappa q + vdot v' nu' / p_kappa q' = 0.
Proof.
  intros p rep S w X ss E e e' s s' i j w0 w0' v v' nu nu' Hr Hp ES Ep HE I I' U U' NC OI q q' Ht Hk Hk' Hn Hn' Ev Ev'.
  pose proof (mesh_numbered close corners M t els Hm) as Nb. destruct (ProofForms.numbered_in _ _ e Nb I) as [_ Ek]. destruct (ProofForms.numbered_in _ _ e' Nb I') as [_ Ek'].
  assert (Nt : t_elements t = (P * 4 ^ M)%nat) by (destruct (mesh_grid close corners M t els Hm) as [_ [Le _]]; destruct Nb as [Ln _]; lia).
  rewrite (C61_vector close corners M t els Hm X ss _ _ w E e _ HE I) in Ev. rewrite (C61_vector close corners M t els Hm X ss _ _ w E e' _ HE I') in Ev'.
  apply PropUtil.some_inj in Ev. apply PropUtil.some_inj in Ev'. rewrite Nt, Ep in Ev, Ev'.
  pose proof (C65_interface p rep S w _ _ e e' s s' i j Hr Hp ES Ek Ek' U U' NC OI) as F. cbv beta zeta in F. destruct OI as [Hi [Hj _]].
  change (p_s q) with s in Ev. change (p_s q') with s' in Ev'. unfold n_h in Ev, Ev'.
  set (u := fun c => discrete_value p (P * 4 ^ M) (as_cols S) (as_T S) w c (n_id e) (Q2R (get_h e)) s) in *. set (u' := fun c => discrete_value p (P * 4 ^ M) (as_cols S) (as_T S) w c (n_id e') (Q2R (get_h e')) s') in *.
  pose proof (flux_conormal i _ _ nu (u 0%nat) (u 1%nat) Hi Hn) as A1. pose proof (flux_conormal j _ _ nu' (u' 0%nat) (u' 1%nat) Hj Hn') as A2.
  change (v = vadd (vscal (u 0%nat) (p_dx q)) (vscal (u 1%nat) (p_dy q))) in Ev. change (v' = vadd (vscal (u' 0%nat) (p_dx q')) (vscal (u' 1%nat) (p_dy q'))) in Ev'. rewrite <- Ev in A1. rewrite <- Ev' in A2.
  change (IZR (out_flux i) * u (if normal_comp i then 1%nat else 0%nat) + IZR (out_flux j) * u' (if normal_comp j then 1%nat else 0%nat) = 0) in F.
  replace (if normal_comp i then u 1%nat else u 0%nat) with (u (if normal_comp i then 1%nat else 0%nat)) in A1 by (destruct (normal_comp i); reflexivity).
  replace (if normal_comp j then u' 1%nat else u' 0%nat) with (u' (if normal_comp j then 1%nat else 0%nat)) in A2 by (destruct (normal_comp j); reflexivity).
  change (vnorm (vcross (p_dx q) (p_dy q))) with (p_kappa q) in A1. change (vnorm (vcross (p_dx q') (p_dy q'))) with (p_kappa q') in A2.
  assert (Nm : forall a, vnorm (vscal (-1) a) = vnorm a) by (intros a; unfold vnorm; f_equal; unfold vscal, vdot, vx, vy, vz; cbn [fst snd]; ring).
  rewrite Ht, Nm in A1. set (m := vnorm (boundary_tangent j (p_dx q') (p_dy q'))) in *.
  assert (M0 : m <> 0). { intros Z. apply Hk'. destruct Hn' as [_ [_ [T3 T4]]].
    assert (Zt : boundary_tangent j (p_dx q') (p_dy q') = (0, 0, 0)).
    { destruct (Req_EM_T (vdot (boundary_tangent j (p_dx q') (p_dy q')) (boundary_tangent j (p_dx q') (p_dy q'))) 0) as [Q|Q].
      - destruct (boundary_tangent j (p_dx q') (p_dy q')) as [[a b] d]. unfold vdot, vx, vy, vz in Q. cbn [fst snd] in Q. f_equal; [f_equal|]; nra.
      - exfalso. apply Q. rewrite <- ProofOperators.vnorm_sq. fold m. rewrite Z. ring. }
    unfold p_kappa, p_n. assert (Zc : vcross (p_dx q') (p_dy q') = (0, 0, 0)).
    { destruct (p_dx q') as [[a0 a1] a2], (p_dy q') as [[b0 b1] b2]. clear -Zt Hj. destruct j as [|[|[|[|j]]]]; [| | | |lia]; unfold boundary_tangent, vscal, vcross, vx, vy, vz in *; cbn [fst snd] in *; injection Zt; intros; f_equal; [f_equal| |f_equal| |f_equal| |f_equal|]; nra. }
    rewrite Zc. unfold vnorm, vdot, vx, vy, vz. cbn [fst snd]. replace (0 * 0 + 0 * 0 + 0 * 0) with 0 by ring. apply sqrt_0. }
  apply (Rmult_eq_reg_l m); [|exact M0]. rewrite Rmult_0_r, Rmult_plus_distr_l. unfold Rdiv. rewrite <- !Rmult_assoc, A1, A2.
  rewrite <- F. field. split; assumption.
Qed.
End Mesh.

(** ** examples: the surface of a cube, quadratic splines on four elements per patch *)
Lemma any_mesh : forall corners M, corners <> [] -> (forall c, In c corners -> length c = 4%nat) -> exists t els, uniform_mesh Nat.eqb corners M t els.
Proof.
  intros corners M Hc H4. destruct (init_tree_ok Nat.eqb corners M H4) as [t [l [E [W [HP [A ML]]]]]].
  assert (PP : (0 < t_patches t)%nat) by (rewrite HP; destruct corners; [congruence|simpl; lia]).
  pose proof (traverse_ok t l W PP) as T.
  assert (S : exists els, map_opt (t_store t) l = Some els).
  { assert (G : forall l', (forall a, In a l' -> t_store t a <> None) -> exists els, map_opt (t_store t) l' = Some els).
    { induction l' as [|a l' IH]; intros H; [exists []; reflexivity|]. destruct (IH ltac:(intros; apply H; right; assumption)) as [els He].
      destruct (t_store t a) as [e|] eqn:Ea; [|exfalso; apply (H a); [left; reflexivity|exact Ea]]. exists (e :: els). cbn [map_opt]. rewrite Ea. cbn [bind]. rewrite He. reflexivity. }
    apply G. intros a Ha. apply (wf_leaf t l W) in Ha. destruct Ha as [e [Ha _]]. congruence. }
  destruct S as [els Hels]. exists t, els. split; [exact Hc|]. split; [exact H4|]. split; [exact E|]. exists l. split; assumption.
Qed.
Lemma cube_verts : fst (patch_vertices Nat.eqb [] cube) = cube.
Proof. vm_compute. reflexivity. Qed.
Lemma cube_four : forall c, In c cube -> length c = 4%nat.
Proof. intros c H. repeat (destruct H as [<-|H]; [reflexivity|]). destruct H. Qed.
Example C64_example : exists t els solve S, uniform_mesh Nat.eqb cube 1 t els /\ good_solve solve /\
  mesh_ok (fst (patch_vertices Nat.eqb [] cube)) /\ oriented (fst (patch_vertices Nat.eqb [] cube)) /\
  ansatz_continuous (repeat 0 20) (fun _ _ => 0) (fun _ => 0) (fun _ => 0) solve 2 1 6 1 t els = Some S /\ as_rows S = 216%nat /\ as_cols S = 56%nat.
Proof.
  destruct (any_mesh cube 1 ltac:(discriminate) cube_four) as [t [els U]]. destruct C25_solver_exists as [solve Hs].
  assert (HM : mesh_ok (fst (patch_vertices Nat.eqb [] cube))) by (rewrite cube_verts; exact cube_mesh). assert (HO : oriented (fst (patch_vertices Nat.eqb [] cube))) by (rewrite cube_verts; exact cube_oriented).
  destruct (C64_defined Nat.eqb cube 1 t els U (repeat 0 20) (fun _ _ => 0) (fun _ => 0) (fun _ => 0) solve Hw1 Hs HM HO 2 1 ltac:(lia) ltac:(lia)) as [edges [groups [stored [Ee [Eg [Df Sz]]]]]].
  destruct U as [U1 [U2 [E U3]]].
  assert (X : (t <- init_tree Nat.eqb cube 1 ;; e <- patch_topology_info t ;; st <- cont_groups 4 96 e ;; Some (no_gap_b (fst st), n_slaves (filter nonempty (fst st)))) = Some (true, 40%nat)) by (vm_compute; reflexivity).
  change (spline_dim 2 (2 ^ 1) 1) with 4%nat in *. change (length cube * (4 * 4))%nat with 96%nat in *.
  rewrite E in X. cbn [bind] in X. rewrite Ee in X. cbn [bind] in X. rewrite Eg in X. cbn [bind fst] in X. injection X as X1 X2. apply no_gap_b_iff in X1.
  destruct (proj1 Df X1) as [S ES]. destruct (Sz S ES) as [R1 R2]. exists t, els, solve, S. split; [repeat split; assumption|]. split; [exact Hs|]. split; [exact HM|]. split; [exact HO|]. split; [exact ES|].
  split; [rewrite R1; reflexivity|lia].
Qed.
Example C65_example : exists t els solve S, uniform_mesh Nat.eqb cube 1 t els /\ good_solve solve /\
  ansatz_div (repeat 0 20) (fun _ _ => 0) (fun _ => 0) (fun _ => 0) solve 2 1 6 1 t els = Some S /\ as_rows S = 432%nat.
Proof.
  destruct (any_mesh cube 1 ltac:(discriminate) cube_four) as [t [els U]]. destruct C25_solver_exists as [solve Hs].
  assert (HM : mesh_ok (fst (patch_vertices Nat.eqb [] cube))) by (rewrite cube_verts; exact cube_mesh). assert (HO : oriented (fst (patch_vertices Nat.eqb [] cube))) by (rewrite cube_verts; exact cube_oriented).
  destruct (C65_defined Nat.eqb cube 1 t els U (repeat 0 20) (fun _ _ => 0) (fun _ => 0) (fun _ => 0) solve Hw1 Hs HM HO 2 1 ltac:(lia) ltac:(lia)) as [S [ES R1]].
  exists t, els, solve, S. split; [exact U|]. split; [exact Hs|]. split; [exact ES|]. rewrite R1. reflexivity.
Qed.
(** two adjacent faces, two points of their common edge; tangents with a conormal *)
Example C65_points : exists i j, on_interface cube 0 1 i j (along i (1 / 4)) (along j (1 - 1 / 4)).
Proof.
  assert (X : existsb (fun i => existsb (fun j => opposed_b cube 0 i 1 j) (seq 0 4)) (seq 0 4) = true) by (vm_compute; reflexivity).
  apply existsb_exists in X. destruct X as [i [Hi X]]. apply existsb_exists in X. destruct X as [j [Hj X]]. apply in_seq in Hi. apply in_seq in Hj.
  exists i, j. split; [lia|]. split; [lia|]. split; [|exists (1 / 4); split; [lra|split; reflexivity]].
  unfold opposed_b in X. apply andb_true_iff in X. rewrite !Nat.eqb_eq in X. exact X.
Qed.
Example C65_conormal_exists : conormal 0 (1, 0, 0) (1, 2, 0) (0, -1, 0).
Proof. unfold conormal, boundary_tangent, outward, vdot, vscal, vcross, vx, vy, vz. cbn [fst snd]. repeat split; lra. Qed.

(* BEGIN ASSUMPTIONS *)
Print Assumptions C64_continuous.
Print Assumptions C64_evaluator.
Print Assumptions C64_defined.
Print Assumptions C64_complete.
Print Assumptions C64_discontinuous.
Print Assumptions C65_interface.
Print Assumptions C65_inside.
Print Assumptions C65_defined.
Print Assumptions C65_conormal.
