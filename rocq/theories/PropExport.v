(** C70, C71: lists over the elements of the mesh; VTK exports. *)
From Coq Require Import String List Arith Bool Lia ZArith Reals QArith Qreals Lra.
From Verif Require Import ModelBase ModelTree ModelBall ModelExport SpecTree SpecMesh SpecBall SpecExport ProofTree ProofTreeWF ProofTreeHist ProofTreeGeo ProofTreeLook ProofTopo ProofConf ProofConfStep ProofConfTree ProofConfHist ProofExport PropTree PropTopo PropBall.
Import ListNotations.
Local Close Scope Q_scope.
Local Open Scope nat_scope.

(** ** C70 *)

(** generateElementList: column k holds the four vertices of the k-th element, for every refinement history *)
Theorem C70_element_list : forall t, reachable t ->
  exists l cs, traverse t = Some l /\ element_list t = Some cs /\ length cs = length l /\ length cs = t_elements t /\
    forall k, k < length l -> exists v0 v1 v2 v3, nth k cs None = Some [v0; v1; v2; v3] /\
      vertex t (nth k l []) 0 = Some v0 /\ vertex t (nth k l []) 1 = Some v1 /\
      vertex t (nth k l []) 2 = Some v2 /\ vertex t (nth k l []) 3 = Some v3.
Proof.
  intros t Rc. destruct (reachable_wf t Rc) as [[l W] HP]. exists l.
  set (g := fun a => match t_store t a with Some n => n_verts n | None => [] end).
  assert (F : forall a n, is_leaf t a -> t_store t a = Some n -> exists v0 v1 v2 v3, n_verts n = [v0; v1; v2; v3]).
  { intros a n _ En. pose proof (nk_verts _ _ (wf_node t l W a n En)) as L.
    destruct (n_verts n) as [|v0 [|v1 [|v2 [|v3 [|]]]]]; try discriminate. eauto. }
  exists (map (fun a => Some (g a)) l). split; [apply traverse_ok; assumption|]. split.
  - unfold element_list. apply (element_table_ok _ g t l W HP). intros a n La En. destruct (F a n La En) as [v0 [v1 [v2 [v3 E]]]].
    unfold g. rewrite En, E. reflexivity.
  - rewrite map_length. split; [reflexivity|]. split; [apply (wf_count t l W)|]. intros k Hk.
    assert (La : is_leaf t (nth k l [])) by (apply (wf_leaf t l W), nth_In; assumption). pose proof La as [n [En _]].
    destruct (F _ n La En) as [v0 [v1 [v2 [v3 E]]]]. exists v0, v1, v2, v3. split.
    + rewrite (nth_indep _ None (Some (g []))) by (rewrite map_length; assumption). rewrite (map_nth (fun a => Some (g a))).
      unfold g. rewrite En, E. reflexivity.
    + unfold vertex. rewrite En, E. auto.
Qed.

(** generateElementLabels: the labels of the elements are different, for every history; on a uniform mesh they are
    consecutive *)
Theorem C70_labels_distinct : forall t, reachable t ->
  exists ls, element_labels t = Some (map Some ls) /\ length ls = t_elements t /\ NoDup ls.
Proof.
  intros t Rc. destruct (reachable_wf t Rc) as [[l W] HP].
  set (g := fun a => match t_store t a with Some n => global_id t n | None => 0 end).
  exists (map g l). split.
  - rewrite map_map. apply (element_table_ok _ g t l W HP). intros a n La En. unfold g. rewrite En. reflexivity.
  - rewrite map_length. split; [apply (wf_count t l W)|]. apply NoDup_map_inj; [|apply (wf_nodup t l W)].
    intros x y Hx Hy E. apply (wf_leaf t l W) in Hx, Hy. destruct Hx as [nx [Ex _]], Hy as [ny [Ey _]].
    apply (C13_global_ids_distinct t x y nx ny Rc Ex Ey). unfold g in E. rewrite Ex, Ey in E. assumption.
Qed.
Theorem C70_labels_uniform : forall (Pt : Type) (close : Pt -> Pt -> bool) corners M t,
  corners <> [] -> (forall c, In c corners -> length c = 4) -> init_tree close corners M = Some t ->
  element_labels t = Some (map (fun k => Some (length corners * ((4 ^ M - 1) / 3) + k)) (seq 0 (length corners * 4 ^ M))).
Proof.
  intros Pt close corners M t Hc H4 E. destruct (init_tree_ok close corners M H4) as [t' [l [E' [W [P [A ML]]]]]].
  assert (t' = t) by congruence. subst t'. assert (HP : 0 < t_patches t) by (rewrite P; destruct corners; [congruence|simpl; lia]).
  destruct (uniform_list t l M W A) as [HL HN]. rewrite P in HL.
  set (g := fun a => length corners * ((4 ^ M - 1) / 3) + pos_id a).
  unfold element_labels. rewrite (element_table_ok _ g t l W HP).
  - f_equal. apply (nth_ext _ _ None None); [rewrite !map_length, seq_length; assumption|]. intros k Hk. rewrite map_length in Hk.
    rewrite (nth_indep _ None (Some (g []))) by (rewrite map_length; assumption). rewrite (map_nth (fun a => Some (g a))).
    rewrite (nth_indep _ None (Some (length corners * ((4 ^ M - 1) / 3) + 0))) by (rewrite map_length, seq_length; lia).
    rewrite (map_nth (fun k => Some (length corners * ((4 ^ M - 1) / 3) + k))). rewrite seq_nth by lia.
    unfold g. rewrite (proj1 (HN k Hk)). reflexivity.
  - intros a n La En. pose proof (wf_node t l W a n En) as K. unfold global_id, g. rewrite P, (nk_level _ _ K), (A a La), (nk_id _ _ K), pow4_2. reflexivity.
Qed.

(** identifyPatch: 1 for the elements of the patch, 0 for the others; an unknown patch fails the assert *)
Theorem C70_identify_patch : forall t pn, reachable t ->
  (pn < t_patches t -> exists l, traverse t = Some l /\
     identify_patch t pn = Some (map (fun a => Some (if pos_patch a =? pn then 1 else 0)) l)) /\
  (t_patches t <= pn -> identify_patch t pn = None).
Proof.
  intros t pn Rc. destruct (reachable_wf t Rc) as [[l W] HP]. unfold identify_patch. split.
  - intros Hp. exists l. split; [apply traverse_ok; assumption|]. rewrite (proj2 (Nat.ltb_lt _ _)) by assumption. cbn [assert bind].
    apply (element_table_ok _ _ t l W HP). intros a n La En. rewrite (nk_patch _ _ (wf_node t l W a n En)). reflexivity.
  - intros Hp. rewrite (proj2 (Nat.ltb_ge _ _)) by assumption. reflexivity.
Qed.

(** generatePatchBoundaryLabels on a uniform mesh of a manifold: -1 for the elements at the boundary of the
    surface, otherwise the number of edges at the boundary of the patch *)
Theorem C70_boundary_labels : forall verts npts t M, mesh_ok verts -> numbered verts npts -> reachable_over verts npts t ->
  verts <> [] -> uniform t M ->
  exists l ls, traverse t = Some l /\ boundary_labels t = Some (map Some ls) /\ length ls = length l /\
    forall k, k < length l -> let a := nth k l [] in
      ((exists i, i < 4 /\ on_patch_edge (2 ^ M) i (pos_x a) (pos_y a) /\ free_edge verts (pos_patch a) i) -> nth k ls 0%Z = (-1)%Z) /\
      ((forall i, i < 4 -> on_patch_edge (2 ^ M) i (pos_x a) (pos_y a) ->
          exists q j, q < length verts /\ j < 4 /\ (q, j) <> (pos_patch a, i) /\ glued verts (pos_patch a) i q j) ->
       nth k ls 0%Z = Z.of_nat (boundary_edges (2 ^ M) (pos_x a) (pos_y a))).
Proof.
  intros verts npts t M HM HN HR Hne U. destruct (over_wf verts npts t HM HN HR) as [Ov [l W]].
  assert (HP : 0 < t_patches t) by (destruct Ov as [_ [_ ->]]; destruct verts; [congruence|simpl; lia]).
  set (g := fun a => match t_store t a with Some n => match label_edges (t_store t) n [0; 1; 2; 3] 0%Z with Some z => z | None => 0%Z end | None => 0%Z end).
  assert (Fr : forall a i, {exists q j, q < length verts /\ j < 4 /\ (q, j) <> (pos_patch a, i) /\ glued verts (pos_patch a) i q j} + {free_edge verts (pos_patch a) i}).
  { intros a i.
    destruct (existsb (fun qj => negb ((fst qj =? pos_patch a) && (snd qj =? i)) && glued_b verts (pos_patch a) i (fst qj) (snd qj))
                (list_prod (seq 0 (length verts)) [0; 1; 2; 3])) eqn:Eb.
    - left. apply existsb_exists in Eb. destruct Eb as [[q j] [Hin Eb]]. apply in_prod_iff in Hin. destruct Hin as [Hq Hj]. apply in_seq in Hq. cbn [fst snd] in Eb.
      apply andb_prop in Eb. destruct Eb as [E1 E2]. exists q, j. split; [lia|]. split; [simpl in Hj; intuition lia|]. split.
      + intros E. injection E as -> ->. rewrite !Nat.eqb_refl in E1. discriminate.
      + apply glued_b_iff. assumption.
    - right. intros [q [j [Hq [Hj [Ne G]]]]]. apply Bool.not_true_iff_false in Eb. apply Eb. apply existsb_exists. exists (q, j). split.
      + apply in_prod_iff. split; [apply in_seq; lia|]. do 4 (destruct j as [|j]; [simpl; tauto|]). lia.
      + cbn [fst snd]. apply andb_true_intro. split; [|apply glued_b_iff; assumption].
        destruct (Nat.eqb_spec q (pos_patch a)), (Nat.eqb_spec j i); try reflexivity. subst. congruence. }
  assert (Def : forall a n, is_leaf t a -> t_store t a = Some n -> label_edges (t_store t) n [0; 1; 2; 3] 0%Z = Some (g a)).
  { intros a n La En. unfold g. rewrite En. destruct (label_ok verts HM t l W Ov M U a n La En) as [L1 L2].
    assert (D : (exists i, i < 4 /\ on_patch_edge (2 ^ M) i (pos_x a) (pos_y a) /\ free_edge verts (pos_patch a) i) \/
                (forall i, i < 4 -> on_patch_edge (2 ^ M) i (pos_x a) (pos_y a) ->
                  exists q j, q < length verts /\ j < 4 /\ (q, j) <> (pos_patch a, i) /\ glued verts (pos_patch a) i q j)).
    { assert (Q : forall js, (forall i, In i js -> i < 4) ->
        (exists i, In i js /\ on_patch_edge (2 ^ M) i (pos_x a) (pos_y a) /\ free_edge verts (pos_patch a) i) \/
        (forall i, In i js -> on_patch_edge (2 ^ M) i (pos_x a) (pos_y a) ->
                  exists q j, q < length verts /\ j < 4 /\ (q, j) <> (pos_patch a, i) /\ glued verts (pos_patch a) i q j)).
      { induction js as [|i js IH]; intros Hj; [right; simpl; tauto|].
        destruct IH as [[i' [H1 H2]]|IH]; [intros; apply Hj; right; assumption|left; exists i'; split; [right|]; assumption|].
        destruct (Fr a i) as [G|G]; [right; intros i' [<-|Hi']; auto|].
        destruct (on_patch_edge_b (2 ^ M) i (pos_x a) (pos_y a)) eqn:Eo.
        - left. exists i. split; [left; reflexivity|]. split; [apply opb; assumption|assumption].
        - right. intros i' [<-|Hi']; [|auto]. intros F. apply opb in F. congruence. }
      destruct (Q [0; 1; 2; 3]) as [[i [H1 H2]]|H]; [simpl; intuition lia| |].
      - left. exists i. split; [simpl in H1; intuition lia|assumption].
      - right. intros i Hi. apply H. do 4 (destruct i as [|i]; [simpl; tauto|]). lia. }
    destruct D as [D|D]; [rewrite (L1 D)|rewrite (L2 D)]; reflexivity. }
  exists l, (map g l). split; [apply traverse_ok; assumption|]. split.
  - rewrite map_map. apply (element_table_ok _ g t l W HP). intros a n La En. apply Def; assumption.
  - split; [apply map_length|]. intros k Hk a. assert (La : is_leaf t a) by (apply (wf_leaf t l W), nth_In; assumption).
    pose proof La as [n [En _]]. destruct (label_ok verts HM t l W Ov M U a n La En) as [L1 L2].
    rewrite (nth_indep _ 0%Z (g [])) by (rewrite map_length; assumption). rewrite map_nth. fold a.
    pose proof (Def a n La En) as D. split; intros H; [specialize (L1 H)|specialize (L2 H)]; congruence.
Qed.
(** the meshes of C70_boundary_labels: every mesh initialised with a level *)
Theorem C70_uniform_meshes : forall (Pt : Type) (close : Pt -> Pt -> bool) corners M t,
  corners <> [] -> (forall c, In c corners -> length c = 4) -> init_tree close corners M = Some t ->
  uniform t M /\ exists npts, numbered (fst (patch_vertices close [] corners)) npts /\ reachable_over (fst (patch_vertices close [] corners)) npts t.
Proof.
  intros Pt close corners M t Hc H4 E. destruct (init_tree_ok close corners M H4) as [t' [l [E' [W [P [A ML]]]]]].
  assert (t' = t) by congruence. subst t'. split; [exact A|].
  apply (C18_geometries Pt close corners). exists M, [], t. split; [reflexivity|]. split; [assumption|]. split; [assumption|]. split; [exact I|reflexivity].
Qed.

(** the documentation says that the value of an element at a patch boundary with a neighbour is 1; it is the number
    of its edges at the boundary *)
Theorem C70_label_is_one_refuted : exists t ls, init_tree Nat.eqb cube 0 = Some t /\ boundary_labels t = Some (map Some ls) /\
  ls = [4; 4; 4; 4; 4; 4]%Z.
Proof.
  destruct (init_tree Nat.eqb cube 0) as [t|] eqn:E; [|vm_compute in E; discriminate]. exists t, [4; 4; 4; 4; 4; 4]%Z. split; [reflexivity|]. split; [|reflexivity].
  assert (X : (t <- init_tree Nat.eqb cube 0 ;; boundary_labels t) = Some (map Some [4; 4; 4; 4; 4; 4]%Z)) by (vm_compute; reflexivity).
  rewrite E in X. exact X.
Qed.
(** after a local refinement the elements next to a coarser element get -1, although the surface (a cube) has no
    boundary: element 0 is [0;0], the corner of the refined patch *)
Theorem C70_local_refinement_refuted : exists t ls, (t0 <- init_tree Nat.eqb cube 0 ;; run t0 [OpPatch 0]) = Some t /\
  boundary_labels t = Some (map Some ls) /\ ls = [-1; -1; -1; -1; 4; 4; 4; 4; 4]%Z /\
  forall p i, p < 6 -> i < 4 -> ~ free_edge cube p i.
Proof.
  destruct (t0 <- init_tree Nat.eqb cube 0 ;; run t0 [OpPatch 0]) as [t|] eqn:E; [|vm_compute in E; discriminate].
  exists t, [-1; -1; -1; -1; 4; 4; 4; 4; 4]%Z. split; [reflexivity|]. split; [|split; [reflexivity|]].
  - assert (X : (t <- (t0 <- init_tree Nat.eqb cube 0 ;; run t0 [OpPatch 0]) ;; boundary_labels t) = Some (map Some [-1; -1; -1; -1; 4; 4; 4; 4; 4]%Z)) by (vm_compute; reflexivity).
    rewrite E in X. exact X.
  - intros p i Hp Hi F. assert (X : forallb (fun p => forallb (fun i => existsb (fun qj => negb ((fst qj =? p) && (snd qj =? i)) && glued_b cube p i (fst qj) (snd qj))
        (list_prod (seq 0 6) [0; 1; 2; 3])) [0;1;2;3]) (seq 0 6) = true) by (vm_compute; reflexivity).
    rewrite forallb_forall in X. specialize (X p ltac:(apply in_seq; lia)). rewrite forallb_forall in X.
    specialize (X i ltac:(do 4 (destruct i as [|i]; [simpl; tauto|]); lia)). apply existsb_exists in X. destruct X as [[q j] [Hin X]].
    apply in_prod_iff in Hin. destruct Hin as [Hq Hj]. apply in_seq in Hq. cbn [fst snd] in X. apply andb_prop in X. destruct X as [X1 X2].
    apply F. exists q, j. split; [exact (proj2 Hq)|]. split; [simpl in Hj; intuition lia|]. split; [|apply glued_b_iff; assumption].
    intros Eq. injection Eq as -> ->. rewrite !Nat.eqb_refl in X1. discriminate.
Qed.

(** generateMidpointList and generateRadiusList after computeElementEnclosings: the k-th ball contains the corners of
    the k-th element *)
Theorem C70_balls : forall (Pt : Type) (close : Pt -> Pt -> bool) corners verts t eval,
  corners <> [] -> from_geometry close corners verts t -> mesh_ok verts -> fits verts eval ->
  exists l P b ms rs, traverse t = Some l /\ point_list eval t = Some P /\ enclosings t P = Some b /\
    midpoint_list b t = Some (map Some ms) /\ radius_list b t = Some (map Some rs) /\ length ms = length l /\ length rs = length l /\
    forall k c, k < length l -> c < 4 -> in_ball (corner_point eval (nth k l []) c) (nth k ms (0, 0, 0)%R, nth k rs 0%R).
Proof.
  intros Pt close corners verts t eval Hc G HM F. destruct (C15_balls_enclose_surface_corners Pt close corners verts t eval Hc G HM F) as [P [b [EP [Eb B]]]].
  assert (Rc : reachable t) by (destruct G as [ml [os [t0 [_ [H4 [E0 [V E]]]]]]]; exists Pt, close, corners, ml, os, t0; auto).
  destruct (reachable_wf t Rc) as [[l W] HP].
  set (gm := fun a => match b a with Some x => fst x | None => (0, 0, 0)%R end).
  set (gr := fun a => match b a with Some x => snd x | None => 0%R end).
  assert (Db : forall a, is_leaf t a -> exists x, b a = Some x /\ forall c, c < 4 -> in_ball (corner_point eval a c) x).
  { intros a La. assert (Xa : exists_node t a) by (destruct La as [n [En _]]; unfold exists_node; congruence).
    destruct (B a a 0 Xa La (under_refl a) ltac:(lia)) as [x [Bx _]]. exists x. split; [assumption|]. intros c Hc4.
    destruct (B a a c Xa La (under_refl a) Hc4) as [x' [Bx' Hx]]. assert (x' = x) by congruence. subst. assumption. }
  exists l, P, b, (map gm l), (map gr l). split; [apply traverse_ok; assumption|]. split; [assumption|]. split; [assumption|].
  split; [|split].
  - rewrite map_map. apply (element_table_ok _ gm t l W HP). intros a n La _. destruct (Db a La) as [x [Bx _]]. unfold gm. rewrite Bx. reflexivity.
  - rewrite map_map. apply (element_table_ok _ gr t l W HP). intros a n La _. destruct (Db a La) as [x [Bx _]]. unfold gr. rewrite Bx. reflexivity.
  - rewrite !map_length. split; [reflexivity|]. split; [reflexivity|]. intros k c Hk Hc4.
    rewrite (nth_indep _ (0, 0, 0)%R (gm [])) by (rewrite map_length; assumption). rewrite (nth_indep _ 0%R (gr [])) by (rewrite map_length; assumption).
    rewrite !map_nth. assert (La : is_leaf t (nth k l [])) by (apply (wf_leaf t l W), nth_In; assumption).
    destruct (Db _ La) as [x [Bx Hx]]. unfold gm, gr. rewrite Bx. destruct x. apply Hx. assumption.
Qed.

(** ** C71 *)
Lemma mid_Q2R : forall a n, node_ok a n ->
  Q2R (fst (reference_midpoint n)) = mid_x a /\ Q2R (snd (reference_midpoint n)) = mid_y a.
Proof.
  intros a n K. destruct (nk_llc _ _ K) as [Lx Ly]. unfold reference_midpoint, get_h. cbn [fst snd]. rewrite (nk_level _ _ K).
  set (m := pos_level a) in *.
  assert (Pw : Q2R (pow2Q m) = (2 ^ m)%R).
  { unfold pow2Q, Q2R, inject_Z. cbn [Qnum Qden]. rewrite <- INR_IZR_INZ, pow_INR, Rinv_1, Rmult_1_r. reflexivity. }
  assert (P0 : (2 ^ m <> 0)%R) by (apply pow_nonzero; lra).
  assert (NZ : ~ (pow2Q m == 0)%Q).
  { intros E. apply Qeq_eqR in E. rewrite Pw in E. replace (Q2R 0) with 0%R in E by (unfold Q2R; simpl; lra). lra. }
  assert (Z2 : forall k, Q2R (inject_Z (Z.of_nat k)) = INR k) by (intros k; unfold Q2R, inject_Z; cbn [Qnum Qden]; rewrite <- INR_IZR_INZ, Rinv_1, Rmult_1_r; reflexivity).
  assert (H1 : Q2R (1 # 2) = (1 / 2)%R) by (unfold Q2R; simpl; lra).
  assert (H2 : Q2R 1 = 1%R) by (unfold Q2R; simpl; lra).
  unfold mid_x, mid_y. fold m.
  rewrite !Q2R_plus, !Q2R_mult, !Q2R_div by assumption. rewrite (Qeq_eqR _ _ Lx), (Qeq_eqR _ _ Ly). rewrite !Q2R_div by assumption. rewrite Pw, !Z2, H1, H2.
  split; field; assumption.
Qed.

Section Surface.
Variables (Pt : Type) (close : Pt -> Pt -> bool) (corners : list (list Pt)) (M : nat) (t : tree) (l : list addr).
Variables (eval normal : nat -> R -> R -> vec3).
Hypothesis Hc : corners <> [].
Hypothesis H4 : forall c, In c corners -> length c = 4.
Hypothesis Et : init_tree close corners M = Some t.
Hypothesis HW : WF t l.
Hypothesis HP : 0 < t_patches t.
Hypothesis U : all_level t M.

Lemma data_table : forall {V} (f : nat -> R -> R -> V),
  id_table (fun _ n => let '(x, y) := reference_midpoint n in Some (f (n_patch n) (Q2R x) (Q2R y))) t (length l)
  = Some (map (fun a => Some (f (pos_patch a) (mid_x a) (mid_y a))) l).
Proof.
  intros V f. apply (id_table_ok _ (fun a => f (pos_patch a) (mid_x a) (mid_y a)) t l M HW HP U).
  intros a n La En. pose proof (wf_node t l HW a n En) as K. destruct (mid_Q2R a n K) as [E1 E2].
  destruct (reference_midpoint n) as [x y]. cbn [fst snd] in E1, E2. rewrite E1, E2, (nk_patch _ _ K). reflexivity.
Qed.

Lemma map_opt_some : forall {A B} (g : A -> B) (r : list A), map_opt (fun x => x) (map (fun a => Some (g a)) r) = Some (map g r).
Proof. intros A B g r. induction r as [|a r IH]; [reflexivity|]. cbn [map map_opt bind]. rewrite IH. reflexivity. Qed.

Lemma push_ok : forall name cols (g : addr -> list R) e, length (se_cells e) = length l -> cols = 1 \/ cols = 3 ->
  push_data name cols (map (fun a => Some (g a)) l) e =
  Some (SurfaceExport (se_mesh e) (se_points e) (se_cells e) (se_normals e) (se_patch_number e) (se_data e ++ [DataArray name cols (map g l)])).
Proof.
  intros name cols g e Le Hcols. unfold push_data. replace ((cols =? 1) || (cols =? 3))%bool with true by (destruct Hcols; subst; reflexivity).
  cbn [assert bind]. rewrite map_length, Le, Nat.eqb_refl. cbn [assert bind]. rewrite map_opt_some. reflexivity.
Qed.

Lemma op_ok : forall o e, se_mesh e = t -> length (se_cells e) = length l -> one_or_three o ->
  run_export_op eval o e = Some (SurfaceExport t (se_points e) (se_cells e) (se_normals e) (se_patch_number e)
     (match o with Clear => [] | _ => se_data e ++ arrays_of eval l o end)).
Proof.
  intros o e Em Le H1. destruct o as [name cols f|name cols f|name cols f|]; cbn [run_export_op one_or_three arrays_of] in *.
  - unfold add_patch_data, get_data_patch. rewrite Em, Le, data_table. cbn [bind]. rewrite (push_ok name cols (fun a => f (pos_patch a) (mid_x a) (mid_y a))) by assumption. rewrite Em. reflexivity.
  - unfold add_space_data, get_data_space, get_data_patch. rewrite Em, Le. rewrite (data_table (fun p x y => f (eval p x y))). cbn [bind].
    rewrite (push_ok name cols (fun a => f (eval (pos_patch a) (mid_x a) (mid_y a)))) by assumption. rewrite Em. reflexivity.
  - unfold add_complex_data, get_data_patch. rewrite Em, Le, data_table. cbn [bind].
    assert (S0 : split_part 0 (map (fun a => Some (f (pos_patch a) (mid_x a) (mid_y a))) l) = map (fun a => Some (map fst (f (pos_patch a) (mid_x a) (mid_y a)))) l).
    { unfold split_part. rewrite map_map. apply map_ext. reflexivity. }
    assert (S1 : split_part 1 (map (fun a => Some (f (pos_patch a) (mid_x a) (mid_y a))) l) = map (fun a => Some (map snd (f (pos_patch a) (mid_x a) (mid_y a)))) l).
    { unfold split_part. rewrite map_map. apply map_ext. reflexivity. }
    rewrite S0, S1. rewrite (push_ok _ cols (fun a => map fst (f (pos_patch a) (mid_x a) (mid_y a)))) by assumption. cbn [bind].
    rewrite (push_ok _ cols (fun a => map snd (f (pos_patch a) (mid_x a) (mid_y a)))) by assumption. cbn [se_mesh se_points se_cells se_normals se_patch_number se_data].
    rewrite Em, <- app_assoc. reflexivity.
  - unfold clear_data. rewrite Em. reflexivity.
Qed.

Lemma run_ok_export : forall os e acc, se_mesh e = t -> length (se_cells e) = length l -> Forall one_or_three os ->
  se_data e = flat_map (arrays_of eval l) acc ->
  run_export eval os e = Some (SurfaceExport t (se_points e) (se_cells e) (se_normals e) (se_patch_number e) (flat_map (arrays_of eval l) (since_clear os acc))).
Proof.
  induction os as [|o os IH]; intros e acc Em Le F D; cbn [run_export].
  - cbn [since_clear]. rewrite <- D, <- Em. destruct e; reflexivity.
  - pose proof (Forall_inv F) as F1. pose proof (Forall_inv_tail F) as F2. rewrite op_ok by assumption. cbn [bind].
    set (e' := SurfaceExport _ _ _ _ _ _). replace (since_clear (o :: os) acc) with (since_clear os (match o with Clear => [] | _ => acc ++ [o] end)) by (destruct o; reflexivity).
    rewrite (IH e' (match o with Clear => [] | _ => acc ++ [o] end)); [reflexivity|reflexivity|assumption|assumption|].
    unfold e'. cbn [se_data]. destruct o; try reflexivity; rewrite D, flat_map_app; cbn [flat_map]; rewrite app_nil_r; reflexivity.
Qed.
End Surface.

Lemma concat_four : forall (cs : list (list nat)) c k d, (forall r, In r cs -> length r = 4) -> c < length cs -> k < 4 ->
  nth (4 * c + k) (concat cs) d = nth k (nth c cs []) d.
Proof.
  induction cs as [|r cs IH]; intros c k d H L Hk; simpl in L; [lia|]. assert (Lr : length r = 4) by (apply H; left; reflexivity). cbn [concat].
  destruct c as [|c].
  - rewrite app_nth1 by lia. reflexivity.
  - rewrite app_nth2 by lia. rewrite Lr. replace (4 * S c + k - 4) with (4 * c + k) by lia. cbn [nth]. apply IH; [intros; apply H; right; assumption|lia|assumption].
Qed.

(** the file written by VTKSurfaceExport for a geometry and a level, after any sequence of addDataSet and clearData
    calls: cell c is the c-th element; its four entries in the connectivity array (between its offset and the
    previous one) are points of the surface at the corners of the element, counter-clockwise; patch number, unit
    normal and all data sets since the last clearData have their values of this element in row c *)
Theorem C71_surface_export : forall (Pt : Type) (close : Pt -> Pt -> bool) corners verts M t eval normal os,
  corners <> [] -> (forall c, In c corners -> length c = 4) -> init_tree close corners M = Some t ->
  fst (patch_vertices close [] corners) = verts -> mesh_ok verts -> fits verts eval -> Forall one_or_three os ->
  exists l e0 e file, traverse t = Some l /\ length l = length corners * 4 ^ M /\
    init_surface_export eval normal t = Some e0 /\ run_export eval os e0 = Some e /\ write_surface e = Some file /\
    vp_number_of_polys file = length l /\ vp_number_of_points file = length (vp_points file) /\
    vp_data file = flat_map (arrays_of eval l) (since_clear os []) /\
    length (vp_connectivity file) = 4 * length l /\ length (vp_offsets file) = length l /\
    length (vp_patch_number file) = length l /\ length (vp_normals file) = length l /\
    forall c, c < length l -> let a := nth c l [] in
      nth c (vp_offsets file) 0 = 4 * c + 4 /\
      (forall k, k < 4 -> let v := nth (4 * c + k) (vp_connectivity file) 0 in
         v < vp_number_of_points file /\ nth v (vp_points file) None = Some (corner_point eval a k)) /\
      nth c (vp_patch_number file) None = Some (pos_patch a) /\
      (let v := normal (pos_patch a) (mid_x a) (mid_y a) in
       v <> (0, 0, 0)%R -> exists s n, nth c (vp_normals file) None = Some n /\ (0 < s)%R /\ n = vscal s v /\ vdot n n = 1%R).
Proof.
  intros Pt close corners verts M t eval normal os Hc H4 Et Ev HM HF Ho.
  destruct (init_tree_ok close corners M H4) as [t' [l [E' [W [P [A ML]]]]]]. assert (t' = t) by congruence. subst t'.
  assert (HP : 0 < t_patches t) by (rewrite P; destruct corners; [congruence|simpl; lia]).
  destruct (uniform_list t l M W A) as [HL HN]. rewrite P in HL.
  destruct (C70_uniform_meshes Pt close corners M t Hc H4 Et) as [_ [npts [Nb Ro]]]. rewrite Ev in Nb, Ro.
  assert (Rc : reachable t) by (exists Pt, close, corners, M, [], t; split; [assumption|]; split; [assumption|]; split; [assumption|]; split; [exact I|reflexivity]).
  assert (Hne : verts <> []).
  { intros E. rewrite E in Ev. destruct corners as [|c r]; [congruence|]. cbn [patch_vertices] in Ev.
    destruct (add_pts close [] c) as [ks p1]. destruct (patch_vertices close p1 r). discriminate. }
  destruct (C52_point_list verts npts t eval HM Nb Ro Hne HF) as [Pl [EP [LP [CP _]]]].
  destruct (C18_indices_in_range verts npts t HM Nb Ro) as [Rg _].
  set (vs := fun a => match t_store t a with Some n => n_verts n | None => [] end).
  assert (Ec : element_list t = Some (map (fun a => Some (vs a)) l)).
  { apply (element_table_ok _ vs t l W HP). intros a n La En. pose proof (nk_verts _ _ (wf_node t l W a n En)) as L. unfold vs. rewrite En.
    destruct (n_verts n) as [|v0 [|v1 [|v2 [|v3 [|]]]]]; try discriminate. reflexivity. }
  assert (L4 : forall a, In a l -> length (vs a) = 4).
  { intros a Ha. apply (wf_leaf t l W) in Ha. destruct Ha as [n [En _]]. unfold vs. rewrite En. apply (nk_verts _ _ (wf_node t l W a n En)). }
  set (e0 := SurfaceExport t Pl (map (fun a => Some (vs a)) l) (map (fun a => Some (normalized (normal (pos_patch a) (mid_x a) (mid_y a)))) l) (map (fun a => Some (pos_patch a)) l) []).
  assert (E0 : init_surface_export eval normal t = Some e0).
  { unfold init_surface_export. rewrite EP. cbn [bind]. rewrite Ec. cbn [bind]. rewrite map_length.
    rewrite (data_table M t l W HP A (fun p x y => normalized (normal p x y))). cbn [bind].
    rewrite (id_table_ok _ pos_patch t l M W HP A); [reflexivity|]. intros a n La En. rewrite (nk_patch _ _ (wf_node t l W a n En)). reflexivity. }
  set (e := SurfaceExport t Pl (se_cells e0) (se_normals e0) (se_patch_number e0) (flat_map (arrays_of eval l) (since_clear os []))).
  assert (Er : run_export eval os e0 = Some e).
  { rewrite (run_ok_export M t l eval W HP A os e0 []); auto. unfold e0. cbn [se_cells]. apply map_length. }
  eexists l, e0, e, _. split; [apply traverse_ok; assumption|]. split; [assumption|]. split; [assumption|]. split; [assumption|].
  split. { unfold write_surface, e, e0. cbn [se_cells se_points se_normals se_patch_number se_data]. rewrite map_opt_some. cbn [bind]. rewrite map_length. reflexivity. }
  cbn [vp_number_of_polys vp_number_of_points vp_points vp_patch_number vp_normals vp_data vp_connectivity vp_offsets].
  assert (Lcc : length (concat (map vs l)) = 4 * length l).
  { clear - L4. induction l as [|a r IH]; [reflexivity|]. cbn [map concat length]. rewrite app_length, L4 by (left; reflexivity). rewrite IH; [lia|]. intros; apply L4; right; assumption. }
  split; [reflexivity|]. split; [reflexivity|]. split; [reflexivity|]. split; [assumption|]. split; [rewrite map_length, seq_length; reflexivity|].
  split; [apply map_length|]. split; [apply map_length|]. intros c Hcl. set (a := nth c l []).
  assert (Ha : In a l) by (apply nth_In; assumption). pose proof (proj1 (wf_leaf t l W a) Ha) as La. pose proof La as [n [En _]].
  assert (Xa : exists_node t a) by (unfold exists_node; congruence).
  split; [|split; [|split]].
  - rewrite (nth_indep _ 0 ((fun i => (i + 1) * 4) 0)) by (rewrite map_length, seq_length; assumption). rewrite (map_nth (fun i => (i + 1) * 4)), seq_nth by assumption. lia.
  - intros k Hk. set (v := nth (4 * c + k) (concat (map vs l)) 0). assert (Vv : v = nth k (n_verts n) 0).
    { unfold v. rewrite concat_four; [|intros r Hr; apply in_map_iff in Hr; destruct Hr as [b [<- Hb]]; apply L4; assumption|rewrite map_length; assumption|assumption].
      rewrite (nth_indep _ [] (vs [])) by (rewrite map_length; assumption). rewrite map_nth. fold a. unfold vs. rewrite En. reflexivity. }
    destruct (Rg a k Xa Hk) as [w [Ew Hw]]. assert (w = v).
    { unfold vertex in Ew. rewrite En in Ew. rewrite Vv. symmetry. apply nth_error_nth. assumption. }
    subst w. split; [lia|]. pose proof (CP a k v Xa Hk Ew) as C. unfold col in C. rewrite (get_nth Pl v None) in C by lia. exact C.
  - rewrite (nth_indep _ None (Some (pos_patch []))) by (rewrite map_length; assumption). rewrite (map_nth (fun a => Some (pos_patch a))). reflexivity.
  - set (v := normal (pos_patch a) (mid_x a) (mid_y a)). intros Hv. set (h := fun a => Some (normalized (normal (pos_patch a) (mid_x a) (mid_y a)))).
    rewrite (nth_indep _ None (h [])) by (rewrite map_length; assumption). rewrite (map_nth h). fold a. unfold h. fold v.
    assert (Vp : (0 < vdot v v)%R).
    { destruct v as [[x y] z]. unfold vdot, vx, vy, vz. cbn [fst snd].
      pose proof (Rle_0_sqr x) as X. pose proof (Rle_0_sqr y) as Y. pose proof (Rle_0_sqr z) as Z. unfold Rsqr in *.
      destruct (Req_dec x 0) as [->|Nx]; [|pose proof (Rsqr_pos_lt x Nx) as Q; unfold Rsqr in Q; lra].
      destruct (Req_dec y 0) as [->|Ny]; [|pose proof (Rsqr_pos_lt y Ny) as Q; unfold Rsqr in Q; lra].
      destruct (Req_dec z 0) as [->|Nz]; [congruence|pose proof (Rsqr_pos_lt z Nz) as Q; unfold Rsqr in Q; lra]. }
    unfold normalized. destruct (Rlt_dec 0 (vdot v v)) as [_|C]; [|contradiction].
    exists (/ vnorm v)%R, (vscal (/ vnorm v) v). split; [reflexivity|].
    assert (Np : (0 < vnorm v)%R) by (apply sqrt_lt_R0; assumption). split; [apply Rinv_0_lt_compat; assumption|]. split; [reflexivity|].
    assert (Sq : (vnorm v * vnorm v = vdot v v)%R) by (apply sqrt_sqrt; lra).
    unfold vdot in Sq |- *. unfold vscal, vx, vy, vz in Sq |- *. cbn [fst snd] in Sq |- *.
    set (q := vnorm v) in *. transitivity ((/ q * / q) * (q * q))%R; [rewrite Sq; ring|field; lra].
Qed.

(** *** grids *)
Section Grid.
Variables x y z : list R.
Notation nx := (length x).
Notation ny := (length y).
Notation nz := (length z).
Notation grid := (flat_map (fun c => flat_map (fun b => map (fun a => (a, b, c)) x) y) z).

Lemma flat_map_len : forall {A B} (f : A -> list B) r n, (forall a, length (f a) = n) -> length (flat_map f r) = n * length r.
Proof. intros A B f r n E. induction r as [|a r IH]; cbn [flat_map length]; [lia|]. rewrite app_length, E, IH. lia. Qed.
Lemma flat_map_at : forall {A B} (f : A -> list B) n, (forall a, length (f a) = n) -> forall r i k da d, i < length r -> k < n ->
  nth (n * i + k) (flat_map f r) d = nth k (f (nth i r da)) d.
Proof.
  intros A B f n E r. induction r as [|a r IH]; intros i k da d Hi Hk; cbn [length] in Hi; [lia|]. cbn [flat_map]. destruct i as [|i].
  - rewrite app_nth1 by (rewrite E; lia). cbn [nth]. f_equal. lia.
  - rewrite app_nth2 by (rewrite E; lia). rewrite E. replace (n * S i + k - n) with (n * i + k) by lia. cbn [nth]. apply IH; [lia|assumption].
Qed.
Lemma row_len : forall (c b : R), length (map (fun a => (a, b, c)) x) = nx.
Proof. intros. apply map_length. Qed.
Lemma plane_len : forall c : R, length (flat_map (fun b => map (fun a => (a, b, c)) x) y) = nx * ny.
Proof. intros c. apply flat_map_len. intros. apply map_length. Qed.
Lemma grid_len : length grid = nx * ny * nz.
Proof. apply (flat_map_len _ z (nx * ny)). apply plane_len. Qed.
Lemma grid_at : forall ix iy iz d, ix < nx -> iy < ny -> iz < nz ->
  nth (ix + nx * iy + nx * ny * iz) grid d = (nth ix x 0, nth iy y 0, nth iz z 0)%R.
Proof.
  intros ix iy iz d Hx1 Hy Hz. replace (ix + nx * iy + nx * ny * iz) with (nx * ny * iz + (nx * iy + ix)) by lia.
  rewrite (flat_map_at _ (nx * ny) plane_len z iz _ 0%R d Hz) by nia.
  rewrite (flat_map_at _ nx (row_len _) y iy ix 0%R d Hy Hx1).
  rewrite (nth_indep _ d ((fun a => (a, nth iy y 0, nth iz z 0)) 0)%R) by (rewrite map_length; assumption).
  rewrite (map_nth (fun a => (a, nth iy y 0, nth iz z 0)%R)). reflexivity.
Qed.

Variable f : vec3 -> list R.
Hypothesis small : (Z.of_nat (nx * ny * nz) <= 2 ^ 31 - 1)%Z.
Definition filled (n : nat) (data : list (option (list R))) : Prop :=
  length data = nx * ny * nz /\ forall j, j < n -> nth j data None = Some (f (nth j grid (0, 0, 0)%R)).

Lemma domain_step_ok : forall iz iy ix data, ix < nx -> iy < ny -> iz < nz -> filled (nx * ny * iz + nx * iy + ix) data ->
  exists data', domain_step x y z f iz iy ix data = Some data' /\ filled (nx * ny * iz + nx * iy + S ix) data'.
Proof.
  intros iz iy ix data Hx1 Hy Hz [L F]. unfold domain_step. set (i := nx * ny * iz + nx * iy + ix) in *.
  assert (Hi : i < nx * ny * nz).
  { unfold i. assert (nx * iy + ix < nx * ny) by nia. assert (nx * ny * S iz <= nx * ny * nz) by (apply Nat.mul_le_mono_l; lia). lia. }
  rewrite Z.mod_small by lia. rewrite Nat2Z.id.
  rewrite (get_nth x ix 0%R Hx1). cbn [bind]. rewrite (get_nth y iy 0%R Hy). cbn [bind]. rewrite (get_nth z iz 0%R Hz). cbn [bind].
  destruct (set_spec data i (Some (f (nth ix x 0, nth iy y 0, nth iz z 0)%R))) as [data' [E [L' N]]]; [lia|].
  exists data'. split; [exact E|]. split; [lia|]. intros j Hj. rewrite N. destruct (Nat.eqb_spec j i) as [->|Ne]; [|apply F; lia].
  f_equal. f_equal. unfold i. rewrite <- (grid_at ix iy iz (0, 0, 0)%R Hx1 Hy Hz). f_equal. lia.
Qed.

Lemma domain_data_ok : domain_data (DomainExport x y z (nx * ny * nz) []) f = Some (map (fun p => Some (f p)) grid).
Proof.
  unfold domain_data. cbn [de_x de_y de_z de_max].
  destruct (for_opt_inv (fun iz => filled (nx * ny * iz)) nz
    (fun iz => for_opt ny (fun iy => for_opt nx (fun ix => domain_step x y z f iz iy ix))) (repeat None (nx * ny * nz))) as [r [E [L F]]].
  - split; [apply repeat_length|]. intros j Hj. lia.
  - intros iz d Hz Fd. destruct (for_opt_inv (fun iy => filled (nx * ny * iz + nx * iy)) ny (fun iy => for_opt nx (fun ix => domain_step x y z f iz iy ix)) d) as [d' [E' F']].
    + replace (nx * ny * iz + nx * 0) with (nx * ny * iz) by lia. exact Fd.
    + intros iy d1 Hy F1. destruct (for_opt_inv (fun ix => filled (nx * ny * iz + nx * iy + ix)) nx (fun ix => domain_step x y z f iz iy ix) d1) as [d2 [E2 F2]].
      * replace (nx * ny * iz + nx * iy + 0) with (nx * ny * iz + nx * iy) by lia. exact F1.
      * intros ix d3 Hx1 F3. apply domain_step_ok; assumption.
      * exists d2. split; [exact E2|]. replace (nx * ny * iz + nx * S iy) with (nx * ny * iz + nx * iy + nx) by lia. exact F2.
    + exists d'. split; [exact E'|]. replace (nx * ny * S iz) with (nx * ny * iz + nx * ny) by lia. exact F'.
  - rewrite E. f_equal. apply (nth_ext _ _ None (Some (f (0, 0, 0)%R))).
    + rewrite map_length, L. symmetry. apply grid_len.
    + intros j Hj. rewrite (map_nth (fun p => Some (f p))). apply F. lia.
Qed.
End Grid.

(** the file written by VTKDomainExport: an x_n by y_n by z_n grid with its points and, for every data set since the
    last clearData, one value per point, at this point and in the order of the points *)
Theorem C71_domain_export : forall x y z os,
  (Z.of_nat (length x * length y * length z) <= 2 ^ 31 - 1)%Z ->
  (forall name cols f, In (Some (name, cols, f)) os -> cols = 1 \/ cols = 3) ->
  exists d0 d, init_domain_export x y z = Some d0 /\ run_domain os d0 = Some d /\
    let file := write_domain d in
    vg_extent file = (Z.of_nat (length x) - 1, Z.of_nat (length y) - 1, Z.of_nat (length z) - 1)%Z /\
    length (vg_points file) = length x * length y * length z /\
    (forall ix iy iz, ix < length x -> iy < length y -> iz < length z ->
       nth (ix + length x * iy + length x * length y * iz) (vg_points file) (0, 0, 0)%R = (nth ix x 0, nth iy y 0, nth iz z 0)%R) /\
    vg_data file = map (fun '(name, cols, f) => DataArray name cols (map f (vg_points file))) (sets_since os []).
Proof.
  intros x y z os Hs Hc. set (grid := flat_map (fun c => flat_map (fun b => map (fun a => (a, b, c)) x) y) z).
  set (arr := fun o : string * nat * (vec3 -> list R) => let '(name, cols, f) := o in DataArray name cols (map f grid)).
  exists (DomainExport x y z (length x * length y * length z) []), (DomainExport x y z (length x * length y * length z) (map arr (sets_since os []))).
  split. { unfold init_domain_export. replace (Z.of_nat (length x * length y * length z) <=? 2 ^ 31 - 1)%Z with true by (symmetry; apply Z.leb_le; assumption). reflexivity. }
  split.
  - change (@nil data_array) with (map arr []). generalize (@nil (string * nat * (vec3 -> list R))). induction os as [|[[[name cols] f]|] os IH]; intros acc; cbn [run_domain sets_since].
    + reflexivity.
    + assert (X : domain_data (DomainExport x y z (length x * length y * length z) (map arr acc)) f = Some (map (fun p => Some (f p)) grid)) by (apply domain_data_ok; assumption).
      unfold add_domain_data. replace ((cols =? 1) || (cols =? 3))%bool with true by (destruct (Hc name cols f (or_introl eq_refl)); subst; reflexivity).
      cbn [assert bind]. rewrite X. cbn [bind]. rewrite map_opt_some. cbn [bind de_x de_y de_z de_max de_data].
      replace (map arr acc ++ [DataArray name cols (map f grid)]) with (map arr (acc ++ [(name, cols, f)])) by (rewrite map_app; reflexivity).
      apply IH. intros n c g Hin. apply (Hc n c g). right. exact Hin.
    + unfold clear_domain_data. cbn [de_x de_y de_z de_max]. apply (IH ltac:(intros n c g Hin; apply (Hc n c g); right; exact Hin) []).
  - cbn [write_domain vg_extent vg_points vg_data de_x de_y de_z de_data]. split; [reflexivity|]. split; [apply grid_len|]. split; [|reflexivity].
    intros. apply grid_at; assumption.
Qed.

(** VTKPointExport: the points with their numbers and the rows of the data set as given *)
Theorem C71_point_export : forall pts name cols rows, cols = 1 \/ cols = 3 ->
  exists e, add_point_data name cols rows (init_point_export pts) = Some e /\
    let file := write_points e in
    vq_points file = pts /\ vq_number_of_points file = length pts /\ length (vq_number file) = length pts /\
    (forall i, i < length pts -> nth i (vq_number file) 0 = i) /\ vq_data file = [DataArray name cols rows].
Proof.
  intros pts name cols rows Hc. unfold add_point_data. replace ((cols =? 1) || (cols =? 3))%bool with true by (destruct Hc; subst; reflexivity).
  eexists. split; [reflexivity|]. cbn. split; [reflexivity|]. split; [reflexivity|]. split; [apply seq_length|]. split; [|reflexivity].
  intros i Hi. apply seq_nth. assumption.
Qed.
Theorem C71_point_export_complex : forall pts name cols rows, cols = 1 \/ cols = 3 ->
  exists e, add_point_complex name cols rows (init_point_export pts) = Some e /\
    vq_data (write_points e) = [DataArray (name ++ "_real") cols (map (map fst) rows); DataArray (name ++ "_imag") cols (map (map snd) rows)].
Proof.
  intros pts name cols rows Hc. unfold add_point_complex, add_point_data. replace ((cols =? 1) || (cols =? 3))%bool with true by (destruct Hc; subst; reflexivity).
  eexists. split; reflexivity.
Qed.
(** the number of rows is not checked: a file may have a data array that does not fit its points *)
Theorem C71_point_rows_refuted : exists pts name rows e file,
  add_point_data name 1 rows (init_point_export pts) = Some e /\ write_points e = file /\
  exists a, In a (vq_data file) /\ length (da_rows a) <> vq_number_of_points file.
Proof.
  exists [(0, 0, 0)%R], "u"%string, [[0%R]; [1%R]], (PointExport [(0, 0, 0)%R] [0] [DataArray "u" 1 [[0%R]; [1%R]]]). eexists. split; [reflexivity|]. split; [reflexivity|].
  eexists. split; [left; reflexivity|]. cbn. discriminate.
Qed.

(** two unit squares sharing an edge, at every level, with a call history *)
Example two_squares_exported : forall M, exists t,
  init_tree Nat.eqb two_squares M = Some t /\ fst (patch_vertices Nat.eqb [] two_squares) = two_squares /\
  exists e0 e file, init_surface_export two_eval (fun _ _ _ => (0, 0, 2)%R) t = Some e0 /\
    run_export two_eval [AddPatch "old" 1 (fun _ _ _ => [0%R]); Clear; AddSpace "x" 1 (fun p => [vx p]); AddComplex "g" 1 (fun p x y => [(x, y)])] e0 = Some e /\
    write_surface e = Some file /\ vp_number_of_polys file = 2 * 4 ^ M /\
    map da_name (vp_data file) = ["x"; "g_real"; "g_imag"]%string.
Proof.
  intros M. destruct (init_tree_ok Nat.eqb two_squares M) as [t [l [E _]]].
  { intros c [<-|[<-|[]]]; reflexivity. }
  exists t. split; [assumption|]. split; [reflexivity|]. destruct two_squares_fit as [Hm Hf].
  destruct (C71_surface_export nat Nat.eqb two_squares two_squares M t two_eval (fun _ _ _ => (0, 0, 2)%R)
    [AddPatch "old" 1 (fun _ _ _ => [0%R]); Clear; AddSpace "x" 1 (fun p => [vx p]); AddComplex "g" 1 (fun p x y => [(x, y)])])
    as [l' [e0 [e [file [_ [L [E0 [E1 [E2 [Np [_ [D _]]]]]]]]]]]]; try assumption; try reflexivity; try discriminate.
  - intros c [<-|[<-|[]]]; reflexivity.
  - repeat constructor.
  - exists e0, e, file. split; [assumption|]. split; [assumption|]. split; [assumption|]. split; [rewrite Np, L; reflexivity|]. rewrite D. reflexivity.
Qed.
Example grid_exported : exists d, init_domain_export [0; 1]%R [5]%R [7; 8; 9]%R = Some d /\
  nth 3 (vg_points (write_domain d)) (0, 0, 0)%R = (1, 5, 8)%R.
Proof. eexists. split; reflexivity. Qed.

(* BEGIN ASSUMPTIONS *)
Print Assumptions C70_element_list.
Print Assumptions C70_labels_distinct.
Print Assumptions C70_labels_uniform.
Print Assumptions C70_identify_patch.
Print Assumptions C70_boundary_labels.
Print Assumptions C70_uniform_meshes.
Print Assumptions C70_label_is_one_refuted.
Print Assumptions C70_local_refinement_refuted.
Print Assumptions C70_balls.
Print Assumptions C71_surface_export.
Print Assumptions C71_domain_export.
Print Assumptions C71_point_export.
Print Assumptions C71_point_export_complex.
Print Assumptions C71_point_rows_refuted.
