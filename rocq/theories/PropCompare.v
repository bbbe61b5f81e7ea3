(** C35: comparison of elements; C36, C56 for pairs of elements of a mesh. *)
From Coq Require Import List Arith Lia Bool ZArith Reals Lra QArith Qreals.
From Verif Require Import RSum ModelBase ModelBernstein ModelTree ModelBall ModelQuad ModelAssembly ModelDuffy SpecQuad SpecTree SpecMesh SpecBall SpecDuffy
  ProofTree ProofTreeWF ProofTreeHist ProofTreeGeo ProofTreeLook ProofConfHist ProofPoints ProofBall ProofDuffy ProofDuffyInt ProofCompare ProofAssembly PropTopo PropBall PropAssembly PropDuffy.
Import ListNotations.
Local Close Scope Q_scope.
Local Open Scope nat_scope.

Lemma describes_iff : forall (v1 v2 : nat -> nat) (S : nat -> nat -> Prop) res,
  (forall k m, k < 4 -> m < 4 -> (v1 k = v2 m <-> S k m)) -> describes_pair S res -> describes v1 v2 res.
Proof.
  intros v1 v2 S [[r1 r2] c] H D. destruct c as [|[|[|[|[|c]]]]]; cbn in *; try contradiction.
  - intros k m Hk Hm E. apply H in E; [|assumption..]. exact (D k m Hk Hm E).
  - destruct D as [A [B D]]. split; [assumption|]. split; [assumption|]. intros k m Hk Hm. rewrite H by assumption. apply D; assumption.
  - destruct D as [A [B D]]. split; [assumption|]. split; [assumption|]. intros k m Hk Hm. rewrite H by assumption. apply D; assumption.
Qed.
Lemma describes_sym : forall v1 v2 r1 r2 c, describes v1 v2 (r1, r2, c) -> describes v2 v1 (r2, r1, c).
Proof.
  intros v1 v2 r1 r2 c D. destruct c as [|[|[|[|[|c]]]]]; cbn in *; try contradiction.
  - intros k m Hk Hm E. apply (D m k Hm Hk). auto.
  - apply common_edge_sym, D.
  - apply common_vertex_sym, D.
Qed.

(** what the result of compareElements says about two elements e1, e2 (addresses a1, a2) on the surface eval *)
Definition classified (eval : nat -> R -> R -> R * R * R) (a1 a2 : addr) (e1 e2 : element) : Prop :=
  (a1 = a2 -> compare_elements e1 e2 = ((4, 4, 2), 0%R)) /\
  (a1 <> a2 -> exists r1 r2 c d,
     compare_elements e1 e2 = ((r1, r2, c), d) /\ compare_elements e2 e1 = ((r2, r1, c), d) /\
     describes (e_vert e1) (e_vert e2) (r1, r2, c) /\
     (c <> 0 -> d = 0%R) /\
     (c = 3 -> forall u, (0 <= u <= 1)%R -> element_point eval a1 (tau u 0 r1) = element_point eval a2 (tau (1 - u) 0 r2)) /\
     (c = 4 -> element_point eval a1 (tau 0 0 r1) = element_point eval a2 (tau 0 0 r2))).

(** every pair of elements of the same level (at least 1) of a mesh of consistently oriented patches *)
Theorem C35_classification : forall (Pt : Type) (close : Pt -> Pt -> bool) corners verts t eval,
  corners <> [] -> from_geometry close corners verts t -> mesh_ok verts -> oriented verts -> fits verts eval ->
  exists P b, point_list eval t = Some P /\ enclosings t P = Some b /\
    forall a1 a2, is_leaf t a1 -> is_leaf t a2 -> pos_level a1 = pos_level a2 -> 1 <= pos_level a1 ->
    exists e1 e2, element_of t b a1 = Some e1 /\ element_of t b a2 = Some e2 /\
      (forall k, k < 4 -> vertex t a1 k = Some (e_vert e1 k) /\ vertex t a2 k = Some (e_vert e2 k)) /\
      classified eval a1 a2 e1 e2.
Proof.
  intros Pt close corners verts t eval Hc G M O F.
  destruct (C15_balls_enclose_surface_corners Pt close corners verts t eval Hc G M F) as [P [b [EP [Eb B]]]].
  exists P, b. split; [assumption|]. split; [assumption|]. clear EP Eb P. intros a1 a2 L1 L2 Lv Hl.
  destruct (C18_geometries _ _ _ _ _ G) as [npts [N Ro]]. destruct (over_wf verts npts t M N Ro) as [Ov [l W]].
  assert (Ex : forall a, is_leaf t a -> exists_node t a) by (intros a [n [En _]]; unfold exists_node; congruence).
  pose proof (Ex a1 L1) as X1. pose proof (Ex a2 L2) as X2.
  assert (Un : forall a : addr, under a a) by (intros a; exists []; reflexivity).
  destruct (B a1 a1 0 X1 L1 (Un _) ltac:(lia)) as [x1 [Bx1 _]]. destruct (B a2 a2 0 X2 L2 (Un _) ltac:(lia)) as [x2 [Bx2 _]].
  destruct L1 as [n1 [En1 R1]]. destruct L2 as [n2 [En2 R2]].
  set (e1 := {| e_addr := a1; e_node := n1; e_mid := fst x1; e_rad := snd x1 |}).
  set (e2 := {| e_addr := a2; e_node := n2; e_mid := fst x2; e_rad := snd x2 |}).
  exists e1, e2. split; [unfold element_of; rewrite En1, Bx1; reflexivity|]. split; [unfold element_of; rewrite En2, Bx2; reflexivity|].
  assert (V : forall k, k < 4 -> vertex t a1 k = Some (e_vert e1 k) /\ vertex t a2 k = Some (e_vert e2 k)).
  { intros k Hk. unfold vertex, e_vert, e1, e2. cbn [e_node]. rewrite En1, En2. split; apply nth_error_nth'; [rewrite (nk_verts _ _ (wf_node t l W a1 n1 En1))|rewrite (nk_verts _ _ (wf_node t l W a2 n2 En2))]; assumption. }
  split; [exact V|].
  assert (K1 : e_level e1 = pos_level a1) by (apply (nk_level _ _ (wf_node t l W a1 n1 En1))).
  assert (K2 : e_level e2 = pos_level a1) by (rewrite Lv; apply (nk_level _ _ (wf_node t l W a2 n2 En2))).
  split.
  { intros E. unfold compare_elements. cbn [e_addr e1 e2]. rewrite E, addr_eqb_refl. reflexivity. }
  intros Ne.
  pose proof (wf_vaddr t l a1 W X1) as Va1. pose proof (wf_vaddr t l a2 W X2) as Va2.
  destruct (pos_xy_lt a1 Va1) as [Hx1 Hy1]. destruct (pos_xy_lt a2 Va2) as [Hx2 Hy2]. rewrite <- Lv in Hx2, Hy2.
  assert (HP : forall a, exists_node t a -> pos_patch a < length verts).
  { intros a Ha. destruct (wf_addr_patch t l a W Ha) as [_ H]. destruct Ov as [_ [_ E]]. congruence. }
  pose proof (HP a1 X1) as P1. pose proof (HP a2 X2) as P2.
  set (Lb := pos_level a1) in *. assert (HE : 2 <= 2 ^ Lb) by (change 2 with (2 ^ 1) at 1; apply Nat.pow_le_mono_r; lia).
  assert (SH : forall k m, k < 4 -> m < 4 -> (e_vert e1 k = e_vert e2 m <-> shared verts (2 ^ Lb) (pos_patch a1) (pos_x a1) (pos_y a1) (pos_patch a2) (pos_x a2) (pos_y a2) k m)).
  { intros k m Hk Hm. unfold shared. pose proof (C18_index_is_point verts npts t M N Ro a1 a2 k m Lb X1 X2 Hk Hm ltac:(lia) ltac:(lia)) as I.
    fold Lb in I. rewrite <- Lv, Nat.sub_diag in I. cbn [Nat.pow] in I. rewrite !Nat.mul_1_l in I. rewrite <- I.
    rewrite (proj1 (V k Hk)), (proj2 (V m Hm)). split; congruence. }
  assert (GD : exists res, good verts (2 ^ Lb) (pos_patch a1) (pos_x a1) (pos_y a1) (pos_patch a2) (pos_x a2) (pos_y a2) res).
  { destruct (Nat.eq_dec (pos_patch a1) (pos_patch a2)) as [Ep|Np].
    - rewrite <- Ep. apply pair_same; try assumption. intros E. injection E as Ex' Ey'. apply Ne. apply addr_inj; assumption.
    - apply pair_diff; assumption. }
  destruct GD as [[[r1 r2] c] [D MT]]. cbn [fst snd] in MT.
  pose proof (describes_iff _ _ _ _ SH D) as D1. pose proof (describes_sym _ _ _ _ _ D1) as D2.
  (* common vertices *)
  assert (CP : forall k m, k < 4 -> m < 4 -> e_vert e1 k = e_vert e2 m -> corner_point eval a1 k = corner_point eval a2 m).
  { intros k m Hk Hm E. apply SH in E; [|assumption..]. unfold corner_point. fold Lb. rewrite <- Lv.
    assert (EE : (2 ^ Lb)%R = INR (2 ^ Lb)) by (rewrite pow_INR; reflexivity). rewrite EE.
    eapply same_image; try eassumption. lia. }
  assert (TC : forall k m, k < 4 -> m < 4 -> e_vert e1 k = e_vert e2 m -> element_distance e1 e2 = 0%R).
  { intros k m Hk Hm E. apply (touching e1 e2 (corner_point eval a1 k)).
    - destruct (B a1 a1 k X1 ltac:(exists n1; auto) (Un _) Hk) as [y [By Iy]]. assert (y = x1) by congruence. subst y. cbn [e_mid e_rad e1]. destruct x1; exact Iy.
    - rewrite (CP k m Hk Hm E). destruct (B a2 a2 m X2 ltac:(exists n2; auto) (Un _) Hm) as [y [By Iy]]. assert (y = x2) by congruence. subst y. cbn [e_mid e_rad e2]. destruct x2; exact Iy. }
  assert (Na : addr_eqb a1 a2 = false) by (apply addr_eqb_neq; exact Ne).
  assert (Na' : addr_eqb a2 a1 = false) by (apply addr_eqb_neq; congruence).
  assert (Thr : ~ (1 / 2 / 2 ^ Lb < 0)%R). { apply Rle_not_lt. apply Rmult_le_pos; [lra|]. apply Rlt_le, Rinv_0_lt_compat, pow_lt. lra. }
  assert (C1 : forall d, element_distance e1 e2 = d -> c <> 0 -> d = 0%R -> compare_elements e1 e2 = ((r1, r2, c), d) /\ compare_elements e2 e1 = ((r2, r1, c), d)).
  { intros d Ed Hc0 Hd. unfold compare_elements. cbn [e_addr e1 e2]. rewrite Na, Na'. fold e1 e2. cbv zeta. rewrite (distance_sym e2 e1), Ed, K1, K2, Hd. fold Lb.
    destruct (Rlt_dec _ _) as [H|_]; [contradiction|].
    rewrite (describes_compare _ _ _ D1), (describes_compare _ _ _ D2) by (cbn; assumption). auto. }
  destruct (Nat.eq_dec c 0) as [->|Hc0].
  - exists 4, 4, 0, (element_distance e1 e2).
    split; [|split; [|split; [exact D1|split; [congruence|split; discriminate]]]].
    + unfold compare_elements. cbn [e_addr e1 e2]. rewrite Na. fold e1 e2. cbv zeta. rewrite K1. rewrite (compare_none _ _ D1). destruct (Rlt_dec _ _); reflexivity.
    + unfold compare_elements. cbn [e_addr e1 e2]. rewrite Na'. fold e1 e2. cbv zeta. rewrite K2, (distance_sym e2 e1). rewrite (compare_none _ _ D2). destruct (Rlt_dec _ _); reflexivity.
  - assert (T0 : element_distance e1 e2 = 0%R).
    { clear - D1 TC Hc0. destruct c as [|[|[|[|[|c]]]]]; try contradiction.
      - destruct D1 as [A [B D]]. apply (TC r1 ((r2 + 1) mod 4)); try assumption; [apply Nat.mod_upper_bound; lia|]. apply D; try assumption; [apply Nat.mod_upper_bound; lia|]. auto.
      - destruct D1 as [A [B D]]. apply (TC r1 r2); try assumption. apply D; auto. }
    destruct (C1 0%R T0 Hc0 eq_refl) as [E1 E2]. exists r1, r2, c, 0%R. split; [exact E1|]. split; [exact E2|]. split; [exact D1|]. split; [reflexivity|]. split.
    + intros -> u Hu. destruct D1 as [A [B' _]]. unfold element_point. fold Lb. rewrite <- Lv. eapply matched_points; try eassumption. apply MT. reflexivity.
    + intros ->. destruct D1 as [A [B' D']]. pose proof (CP r1 r2 A B' ltac:(apply D'; auto)) as C. unfold corner_point in C. unfold element_point.
      fold Lb in C. fold Lb. rewrite !plus_INR in C. rewrite <- Lv in *.
      assert (TT : forall r, r < 4 -> tau 0 0 r = (INR (quad_x r), INR (quad_y r))) by (intros r Hr; four r; cbn; f_equal; ring).
      rewrite !TT by assumption. cbn [fst snd]. exact C.
Qed.

(** ** C56: the local matrices of a pair and of the exchanged pair are transposes *)
Theorem C56_bilinear_form : forall K p order rules e1 e2 r1 r2 c d m1 m2,
  symmetric_kernel K -> (forall k, exists x w, rules k = (x, w) /\ symmetric_rule x w) ->
  compare_elements e1 e2 = ((r1, r2, c), d) -> compare_elements e2 e1 = ((r2, r1, c), d) ->
  (e_addr e1 = e_addr e2 -> e1 = e2) -> e_level e1 = e_level e2 ->
  let GS := fun k => tensor_rule (rules k) in
  let far e := ffield_points (e_h e) e (GS (farfield_degree p order)) in
  evaluate_bilinear_form K p order GS e1 e2 (far e1) (far e2) = Some m1 ->
  evaluate_bilinear_form K p order GS e2 e1 (far e2) (far e1) = Some m2 ->
  forall a b, m2 b a = m1 a b.
Proof.
  intros K p order rules e1 e2 r1 r2 c d m1 m2 S HR C1 C2 HA HL GS far. unfold evaluate_bilinear_form. rewrite C1, C2, <- HL. cbn [fst snd].
  assert (Hh : e_h e1 = e_h e2) by (unfold e_h, get_h; f_equal; unfold e_level in HL; rewrite HL; reflexivity).
  set (nf := if (farfield_degree p order <=? nearfield_degree p order d (e_level e1))%Z then nearfield_degree p order d (e_level e1) else farfield_degree p order).
  destruct (nf <? max_quadrature_degree)%Z; [|discriminate]. destruct (HR nf) as [x [w [ER Hs]]].
  assert (EG : GS nf = tensor_rule (x, w)) by (unfold GS; rewrite ER; reflexivity).
  pose proof (fun a b => C56_symmetric K e1 r1 e2 r2 x w a b S Hs Hh) as SY. cbv zeta in SY.
  destruct (compare_case _ _ _ _ C1) as [Cc|[[Cc A]|[Cc|Cc]]]; cbn [fst snd] in Cc; subst c; cbn [fst snd].
  - destruct (Z.eqb_spec nf (farfield_degree p order)) as [En|_].
    + unfold far. rewrite <- En, EG, Hh. intros H1 H2 a b. injection H1 as <-. injection H2 as <-. rewrite !C36_precomputed by (apply Hs || auto). apply SY.
    + rewrite EG. intros H1 H2 a b. injection H1 as <-. injection H2 as <-. apply SY.
  - rewrite EG. intros H1 H2 a b. injection H1 as <-. injection H2 as <-. rewrite <- (HA A). apply SY.
  - rewrite EG. intros H1 H2 a b. injection H1 as <-. injection H2 as <-. apply SY.
  - rewrite EG. intros H1 H2 a b. injection H1 as <-. injection H2 as <-. apply SY.
Qed.

(** ** the precomputed far field points *)
Lemma set_last : forall {A} (l : list A) x y, set (l ++ [x]) (length l) y = Some (l ++ [y]).
Proof. induction l as [|z l IH]; intros x y; [reflexivity|]. cbn [app length set]. rewrite IH. reflexivity. Qed.
Lemma ffield_loop_ok : forall h Q els acc, 0 < length (fst Q) ->
  (forall i, i < length els -> exists e, nth_error els i = Some e /\ n_id (e_node e) = length acc + i) ->
  ffield_loop h Q els acc = Some (acc ++ map (fun e => Some (ffield_points h e Q)) els).
Proof.
  intros h Q els. induction els as [|e r IH]; intros acc HQ H; cbn [ffield_loop map]; [rewrite app_nil_r; reflexivity|].
  destruct (H 0 ltac:(cbn; lia)) as [e' [He Hi]]. cbn in He. injection He as <-. rewrite Nat.add_0_r in Hi.
  replace (length (fst Q) =? 0) with false by (symmetry; apply Nat.eqb_neq; lia). rewrite Hi, set_last. cbn [bind].
  rewrite IH; [|assumption|].
  - rewrite <- app_assoc. reflexivity.
  - intros i Hi'. destruct (H (S i) ltac:(cbn; lia)) as [e' [He Hn]]. exists e'. split; [exact He|]. rewrite app_length. cbn. lia.
Qed.
(** the elements of the mesh, with their balls, in the order of the iterator *)
Definition mesh_with_balls (t : tree) (b : balls) (els : list element) : Prop :=
  exists l, traverse t = Some l /\ map_opt (element_of t b) l = Some els.
Lemma elements_nth : forall t b l els, map_opt (element_of t b) l = Some els -> length els = length l /\
  forall i, i < length l -> exists e, nth_error els i = Some e /\ e_addr e = nth i l [] /\ t_store t (nth i l []) = Some (e_node e) /\ element_of t b (nth i l []) = Some e.
Proof.
  intros t b l. induction l as [|a l IH]; intros els E; cbn [map_opt] in E.
  - injection E as <-. split; [reflexivity|]. simpl. intros; lia.
  - apply bind_some in E. destruct E as [e [Ea E]]. apply bind_some in E. destruct E as [r [Er E]]. injection E as <-.
    destruct (IH r Er) as [L H]. split; [simpl; lia|]. intros [|i] Hi; simpl.
    + exists e. split; [reflexivity|]. pose proof Ea as Ea'. unfold element_of in Ea. apply bind_some in Ea. destruct Ea as [n [En Ea]]. apply bind_some in Ea. destruct Ea as [x [Ex Ea]]. injection Ea as <-. auto.
    + apply H. simpl in Hi. lia.
Qed.
Lemma uniform_elements : forall {Pt} (close : Pt -> Pt -> bool) corners M t b els,
  corners <> [] -> (forall c, In c corners -> length c = 4) -> init_tree close corners M = Some t -> mesh_with_balls t b els ->
  (forall i, i < length els -> exists e, nth_error els i = Some e /\ n_id (e_node e) = i) /\
  (forall e, In e els -> e_level e = M /\ is_leaf t (e_addr e) /\ element_of t b (e_addr e) = Some e /\ pos_level (e_addr e) = M).
Proof.
  intros Pt close corners M t b els Hc H4 E [l [El Em]].
  destruct (init_tree_ok close corners M H4) as [t' [l' [E' [W [P [A ML]]]]]]. rewrite E in E'. injection E' as <-.
  assert (HP : 0 < t_patches t) by (rewrite P; destruct corners; [congruence|simpl; lia]).
  rewrite (traverse_ok t l' W HP) in El. injection El as <-. destruct (elements_nth t b l' els Em) as [L H].
  destruct (uniform_list t l' M W A) as [HL HN]. split.
  - intros i Hi. rewrite L in Hi. destruct (H i Hi) as [e [He [_ [Se _]]]]. exists e. split; [assumption|].
    rewrite (nk_id _ _ (wf_node t l' W _ _ Se)). apply HN. assumption.
  - intros e He. apply In_nth_error in He. destruct He as [i Hi]. assert (Hl : i < length els) by (apply nth_error_Some; congruence).
    rewrite L in Hl. destruct (H i Hl) as [e' [He' [Ea [Se Ee]]]]. assert (e' = e) by congruence. subst e'. rewrite Ea.
    assert (I : In (nth i l' []) l') by (apply nth_In; exact Hl). pose proof (A _ (proj1 (wf_leaf t l' W _) I)) as Lv.
    split; [|split; [apply (wf_leaf t l' W), I|split; [exact Ee|exact Lv]]]. unfold e_level. rewrite (nk_level _ _ (wf_node t l' W _ _ Se)). exact Lv.
Qed.
Theorem C36_far_field_points : forall (Pt : Type) (close : Pt -> Pt -> bool) corners M t b els Q,
  corners <> [] -> (forall c, In c corners -> length c = 4) -> init_tree close corners M = Some t -> mesh_with_balls t b els ->
  0 < length (fst Q) ->
  exists ff, compute_ffield_qnodes Q els = Some ff /\
    forall e, In e els -> nth_error ff (n_id (e_node e)) = Some (Some (ffield_points (e_h e) e Q)).
Proof.
  intros Pt close corners M t b els Q Hc H4 E Me HQ. destruct (uniform_elements close corners M t b els Hc H4 E Me) as [Ids Lv].
  assert (Hh : forall e e', In e els -> In e' els -> e_h e = e_h e').
  { intros e e' He He'. destruct (Lv e He) as [L1 _]. destruct (Lv e' He') as [L2 _]. unfold e_level in L1, L2. unfold e_h, get_h. rewrite L1, L2. reflexivity. }
  assert (N : exists e0, get els 0 = Some e0 /\ In e0 els).
  { destruct els as [|e0 r]; [|exists e0; split; [reflexivity|left; reflexivity]]. exfalso. destruct Me as [l [El Em]]. destruct (elements_nth t b l [] Em) as [L _].
    destruct (init_tree_ok close corners M H4) as [t' [l' [E' [W [P [A ML]]]]]]. rewrite E in E'. injection E' as <-.
    assert (HP : 0 < t_patches t) by (rewrite P; destruct corners; [congruence|simpl; lia]).
    rewrite (traverse_ok t l' W HP) in El. injection El as <-. destruct (uniform_list t l' M W A) as [HL _]. rewrite P in HL. cbn in L.
    assert (0 < length corners * 4 ^ M) by (apply Nat.mul_pos_pos; [destruct corners; [congruence|simpl; lia]|apply Nat.neq_0_lt_0, Nat.pow_nonzero; lia]). lia. }
  destruct N as [e0 [E0 I0]]. unfold compute_ffield_qnodes. rewrite E0. cbn [bind]. rewrite ffield_loop_ok by assumption. cbn [app].
  eexists. split; [reflexivity|]. intros e He. pose proof He as He'. apply In_nth_error in He. destruct He as [i Hi].
  assert (Hl : i < length els) by (apply nth_error_Some; congruence). destruct (Ids i Hl) as [e' [Hn Hd]]. assert (e' = e) by congruence. subst e'.
  rewrite Hd. rewrite nth_error_map, Hi. cbn [option_map]. rewrite (Hh e0 e I0 He'). reflexivity.
Qed.

(** all pairs of elements of a uniformly refined mesh: the local matrices contain the exact integrals of polynomial
    integrands, and are transposes of each other for symmetric kernels *)
Theorem C36_mesh : forall (Pt : Type) (close : Pt -> Pt -> bool) corners M t b els rules p order K D ff,
  corners <> [] -> (forall c, In c corners -> length c = 4) -> init_tree close corners M = Some t -> mesh_with_balls t b els ->
  (forall d, exists x w, rules d = (x, w) /\ exact_rule (D + 4) x w /\ 0 < length w) ->
  let GS := fun d => tensor_rule (rules d) in
  compute_ffield_qnodes (GS (farfield_degree p order)) els = Some ff ->
  forall e1 e2 ff1 ff2 m, In e1 els -> In e2 els ->
  nth_error ff (n_id (e_node e1)) = Some (Some ff1) -> nth_error ff (n_id (e_node e2)) = Some (Some ff2) ->
  evaluate_bilinear_form K p order GS e1 e2 ff1 ff2 = Some m ->
  forall i j v, poly4 D (fun s u => K e1 s e2 u i j) -> integral4 (fun s u => K e1 s e2 u i j) v ->
  m i j = (v / 2 ^ M / 2 ^ M)%R.
Proof.
  intros Pt close corners M t b els rules p order K D ff Hc H4 E Me HR GS Ef e1 e2 ff1 ff2 m I1 I2 F1 F2 B i j v P4 I4.
  destruct (uniform_elements close corners M t b els Hc H4 E Me) as [Ids Lv].
  destruct (C36_far_field_points Pt close corners M t b els (GS (farfield_degree p order)) Hc H4 E Me) as [ff' [Ef' Hf]].
  { unfold GS. destruct (HR (farfield_degree p order)) as [x [w [-> [[Lxw _] Lw]]]]. rewrite tensor_len by exact Lxw. unfold q_size, tensor_rule. cbn [fst snd]. rewrite map_length, seq_length.
    apply Nat.mul_pos_pos; exact Lw. }
  assert (ff' = ff) by congruence. subst ff'. pose proof (Hf e1 I1) as G1. pose proof (Hf e2 I2) as G2.
  assert (ff1 = ffield_points (e_h e1) e1 (GS (farfield_degree p order))) by congruence.
  assert (Hh : e_h e2 = e_h e1). { destruct (Lv e1 I1) as [L1 _]. destruct (Lv e2 I2) as [L2 _]. unfold e_level in L1, L2. unfold e_h, get_h. rewrite L1, L2. reflexivity. }
  assert (ff2 = ffield_points (e_h e1) e2 (GS (farfield_degree p order))) by congruence. subst ff1 ff2.
  rewrite (C36_bilinear_form K p order rules e1 e2 D m) with (v := v); try assumption.
  - assert (H : e_h e1 = (1 / 2 ^ M)%R).
    { destruct (Lv e1 I1) as [L1 _]. unfold e_level in L1. unfold e_h, get_h. rewrite L1, Q2R_div by apply pow2Q_neq. rewrite Q2R_pow2. f_equal. unfold Q2R. cbn. lra. }
    rewrite H. field. apply pow2_neq.
  - intros d. destruct (HR d) as [x [w [R1 [R2 _]]]]. eauto.
  - intros Ea. destruct (Lv e1 I1) as [_ [_ [A1 _]]]. destruct (Lv e2 I2) as [_ [_ [A2 _]]]. congruence.
Qed.
Theorem C56_mesh : forall (Pt : Type) (close : Pt -> Pt -> bool) corners M t eval P b els rules p order K ff,
  corners <> [] -> (forall c, In c corners -> length c = 4) -> init_tree close corners M = Some t -> 1 <= M ->
  let verts := fst (patch_vertices close [] corners) in
  mesh_ok verts -> oriented verts -> fits verts eval -> point_list eval t = Some P -> enclosings t P = Some b -> mesh_with_balls t b els ->
  symmetric_kernel K -> (forall d, exists x w, rules d = (x, w) /\ symmetric_rule x w /\ 0 < length w) ->
  let GS := fun d => tensor_rule (rules d) in
  compute_ffield_qnodes (GS (farfield_degree p order)) els = Some ff ->
  forall e1 e2 ff1 ff2 m1 m2, In e1 els -> In e2 els ->
  nth_error ff (n_id (e_node e1)) = Some (Some ff1) -> nth_error ff (n_id (e_node e2)) = Some (Some ff2) ->
  evaluate_bilinear_form K p order GS e1 e2 ff1 ff2 = Some m1 -> evaluate_bilinear_form K p order GS e2 e1 ff2 ff1 = Some m2 ->
  forall i j, m2 j i = m1 i j.
Proof.
  intros Pt close corners M t eval P b els rules p order K ff Hc H4 E HM verts MO OR FI EP Eb Me SK HR GS Ef e1 e2 ff1 ff2 m1 m2 I1 I2 F1 F2 B1 B2 i j.
  destruct (uniform_elements close corners M t b els Hc H4 E Me) as [Ids Lv].
  destruct (C36_far_field_points Pt close corners M t b els (GS (farfield_degree p order)) Hc H4 E Me) as [ff' [Ef' Hf]].
  { unfold GS. destruct (HR (farfield_degree p order)) as [x [w [-> [[Lxw _] Lw]]]]. rewrite tensor_len by exact Lxw. unfold q_size, tensor_rule. cbn [fst snd]. rewrite map_length, seq_length. apply Nat.mul_pos_pos; exact Lw. }
  assert (ff' = ff) by congruence. subst ff'. pose proof (Hf e1 I1) as G1. pose proof (Hf e2 I2) as G2.
  assert (ff1 = ffield_points (e_h e1) e1 (GS (farfield_degree p order))) by congruence.
  assert (ff2 = ffield_points (e_h e2) e2 (GS (farfield_degree p order))) by congruence. subst ff1 ff2.
  destruct (Lv e1 I1) as [L1 [Lf1 [A1 V1]]]. destruct (Lv e2 I2) as [L2 [Lf2 [A2 V2]]].
  assert (G : from_geometry close corners verts t) by (exists M, [], t; split; [reflexivity|]; split; [exact H4|]; split; [exact E|]; split; [exact I|reflexivity]).
  destruct (C35_classification Pt close corners verts t eval Hc G MO OR FI) as [P' [b' [EP' [Eb' CL]]]].
  assert (P' = P) by congruence. subst P'. assert (b' = b) by congruence. subst b'.
  destruct (CL (e_addr e1) (e_addr e2) Lf1 Lf2 ltac:(congruence) ltac:(lia)) as [e1' [e2' [A1' [A2' [_ [CS CD]]]]]].
  assert (e1' = e1) by congruence. assert (e2' = e2) by congruence. subst e1' e2'.
  assert (EX : exists r1 r2 c d, compare_elements e1 e2 = ((r1, r2, c), d) /\ compare_elements e2 e1 = ((r2, r1, c), d)).
  { destruct (addr_eqb (e_addr e1) (e_addr e2)) eqn:Ea.
    - apply addr_eqb_eq in Ea. assert (e1 = e2) by congruence. subst e2. exists 4, 4, 2, 0%R. split; apply CS; reflexivity.
    - destruct (CD ltac:(intros H; rewrite H, addr_eqb_refl in Ea; discriminate)) as [r1 [r2 [c [d [C1 [C2 _]]]]]]. exists r1, r2, c, d. auto. }
  destruct EX as [r1 [r2 [c [d [C1 C2]]]]].
  apply (C56_bilinear_form K p order rules e1 e2 r1 r2 c d m1 m2); try assumption; try congruence.
  intros k. destruct (HR k) as [x [w [R1 [R2 _]]]]. eauto.
Qed.

(** ** singular kernels: a kernel that grows at most like the inverse distance from the common part gives bounded local
    matrices, whatever the rule -- the Jacobians of the transformations absorb the singularity *)
Lemma quad_bound : forall x w (f : R -> R) B, positive_rule x w -> (forall t, (0 < t < 1)%R -> (Rabs (f t) <= B)%R) -> (Rabs (quad x w f) <= B)%R.
Proof.
  intros x w f B [[L HI] [HW HS]] H. unfold quad.
  apply Rle_trans with (rsum (fun k => (nth k w 0 * B)%R) (length w)).
  - clear HS L. induction (length w) as [|n IH] in HI, HW |- *; cbn [rsum]; [rewrite Rabs_R0; lra|].
    eapply Rle_trans; [apply Rabs_triang|]. apply Rplus_le_compat; [apply IH; intros; [apply HI|apply HW]; lia|].
    rewrite Rabs_mult, (Rabs_pos_eq (nth n w 0%R)) by (apply HW; lia). apply Rmult_le_compat_l; [apply HW; lia|]. apply H, HI. lia.
  - rewrite rsum_scal_r, HS. lra.
Qed.
Lemma L4_bound : forall x w (F : fun4) B, positive_rule x w ->
  (forall a b e f, (0 < a < 1)%R -> (0 < b < 1)%R -> (0 < e < 1)%R -> (0 < f < 1)%R -> (Rabs (F a b e f) <= B)%R) -> (Rabs (L4 x w F) <= B)%R.
Proof. intros x w F B HR H. unfold L4. do 4 (apply quad_bound; [exact HR|intros; cbv beta]). apply H; assumption. Qed.

Lemma absorb : forall g y C z, (0 <= z)%R -> (z <= g)%R -> (Rabs y * g <= C)%R -> (z * Rabs y <= C)%R.
Proof. intros g y C z Hz Hg H. eapply Rle_trans; [|exact H]. rewrite Rmult_comm. apply Rmult_le_compat_l; [apply Rabs_pos|exact Hg]. Qed.
Lemma weighted : forall c z y C, (0 <= c <= 1)%R -> (0 <= z)%R -> (z * Rabs y <= C)%R -> (Rabs (c * (z * y)) <= C)%R.
Proof.
  intros c z y C Hc Hz H. rewrite !Rabs_mult, (Rabs_pos_eq c), (Rabs_pos_eq z) by lra. pose proof (Rabs_pos y) as Hy. pose proof (Rmult_le_pos z _ Hz Hy).
  apply Rle_trans with (1 * (z * Rabs y))%R; [|lra]. apply Rmult_le_compat_r; lra.
Qed.
Lemma in01 : forall u v, (0 < u < 1)%R -> (0 < v < 1)%R -> (0 < u * v < 1)%R.
Proof. intros u v Hu Hv. split; [apply Rmult_lt_0_compat; lra|]. apply Rlt_le_trans with (1 * v)%R; [apply Rmult_lt_compat_r; lra|lra]. Qed.
Lemma in01' : forall u, (0 < u < 1)%R -> (0 < 1 - u < 1)%R.
Proof. intros; lra. Qed.
Lemma identical_bound : forall x w F C, positive_rule x w ->
  (forall s t, in_open_square s -> in_open_square t -> (Rabs (F s t) * point_gap s t <= C)%R) -> (Rabs (identical4 x w (cur F)) <= 8 * C)%R.
Proof.
  intros x w F C HR H. unfold identical4. apply L4_bound; [exact HR|]. intros a b p q Ha Hb Hp Hq. cbv zeta. unfold cur.
  pose proof (in01 _ _ Ha Hb) as Hab. pose proof (in01 _ _ Hp (in01' _ Ha)) as T1. pose proof (in01 _ _ Hq (in01' _ Hab)) as T2.
  assert (T3 : (0 < p * (1 - a) + a < 1)%R). { pose proof (in01 _ _ (in01' _ Hp) (in01' _ Ha)). lra. }
  assert (T4 : (0 < q * (1 - a * b) + a * b < 1)%R). { pose proof (in01 _ _ (in01' _ Hq) (in01' _ Hab)). lra. }
  set (t1 := (p * (1 - a))%R) in *. set (t2 := (q * (1 - a * b))%R) in *. set (c := ((1 - a) * (1 - a * b))%R). assert (Hc : (0 <= c <= 1)%R) by (pose proof (in01 _ _ (in01' _ Ha) (in01' _ Hab)); unfold c; lra).
  assert (GX : forall y z y' z', (Rabs (y - y') = a)%R \/ (Rabs (z - z') = a)%R -> (a <= point_gap (y, z) (y', z'))%R).
  { intros y z y' z' [E|E]; unfold point_gap; cbn [fst snd]; rewrite E; [apply Rmax_l|apply Rmax_r]. }
  assert (Ha0 : (0 <= a)%R) by lra.
  assert (E1 : (Rabs (t1 - (t1 + a)) = a)%R) by (replace (t1 - (t1 + a))%R with (- a)%R by ring; rewrite Rabs_Ropp; apply Rabs_pos_eq, Ha0).
  assert (E2 : (Rabs (t1 + a - t1) = a)%R) by (replace (t1 + a - t1)%R with a by ring; apply Rabs_pos_eq, Ha0).
  assert (K : forall s t, in_open_square s -> in_open_square t -> (a <= point_gap s t)%R -> (Rabs (c * (a * F s t)) <= C)%R).
  { intros s t Hs Ht G. apply weighted; [exact Hc|exact Ha0|]. eapply absorb; [exact Ha0|exact G|]. apply H; assumption. }
  assert (N : forall u1 u2 u3 u4 u5 u6 u7 u8 : R, (Rabs u1 <= C -> Rabs u2 <= C -> Rabs u3 <= C -> Rabs u4 <= C -> Rabs u5 <= C -> Rabs u6 <= C -> Rabs u7 <= C -> Rabs u8 <= C ->
    Rabs (u1 + u2 + (u3 + u4) + (u5 + u6) + (u7 + u8)) <= 8 * C)%R).
  { intros. eapply Rle_trans; [apply Rabs_triang|]. eapply Rle_trans; [apply Rplus_le_compat; [eapply Rle_trans; [apply Rabs_triang|apply Rplus_le_compat; [apply Rabs_triang|apply Rabs_triang]]|apply Rabs_triang]|].
    pose proof (Rabs_triang u1 u2). pose proof (Rabs_triang u3 u4). lra. }
  match goal with |- (Rabs (a * (1 - a) * (1 - a * b) * (?u1 + ?u2 + (?u3 + ?u4) + (?u5 + ?u6) + (?u7 + ?u8))) <= _)%R =>
    replace (a * (1 - a) * (1 - a * b) * (u1 + u2 + (u3 + u4) + (u5 + u6) + (u7 + u8)))%R with
      (c * (a * u1) + c * (a * u2) + (c * (a * u3) + c * (a * u4)) + (c * (a * u5) + c * (a * u6)) + (c * (a * u7) + c * (a * u8)))%R by (unfold c; ring) end.
  apply N; apply K; try (split; assumption); apply GX; auto.
Qed.
Lemma edge_bound : forall x w F C, positive_rule x w ->
  (forall s t, in_open_square s -> in_open_square t -> (Rabs (F s t) * edge_gap 0 0 s t <= C)%R) -> (Rabs (edge4 x w (cur F)) <= 6 * C)%R.
Proof.
  intros x w F C HR H. unfold edge4. apply L4_bound; [exact HR|]. intros r z p q Hr Hz Hp Hq. cbv zeta. unfold cur.
  pose proof (in01 _ _ Hz Hp) as Zp. pose proof (in01 _ _ Hz Hq) as Zq. pose proof (in01 _ _ Hr (in01' _ Hz)) as T1. pose proof (in01 _ _ (in01' _ Hr) (in01' _ Hz)) as T2.
  pose proof (in01 _ _ Hr (in01' _ Zp)) as T3. pose proof (in01 _ _ (in01' _ Hr) (in01' _ Zp)) as T4.
  assert (Hz0 : (0 <= z)%R) by lra.
  assert (K : forall c s t, (0 <= c <= 1)%R -> in_open_square s -> in_open_square t -> (z <= edge_gap 0 0 s t)%R -> (Rabs (c * (z * F s t)) <= C)%R).
  { intros c s t Hc Hs Ht G. apply weighted; [exact Hc|exact Hz0|]. eapply absorb; [exact Hz0|exact G|]. apply H; assumption. }
  assert (G1 : forall s t, (Rabs (fst s - (1 - fst t)) = z)%R -> (z <= edge_gap 0 0 s t)%R) by (intros s t E; unfold edge_gap, along_edge; rewrite E; apply Rmax_l).
  assert (G2 : forall s t, snd s = z \/ snd t = z -> (z <= edge_gap 0 0 s t)%R).
  { intros s t E. unfold edge_gap, from_edge. eapply Rle_trans; [|apply Rmax_r]. destruct E as [E|E]; rewrite E; [apply Rmax_l|apply Rmax_r]. }
  set (c1 := (z * (1 - z))%R). set (c2 := (z * (1 - z * p))%R).
  assert (H1 : (0 <= c1 <= 1)%R) by (pose proof (in01 _ _ Hz (in01' _ Hz)); unfold c1; lra). assert (H2 : (0 <= c2 <= 1)%R) by (pose proof (in01 _ _ Hz (in01' _ Zp)); unfold c2; lra).
  set (t1 := (r * (1 - z))%R) in *. set (t2 := ((1 - r) * (1 - z))%R) in *. set (t3 := (r * (1 - z * p))%R) in *. set (t4 := ((1 - r) * (1 - z * p))%R) in *.
  match goal with |- (Rabs (z * z * (1 - z) * (?u1 + ?u2) + z * z * (1 - z * p) * (?u3 + ?u4 + (?u5 + ?u6))) <= _)%R =>
    replace (z * z * (1 - z) * (u1 + u2) + z * z * (1 - z * p) * (u3 + u4 + (u5 + u6)))%R with
      (c1 * (z * u1) + c1 * (z * u2) + (c2 * (z * u3) + c2 * (z * u4)) + (c2 * (z * u5) + c2 * (z * u6)))%R by (unfold c1, c2; ring) end.
  assert (N : forall u1 u2 u3 u4 u5 u6 : R, (Rabs u1 <= C -> Rabs u2 <= C -> Rabs u3 <= C -> Rabs u4 <= C -> Rabs u5 <= C -> Rabs u6 <= C -> Rabs (u1 + u2 + (u3 + u4) + (u5 + u6)) <= 6 * C)%R).
  { intros. eapply Rle_trans; [apply Rabs_triang|]. eapply Rle_trans; [apply Rplus_le_compat; [apply Rabs_triang|apply Rabs_triang]|].
    pose proof (Rabs_triang u1 u2). pose proof (Rabs_triang u3 u4). lra. }
  assert (Sum : (t1 + t2 = 1 - z)%R) by (unfold t1, t2; ring).
  apply N; apply K; try assumption; try (split; cbn [fst snd]; lra); try (apply G2; cbn [fst snd]; auto; fail).
  - apply G1. cbn [fst snd]. replace (t1 - (1 - t2))%R with (- z)%R by lra. rewrite Rabs_Ropp. apply Rabs_pos_eq, Hz0.
  - apply G1. cbn [fst snd]. replace (1 - t1 - (1 - (1 - t2)))%R with z by lra. apply Rabs_pos_eq, Hz0.
Qed.
Lemma vertex_bound : forall x w F C, positive_rule x w ->
  (forall s t, in_open_square s -> in_open_square t -> (Rabs (F s t) * vertex_gap 0 0 s t <= C)%R) -> (Rabs (vertex4 x w (cur F)) <= 4 * C)%R.
Proof.
  intros x w F C HR H. unfold vertex4. apply L4_bound; [exact HR|]. intros a b p q Ha Hb Hp Hq. unfold cur.
  pose proof (in01 _ _ Hb Ha) as T1. pose proof (in01 _ _ Ha Hp) as T2. pose proof (in01 _ _ Ha Hq) as T3. assert (Ha0 : (0 <= a)%R) by lra.
  assert (Hc : (0 <= a * a <= 1)%R) by (pose proof (in01 _ _ Ha Ha); lra).
  assert (K : forall s t, in_open_square s -> in_open_square t -> (fst s = a \/ snd s = a \/ fst t = a \/ snd t = a) -> (Rabs (a * a * (a * F s t)) <= C)%R).
  { intros s t Hs Ht G. apply weighted; [exact Hc|exact Ha0|]. eapply absorb; [exact Ha0| |apply H; assumption].
    unfold vertex_gap, point_gap. cbn [corner fst snd]. rewrite !Rminus_0_r, !Rabs_pos_eq by (destruct Hs, Ht; lra).
    destruct G as [G|[G|[G|G]]]; rewrite G; [eapply Rle_trans; [|apply Rmax_l]; apply Rmax_l|eapply Rle_trans; [|apply Rmax_l]; apply Rmax_r|eapply Rle_trans; [|apply Rmax_r]; apply Rmax_l|eapply Rle_trans; [|apply Rmax_r]; apply Rmax_r]. }
  match goal with |- (Rabs (a ^ 3 * (?u1 + ?u2 + ?u3 + ?u4)) <= _)%R =>
    replace (a ^ 3 * (u1 + u2 + u3 + u4))%R with (a * a * (a * u1) + a * a * (a * u2) + (a * a * (a * u3) + a * a * (a * u4)))%R by ring end.
  assert (N : forall u1 u2 u3 u4 : R, (Rabs u1 <= C -> Rabs u2 <= C -> Rabs u3 <= C -> Rabs u4 <= C -> Rabs (u1 + u2 + (u3 + u4)) <= 4 * C)%R).
  { intros. eapply Rle_trans; [apply Rabs_triang|]. pose proof (Rabs_triang u1 u2). pose proof (Rabs_triang u3 u4). lra. }
  apply N; apply K; try (split; assumption); cbn [fst snd]; auto.
Qed.
Lemma edge_gap_tau : forall r1 r2 s t, r1 < 4 -> r2 < 4 -> edge_gap r1 r2 (tau (fst s) (snd s) r1) (tau (fst t) (snd t) r2) = edge_gap 0 0 s t.
Proof.
  intros r1 r2 [s1 s2] [t1 t2] H1 H2. unfold edge_gap. cbn [fst snd].
  assert (A : forall r x y, r < 4 -> along_edge r (tau x y r) = x /\ from_edge r (tau x y r) = y) by (intros r x y Hr; four r; cbn; split; ring).
  destruct (A r1 s1 s2 H1) as [-> ->]. destruct (A r2 t1 t2 H2) as [-> ->]. reflexivity.
Qed.
Lemma vertex_gap_tau : forall r1 r2 s t, r1 < 4 -> r2 < 4 -> vertex_gap r1 r2 (tau (fst s) (snd s) r1) (tau (fst t) (snd t) r2) = vertex_gap 0 0 s t.
Proof.
  intros r1 r2 [s1 s2] [t1 t2] H1 H2. unfold vertex_gap.
  assert (A : forall r x y, r < 4 -> point_gap (tau x y r) (corner r) = point_gap (x, y) (corner 0)).
  { intros r x y Hr. unfold point_gap. four r; cbn [tau corner fst snd]; [reflexivity| | |]; repeat match goal with |- context [Rabs (?u - ?v)] => progress (first [replace (u - v)%R with x by ring | replace (u - v)%R with y by ring | replace (u - v)%R with (- x)%R by ring | replace (u - v)%R with (- y)%R by ring]) end;
      rewrite ?Rabs_Ropp; first [reflexivity|apply Rmax_comm]. }
  cbn [fst snd]. rewrite (A r1), (A r2) by assumption. reflexivity.
Qed.
Theorem C36_singular_kernels : forall K p order rules e1 e2 res m C i j,
  (forall d, exists x w, rules d = (x, w) /\ positive_rule x w) ->
  e1 = e2 /\ res = (4, 4, 2) \/
  e_addr e1 <> e_addr e2 /\ element_distance e1 e2 = 0%R /\ describes (e_vert e1) (e_vert e2) res /\ snd res <> 0 ->
  (forall s t, in_open_square s -> in_open_square t -> (Rabs (K e1 s e2 t i j) * pair_gap res s t <= C)%R) ->
  let GS := fun d => tensor_rule (rules d) in
  forall ff1 ff2, evaluate_bilinear_form K p order GS e1 e2 ff1 ff2 = Some m ->
  (Rabs (m i j) <= 8 * C * (e_h e1 * e_h e1))%R.
Proof.
  intros K p order rules e1 e2 res m C i j HR HC HK GS ff1 ff2 Hm.
  assert (C0 : (0 <= C)%R).
  { specialize (HK (1 / 2, 1 / 2)%R (1 / 2, 1 / 2)%R ltac:(split; cbn; lra) ltac:(split; cbn; lra)). eapply Rle_trans; [|exact HK]. apply Rmult_le_pos; [apply Rabs_pos|].
    assert (PG : forall s t, (0 <= point_gap s t)%R) by (intros; unfold point_gap; eapply Rle_trans; [apply Rabs_pos|apply Rmax_l]).
    destruct res as [[r1 r2] c]. destruct c as [|[|[|[|c]]]]; cbn [pair_gap]; try apply PG; unfold edge_gap, vertex_gap; (eapply Rle_trans; [|apply Rmax_l]); (apply PG || apply Rabs_pos). }
  assert (CE : compare_elements e1 e2 = (res, 0%R) /\ (snd res = 2 -> e1 = e2) /\ (snd res = 2 \/ (snd res = 3 \/ snd res = 4) /\ fst (fst res) < 4 /\ snd (fst res) < 4)).
  { destruct HC as [[He ->]|[Ne [Ed [D Hc]]]].
    - subst e2. unfold compare_elements. rewrite addr_eqb_refl. auto.
    - unfold compare_elements. replace (addr_eqb (e_addr e1) (e_addr e2)) with false by (symmetry; apply addr_eqb_neq; exact Ne). cbv zeta. rewrite Ed.
      destruct (Rlt_dec _ _) as [H|_]; [exfalso; revert H; apply Rle_not_lt, Rmult_le_pos; [lra|]; apply Rlt_le, Rinv_0_lt_compat, pow_lt; lra|].
      rewrite (describes_compare _ _ _ D Hc). split; [reflexivity|]. destruct res as [[r1 r2] c]. cbn [fst snd] in *. destruct c as [|[|[|[|[|c]]]]]; try contradiction; (split; [discriminate|]); right; split; auto; destruct D as [D1 [D2 _]]; auto. }
  destruct CE as [CE [C2 CR]]. unfold evaluate_bilinear_form in Hm. rewrite CE in Hm.
  set (nf := if (farfield_degree p order <=? nearfield_degree p order 0 (e_level e1))%Z then nearfield_degree p order 0 (e_level e1) else farfield_degree p order) in *.
  destruct (nf <? max_quadrature_degree)%Z; [|discriminate]. destruct (HR nf) as [x [w [ER Hp]]].
  assert (EG : GS nf = tensor_rule (x, w)) by (unfold GS; rewrite ER; reflexivity). rewrite EG in Hm. pose proof (proj1 (proj1 Hp)) as Lxw.
  assert (Fin : forall B n, (Rabs B <= n * C)%R -> (0 <= n <= 8)%R -> (Rabs (e_h e1 * e_h e1 * B) <= 8 * C * (e_h e1 * e_h e1))%R).
  { intros B n HB Hn. rewrite Rabs_mult, (Rabs_pos_eq (e_h e1 * e_h e1)) by apply Rle_0_sqr. rewrite Rmult_comm. apply Rmult_le_compat_r; [apply Rle_0_sqr|]. eapply Rle_trans; [exact HB|]. apply Rmult_le_compat_r; lra. }
  destruct CR as [E2|[[E3|E4] [L1 L2]]].
  - rewrite E2 in Hm. injection Hm as <-. pose proof (C2 E2) as He. rewrite integrate2_value by exact Lxw. apply (Fin _ 8%R); [|lra]. apply identical_bound; [exact Hp|].
    intros s t Hs Ht. specialize (HK s t Hs Ht). unfold entry. rewrite <- He in HK. destruct res as [[r1 r2] c]. cbn [snd] in E2. subst c. exact HK.
  - destruct res as [[r1 r2] c]. cbn [fst snd] in *. subst c. injection Hm as <-. rewrite integrate3_value by exact Lxw. apply (Fin _ 6%R); [|lra]. apply edge_bound; [exact Hp|].
    intros s t Hs Ht. unfold rotated, entry. rewrite <- (edge_gap_tau r1 r2 s t L1 L2). apply HK; apply tau_open; destruct s, t; assumption.
  - destruct res as [[r1 r2] c]. cbn [fst snd] in *. subst c. injection Hm as <-. rewrite integrate4_value by exact Lxw. apply (Fin _ 4%R); [|lra]. apply vertex_bound; [exact Hp|].
    intros s t Hs Ht. unfold rotated, entry. rewrite <- (vertex_gap_tau r1 r2 s t L1 L2). apply HK; apply tau_open; destruct s, t; assumption.
Qed.

(** a rule and a singular kernel meeting the hypotheses *)
Example singular_example : positive_rule gauss3_x gauss3_w /\
  forall r1 r2 s t, in_open_square s -> in_open_square t -> r1 < 4 -> r2 < 4 -> (Rabs (/ edge_gap r1 r2 s t) * pair_gap (r1, r2, 3%nat) s t <= 1)%R.
Proof.
  split.
  - split; [exact gauss3_interior|]. unfold gauss3_w. split.
    + intros k Hk. cbn in Hk. do 3 (destruct k as [|k]; [cbn; lra|]). lia.
    + cbn. lra.
  - intros r1 r2 s t Hs Ht H1 H2. cbn [pair_gap]. assert (G : (0 < edge_gap r1 r2 s t)%R).
    { unfold edge_gap. eapply Rlt_le_trans; [|apply Rmax_r]. eapply Rlt_le_trans; [|apply Rmax_l]. destruct Hs. four r1; cbn; lra. }
    rewrite Rabs_pos_eq by (apply Rlt_le, Rinv_0_lt_compat, G). rewrite Rinv_l by lra. lra.
Qed.

(** ** meshes outside the hypotheses *)
(** an edge traversed in the same direction by both patches: the common edge is not recognised, or another edge is reported *)
Definition same_direction : list (list nat) := [[0;1;2;3]; [0;1;4;5]].
Definition same_direction' : list (list nat) := [[0;1;2;3]; [2;3;4;5]].
Theorem C35_same_direction_refuted : exists t a1 a2,
  mesh_ok same_direction /\ init_tree Nat.eqb same_direction 1 = Some t /\ is_leaf t a1 /\ is_leaf t a2 /\ a1 <> a2 /\
  vertex t a1 0 = vertex t a2 0 /\ vertex t a1 1 = vertex t a2 1 /\
  forall b e1 e2, element_of t b a1 = Some e1 -> element_of t b a2 = Some e2 -> snd (fst (compare_elements e1 e2)) <> 3.
Proof.
  destruct (init_tree Nat.eqb same_direction 1) as [t|] eqn:E; [|vm_compute in E; discriminate].
  exists t, [0; 0], [0; 1]. split; [apply mesh_ok_b; vm_compute; reflexivity|]. split; [reflexivity|].
  assert (X : (t <- init_tree Nat.eqb same_direction 1 ;; n1 <- t_store t [0; 0] ;; n2 <- t_store t [0; 1] ;; Some (n_ref n1, n_ref n2, n_verts n1, n_verts n2))
    = Some (false, false, [0; 6; 10; 9], [0; 6; 14; 13])) by (vm_compute; reflexivity).
  rewrite E in X. cbn [bind] in X. destruct (t_store t [0; 0]) as [n1|] eqn:E1; [|discriminate]. destruct (t_store t [0; 1]) as [n2|] eqn:E2; [|discriminate].
  cbn [bind] in X. injection X as X1 X2 X3 X4.
  split; [exists n1; auto|]. split; [exists n2; auto|]. split; [discriminate|]. unfold vertex. rewrite E1, E2, X3, X4. split; [reflexivity|]. split; [reflexivity|].
  intros b e1 e2 H1 H2. unfold element_of in H1, H2. rewrite E1 in H1. rewrite E2 in H2. cbn [bind] in H1, H2.
  apply bind_some in H1. destruct H1 as [x1 [_ H1]]. injection H1 as <-. apply bind_some in H2. destruct H2 as [x2 [_ H2]]. injection H2 as <-.
  unfold compare_elements. cbn [e_addr]. change (addr_eqb [0; 0] [0; 1]) with false. cbv zeta. destruct Rlt_dec; [cbn; lia|].
  unfold e_vert. cbn [e_node]. rewrite X3, X4. vm_compute. lia.
Qed.
Theorem C35_wrong_edge_refuted : exists t a1 a2,
  mesh_ok same_direction' /\ init_tree Nat.eqb same_direction' 1 = Some t /\ is_leaf t a1 /\ is_leaf t a2 /\
  forall b e1 e2, element_of t b a1 = Some e1 -> element_of t b a2 = Some e2 -> element_distance e1 e2 = 0%R ->
    fst (compare_elements e1 e2) = (3, 0, 3) /\ e_vert e1 3 = e_vert e2 1 /\ e_vert e1 0 <> e_vert e2 0.
Proof.
  destruct (init_tree Nat.eqb same_direction' 1) as [t|] eqn:E; [|vm_compute in E; discriminate].
  exists t, [3; 0], [1; 1]. split; [apply mesh_ok_b; vm_compute; reflexivity|]. split; [reflexivity|].
  assert (X : (t <- init_tree Nat.eqb same_direction' 1 ;; n1 <- t_store t [3; 0] ;; n2 <- t_store t [1; 1] ;; Some (n_ref n1, n_ref n2, n_verts n1, n_verts n2))
    = Some (false, false, [9; 10; 8; 3], [8; 3; 11; 14])) by (vm_compute; reflexivity).
  rewrite E in X. cbn [bind] in X. destruct (t_store t [3; 0]) as [n1|] eqn:E1; [|discriminate]. destruct (t_store t [1; 1]) as [n2|] eqn:E2; [|discriminate].
  cbn [bind] in X. injection X as X1 X2 X3 X4.
  split; [exists n1; auto|]. split; [exists n2; auto|].
  intros b e1 e2 H1 H2 D. unfold element_of in H1, H2. rewrite E1 in H1. rewrite E2 in H2. cbn [bind] in H1, H2.
  apply bind_some in H1. destruct H1 as [x1 [_ H1]]. injection H1 as <-. apply bind_some in H2. destruct H2 as [x2 [_ H2]]. injection H2 as <-.
  unfold compare_elements. cbn [e_addr]. change (addr_eqb [3; 0] [1; 1]) with false. cbv zeta. rewrite D. destruct (Rlt_dec _ 0) as [H|_].
  - exfalso. revert H. apply Rle_not_lt. apply Rmult_le_pos; [lra|]. apply Rlt_le, Rinv_0_lt_compat, pow_lt. lra.
  - unfold e_vert. cbn [e_node fst]. rewrite X3, X4. vm_compute. split; [reflexivity|]. split; [reflexivity|]. lia.
Qed.
(** unrefined patches that share two opposite corners: only one of them is reported *)
Definition two_corners : list (list nat) := [[0;1;2;3]; [0;4;2;5]].
Lemma oriented_b : forall verts, forallb (fun p => forallb (fun q => forallb (fun i => forallb (fun j =>
    implb ((pvert verts p i =? pvert verts q j) && (pvert verts p ((i + 1) mod 4) =? pvert verts q ((j + 1) mod 4))) ((p =? q) && (i =? j)))
  (seq 0 4)) (seq 0 4)) (seq 0 (length verts))) (seq 0 (length verts)) = true -> oriented verts.
Proof.
  intros verts H p i q j Hp Hq Hi Hj [A1 A2].
  rewrite forallb_forall in H. specialize (H p ltac:(apply in_seq; lia)). rewrite forallb_forall in H. specialize (H q ltac:(apply in_seq; lia)).
  rewrite forallb_forall in H. specialize (H i ltac:(apply in_seq; lia)). rewrite forallb_forall in H. specialize (H j ltac:(apply in_seq; lia)).
  rewrite A1, A2, !Nat.eqb_refl in H. cbn in H. apply andb_true_iff in H. destruct H as [H1 H2]. apply Nat.eqb_eq in H1, H2. congruence.
Qed.
Theorem C35_level_zero_refuted : exists t, mesh_ok two_corners /\ oriented two_corners /\ init_tree Nat.eqb two_corners 0 = Some t /\
  forall b e1 e2, element_of t b [0] = Some e1 -> element_of t b [1] = Some e2 ->
    ~ describes (e_vert e1) (e_vert e2) (fst (compare_elements e1 e2)).
Proof.
  destruct (init_tree Nat.eqb two_corners 0) as [t|] eqn:E; [|vm_compute in E; discriminate].
  exists t. split; [apply mesh_ok_b; vm_compute; reflexivity|]. split; [apply oriented_b; vm_compute; reflexivity|]. split; [reflexivity|].
  assert (X : (t <- init_tree Nat.eqb two_corners 0 ;; n1 <- t_store t [0] ;; n2 <- t_store t [1] ;; Some (n_verts n1, n_verts n2))
    = Some ([0; 1; 2; 3], [0; 4; 2; 5])) by (vm_compute; reflexivity).
  rewrite E in X. cbn [bind] in X. destruct (t_store t [0]) as [n1|] eqn:E1; [|discriminate]. destruct (t_store t [1]) as [n2|] eqn:E2; [|discriminate].
  cbn [bind] in X. injection X as X3 X4.
  intros b e1 e2 H1 H2. unfold element_of in H1, H2. rewrite E1 in H1. rewrite E2 in H2. cbn [bind] in H1, H2.
  apply bind_some in H1. destruct H1 as [x1 [_ H1]]. injection H1 as <-. apply bind_some in H2. destruct H2 as [x2 [_ H2]]. injection H2 as <-.
  unfold compare_elements. cbn [e_addr]. change (addr_eqb [0] [1]) with false. cbv zeta. unfold e_vert. cbn [e_node]. rewrite X3, X4. destruct Rlt_dec.
  - cbn [fst]. intros D. apply (D 0 0); [lia|lia|reflexivity].
  - change (compare_vertices _ _) with (0, 0, 4). cbn [fst]. intros [_ [_ D]]. specialize (D 2 2 ltac:(lia) ltac:(lia)). destruct D as [D _]. specialize (D eq_refl). lia.
Qed.
(** locally refined meshes: element numbers restart on every level, computeFfieldQnodes writes out of range *)
Theorem C36_local_refinement_refuted : exists t0 t l, init_tree Nat.eqb [[0;1;2;3]] 1 = Some t0 /\ ops_valid t0 [OpNode [1; 0]] /\ run t0 [OpNode [1; 0]] = Some t /\
  traverse t = Some l /\ forall b els Q, map_opt (element_of t b) l = Some els -> 0 < length (fst Q) -> compute_ffield_qnodes Q els = None.
Proof.
  destruct (init_tree Nat.eqb [[0;1;2;3]] 1) as [t0|] eqn:E0; [|vm_compute in E0; discriminate].
  assert (X : (t0 <- init_tree Nat.eqb [[0;1;2;3]] 1 ;; _ <- t_store t0 [1; 0] ;; t <- run t0 [OpNode [1; 0]] ;; l <- traverse t ;; ns <- map_opt (t_store t) l ;; Some (l, map n_id ns))
    = Some ([[0;0]; [0;1;0]; [1;1;0]; [2;1;0]; [3;1;0]; [2;0]; [3;0]], [0; 4; 5; 6; 7; 2; 3])) by (vm_compute; reflexivity).
  rewrite E0 in X. cbn [bind] in X. destruct (t_store t0 [1; 0]) as [n|] eqn:En; [|discriminate]. cbn [bind] in X.
  destruct (run t0 [OpNode [1; 0]]) as [t|] eqn:Et; [|discriminate]. cbn [bind] in X. destruct (traverse t) as [l|] eqn:El; [|discriminate]. cbn [bind] in X.
  destruct (map_opt (t_store t) l) as [ns|] eqn:Em; [|discriminate]. cbn [bind] in X. injection X as -> Hn.
  exists t0, t, [[0;0]; [0;1;0]; [1;1;0]; [2;1;0]; [3;1;0]; [2;0]; [3;0]]. split; [reflexivity|]. split.
  { cbn [ops_valid op_valid]. split; [unfold exists_node; congruence|intros; exact I]. }
  split; [exact Et|]. split; [exact El|]. intros b els Q He HQ. destruct (elements_nth t b _ els He) as [L H]. destruct (els_length t _ ns Em) as [L' H'].
  assert (Id : forall i e, i < 7 -> nth_error els i = Some e -> n_id (e_node e) = nth i [0; 4; 5; 6; 7; 2; 3] 0).
  { intros i e Hi Hi'. destruct (H i Hi) as [e' [A1 [_ [A2 _]]]]. assert (e' = e) by congruence. subst e'. destruct (H' i Hi) as [n' [B1 B2]]. assert (n' = e_node e) by congruence. subst n'.
    rewrite <- Hn. symmetry. apply nth_error_nth. rewrite nth_error_map, B1. reflexivity. }
  destruct els as [|e0 [|e1 r]]; [discriminate|discriminate|]. unfold compute_ffield_qnodes. cbn [get nth_error bind]. cbn [ffield_loop].
  replace (length (fst Q) =? 0) with false by (symmetry; apply Nat.eqb_neq; lia).
  rewrite (Id 0 e0 ltac:(lia) eq_refl), (Id 1 e1 ltac:(lia) eq_refl). reflexivity.
Qed.

(** ** a concrete case: two unit squares, refined once; the elements on both sides of the common edge *)
Example compare_example : exists t P b e1 e2, init_tree Nat.eqb two_squares 1 = Some t /\ point_list two_eval t = Some P /\ enclosings t P = Some b /\
  element_of t b [1; 0] = Some e1 /\ element_of t b [0; 1] = Some e2 /\ compare_elements e1 e2 = ((1, 3, 3), 0%R).
Proof.
  destruct (init_tree Nat.eqb two_squares 1) as [t|] eqn:E; [|vm_compute in E; discriminate].
  assert (X : (t <- init_tree Nat.eqb two_squares 1 ;; n1 <- t_store t [1; 0] ;; n2 <- t_store t [0; 1] ;; Some (n_ref n1, n_ref n2, n_verts n1, n_verts n2))
    = Some (false, false, [6; 1; 7; 10], [1; 11; 14; 7])) by (vm_compute; reflexivity).
  rewrite E in X. cbn [bind] in X. destruct (t_store t [1; 0]) as [n1|] eqn:E1; [|discriminate]. destruct (t_store t [0; 1]) as [n2|] eqn:E2; [|discriminate].
  cbn [bind] in X. injection X as X1 X2 X3 X4.
  assert (G : from_geometry Nat.eqb two_squares two_squares t).
  { exists 1, [], t. split; [vm_compute; reflexivity|]. split; [|split; [exact E|split; [exact I|reflexivity]]]. intros c H. simpl in H. destruct H as [<-|[<-|[]]]; reflexivity. }
  destruct two_squares_fit as [MO FI].
  destruct (C35_classification nat Nat.eqb two_squares two_squares t two_eval ltac:(discriminate) G MO) as [P [b [EP [Eb CL]]]]; [apply oriented_b; vm_compute; reflexivity|exact FI|].
  destruct (CL [1; 0] [0; 1] ltac:(exists n1; auto) ltac:(exists n2; auto) eq_refl ltac:(cbn; lia)) as [e1 [e2 [A1 [A2 [V [_ C]]]]]].
  exists t, P, b, e1, e2. split; [reflexivity|]. split; [exact EP|]. split; [exact Eb|]. split; [exact A1|]. split; [exact A2|].
  destruct (C ltac:(discriminate)) as [r1 [r2 [c [d [C1 [_ [D [Z _]]]]]]]].
  assert (V1 : forall k, k < 4 -> e_vert e1 k = nth k [6; 1; 7; 10] 0 /\ e_vert e2 k = nth k [1; 11; 14; 7] 0).
  { intros k Hk. destruct (V k Hk) as [W1 W2]. unfold vertex in W1, W2. rewrite E1, X3 in W1. rewrite E2, X4 in W2. split; symmetry; apply nth_error_nth; assumption. }
  assert (CE : common_edge (e_vert e1) (e_vert e2) 1 3).
  { split; [lia|]. split; [lia|]. intros k m Hk Hm. rewrite (proj1 (V1 k Hk)), (proj2 (V1 m Hm)). four k; four m; cbn; lia. }
  assert (Q : (r1, r2, c) = (1, 3, 3)).
  { destruct (Nat.eq_dec c 0) as [->|Hc].
    - exfalso. apply (D 1 0); [lia|lia|]. apply CE; [lia|lia|]. left. auto.
    - rewrite <- (describes_compare _ _ _ D) by exact Hc. apply compare_edge, CE. }
  rewrite C1, Q. injection Q as -> -> ->. rewrite Z by discriminate. reflexivity.
Qed.

(* BEGIN ASSUMPTIONS *)
Print Assumptions C35_classification.
Print Assumptions C56_bilinear_form.
Print Assumptions C36_far_field_points.
Print Assumptions C36_mesh.
Print Assumptions C56_mesh.
Print Assumptions C36_singular_kernels.
Print Assumptions C35_same_direction_refuted.
Print Assumptions C35_wrong_edge_refuted.
Print Assumptions C35_level_zero_refuted.
Print Assumptions C36_local_refinement_refuted.
