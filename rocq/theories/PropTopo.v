(** C16-C18: adjacency, patch interfaces and vertex numbering.  Statements use ModelTree (the code),
    SpecTree and SpecMesh (vocabulary). *)
From Coq Require Import List Arith Bool Lia.
From Verif Require Import ModelBase ModelTree SpecTree SpecMesh ProofTree ProofTreeWF ProofTreeHist ProofTreeGeo ProofTreeLook
  ProofTopo ProofConf ProofConfStep ProofConfTree ProofConfHist ProofConfPts ProofConfIdx ProofTopoInfo.
Import ListNotations.

(** ** C16 *)

(** updateTopology on any list of different quadrilaterals with manifold edges and empty neighbour slots *)
Theorem C16_neighbours_share_edges : forall s els,
  (forall a, In a els -> exists n, s a = Some n /\ length (n_verts n) = 4 /\ n_adj n = [None; None; None; None]) ->
  NoDup els -> at_most_two s els ->
  exists s', update_topology s els = Some s' /\
    (forall a j b, In a els -> j < 4 -> (adj_at s' a j = Some b <-> exists k, partner s els a j b k)) /\
    (forall a, match s a, s' a with
               | Some n, Some n' => exists l, n' = with_adj n l
               | None, None => True
               | _, _ => False end) /\
    (forall a, ~ In a els -> s' a = s a).
Proof.
  intros s els H N T.
  destruct (update_topology_spec els s) as [s' [E [A [O [S K]]]]]; [|assumption|assumption|].
  { intros b Hb. destruct (H b Hb) as [n [E1 [E2 E3]]]. exists n. rewrite E3. auto. }
  exists s'. split; [assumption|]. split; [|split; [|assumption]].
  - intros a j b Ha Hj. split; [|intros [k Hk]; eapply S; eassumption]. intros Eb.
    assert (D : forall c k, {partner s els a j c k} + {~ partner s els a j c k}).
    { intros c k. unfold partner. destruct (in_dec (list_eq_dec Nat.eq_dec) c els); [|right; tauto].
      destruct (lt_dec k 4); [|right; tauto].
      assert (Dp : {(c, k) = (a, j)} + {(c, k) <> (a, j)}) by (decide equality; [apply Nat.eq_dec|apply list_eq_dec, Nat.eq_dec]).
      destruct Dp; [right; tauto|].
      assert (De : {slot_edge s c k = slot_edge s a j} + {slot_edge s c k <> slot_edge s a j})
        by (repeat decide equality).
      destruct De; [left; auto|right; tauto]. }
    destruct (Exists_dec (fun ck => partner s els a j (fst ck) (snd ck)) (list_prod els [0;1;2;3])) as [X|X].
    { intros [c k]. apply D. }
    + apply Exists_exists in X. destruct X as [[c k] [_ Pc]]. simpl in Pc. pose proof (S a j c k Ha Hj Pc) as E1.
      assert (b = c) by congruence. subst c. exists k. assumption.
    + exfalso. rewrite K in Eb; [|assumption|assumption|].
      * destruct (H a Ha) as [n [E1 [_ E3]]]. unfold adj_at in Eb. rewrite E1, E3 in Eb.
        destruct j as [|[|[|[|]]]]; simpl in Eb; try discriminate. lia.
      * intros [c [k Pc]]. apply X. apply Exists_exists. exists (c, k). split; [|assumption].
        destruct Pc as [Pc1 [Pc2 _]]. apply in_prod; [assumption|]. simpl. lia.
  - intros a. specialize (A a). destruct (s a), (s' a); try tauto. destruct A as [l' [-> _]]. eauto.
Qed.

(** the relation is symmetric: the neighbour's slot for the same vertex pair points back *)
Theorem C16_symmetric : forall s els s',
  (forall a, In a els -> exists n, s a = Some n /\ length (n_verts n) = 4 /\ n_adj n = [None; None; None; None]) ->
  NoDup els -> at_most_two s els -> update_topology s els = Some s' ->
  forall a j b, In a els -> j < 4 -> adj_at s' a j = Some b ->
    In b els /\ exists k, k < 4 /\ adj_at s' b k = Some a /\ slot_edge s' b k = slot_edge s' a j.
Proof.
  intros s els s' H N T E a j b Ha Hj Eb.
  destruct (C16_neighbours_share_edges s els H N T) as [s1 [E1 [A [W _]]]]. assert (s1 = s') by congruence. subst s1.
  apply A in Eb; [|assumption|assumption]. destruct Eb as [k [P1 [P2 [P3 P4]]]]. split; [assumption|]. exists k. split; [assumption|].
  split.
  - apply A; [assumption|assumption|]. exists j. split; [assumption|]. split; [assumption|]. split; [congruence|auto].
  - assert (F : forall c m, slot_edge s' c m = slot_edge s c m).
    { intros c m. specialize (W c). unfold slot_edge. destruct (s c), (s' c); try tauto. destruct W as [l ->]. reflexivity. }
    rewrite !F. assumption.
Qed.

Lemma over_wf : forall verts npts t, mesh_ok verts -> numbered verts npts -> reachable_over verts npts t ->
  over verts t /\ exists l, WF t l.
Proof.
  intros verts npts t M N [ml [os [t0 [E0 [V E]]]]].
  apply (over_reachable verts M npts ml); [| |eauto].
  - intros vs v H1 H2. apply N. eauto.
  - intros v Hv. apply N. assumption.
Qed.

Lemma vertex_vxs : forall verts t l a k, WF t l -> over verts t -> exists_node t a -> k < 4 ->
  vertex t a k = Some (vxs (t_store t) a k).
Proof.
  intros verts t l a k W _ H Hk. unfold vertex, vxs, exists_node in *. destruct (t_store t a) as [n|] eqn:E; [|congruence].
  pose proof (wf_node t l W a n E) as K. rewrite (nth_error_nth' (n_verts n) 0); [reflexivity|]. rewrite (nk_verts _ _ K). assumption.
Qed.

(** after any history of (uniform or local) refinements of a manifold patch mesh: the neighbour recorded
    at edge i of an element is the other element of the same level with the same end points *)
Theorem C16_any_history : forall verts npts t, mesh_ok verts -> numbered verts npts -> reachable_over verts npts t ->
  forall a i b, exists_node t a -> i < 4 ->
  (adj_at (t_store t) a i = Some b <->
   exists_node t b /\ pos_level b = pos_level a /\
   exists j, j < 4 /\ (b, j) <> (a, i) /\ slot_edge (t_store t) b j = slot_edge (t_store t) a i).
Proof.
  intros verts npts t M N R a i b Ha Hi. destruct (over_wf verts npts t M N R) as [Ov [l W]]. destruct Ov as [K Ov'].
  assert (Good : forall c, exists_node t c -> good_node (t_store t) c).
  { intros c Hc. unfold exists_node in Hc. destruct (t_store t c) as [n|] eqn:E; [|congruence].
    pose proof (wf_node t l W c n E) as Kn. exists n. split; [assumption|]. split; [apply (nk_verts _ _ Kn)|apply (nk_adj _ _ Kn)]. }
  assert (Len : forall c, exists_node t c -> length c = S (pos_level c)).
  { intros c Hc. pose proof (wf_nonroot t l c W Hc). unfold pos_level. destruct c; [congruence|simpl; lia]. }
  rewrite (cf_adj t K a i b Ha Hi). split.
  - intros [j [Hj [Hb [L [Ne S]]]]]. split; [assumption|]. split; [rewrite (Len a Ha), (Len b Hb) in L; lia|].
    exists j. split; [assumption|]. split; [assumption|]. symmetry. apply slot_edge_iff; auto.
  - intros [Hb [L [j [Hj [Ne S]]]]]. exists j. split; [assumption|]. split; [assumption|].
    split; [rewrite (Len a Ha), (Len b Hb); lia|]. split; [assumption|]. apply slot_edge_iff; auto.
Qed.

(** ** C17 *)
Theorem C17_interfaces : forall verts npts t, mesh_ok verts -> numbered verts npts -> reachable_over verts npts t ->
  exists out, patch_topology_info t = Some out /\ NoDup out /\
    (forall a b i j, In (a, Some b, i, Some j) out <->
       a < b /\ b < length verts /\ i < 4 /\ j < 4 /\ glued verts a i b j) /\
    (forall a i, In (a, None, i, None) out <->
       a < length verts /\ i < 4 /\ ~ exists b j, b < length verts /\ j < 4 /\ (b, j) <> (a, i) /\ glued verts a i b j) /\
    (forall a b i j, In (a, b, i, j) out -> (b = None <-> j = None)).
Proof.
  intros verts npts t M N R. destruct (over_wf verts npts t M N R) as [Ov [l W]].
  destruct (info_listed verts M t l W Ov) as [out [E [[Nd _] H]]]. exists out. split; [assumption|]. split; [assumption|].
  split; [|split].
  - intros a b i j. rewrite H. split.
    + intros [p [i' [B [[q [j' [H1 [H2 [H3 [G E']]]]]]|[_ E']]]]]; [|discriminate]. injection E' as -> -> -> ->.
      unfold before in B. auto using (proj1 B).
    + intros [H1 [H2 [H3 [H4 G]]]]. exists a, i. split; [unfold before; lia|]. left. exists b, j. auto.
  - intros a i. rewrite H. split.
    + intros [p [i' [B [[q [j' [H1 [H2 [H3 [G E']]]]]]|[X E']]]]]; [discriminate|]. injection E' as -> ->.
      unfold before in B. split; [lia|]. split; [lia|assumption].
    + intros [H1 [H2 X]]. exists a, i. split; [unfold before; lia|]. right. auto.
  - intros a b i j Hin. apply H in Hin. destruct Hin as [p [i' [B [[q [j' [H1 [H2 [H3 [G E']]]]]]|[_ E']]]]]; injection E' as -> -> -> ->.
    + split; discriminate.
    + tauto.
Qed.

(** the restriction is needed: patches 0 and 1 share two edges, the second one is reported with the wrong edge *)
Definition two_shared : list (list nat) := [[0; 1; 2; 3]; [1; 0; 3; 4]].
Theorem C17_two_shared_edges_refuted : exists t out,
  init_tree Nat.eqb two_shared 0 = Some t /\ patch_topology_info t = Some out /\
  glued two_shared 0 3 1 1 /\ ~ In (0, Some 1, 3, Some 1) out /\
  In (0, Some 1, 3, Some 0) out /\ ~ glued two_shared 0 3 1 0.
Proof.
  destruct (init_tree Nat.eqb two_shared 0) as [t|] eqn:E; [|discriminate].
  destruct (patch_topology_info t) as [out|] eqn:Eo; [|vm_compute in E; injection E as <-; vm_compute in Eo; discriminate].
  exists t, out. split; [reflexivity|]. split; [assumption|].
  assert (Ho : (t <- init_tree Nat.eqb two_shared 0 ;; patch_topology_info t) = Some out) by (rewrite E; assumption).
  vm_compute in Ho. injection Ho as <-.
  split; [right; split; reflexivity|]. split; [simpl; intuition discriminate|]. split; [simpl; auto|].
  intros [[A B]|[A B]]; vm_compute in A, B; discriminate.
Qed.

(** ** C18 *)

(** two vertices of any two elements, at any levels, have the same index exactly when they are the same point
    of the glued surface (L: any common level, coordinates in units of 2^-L) *)
Theorem C18_index_is_point : forall verts npts t, mesh_ok verts -> numbered verts npts -> reachable_over verts npts t ->
  forall a b k m L, exists_node t a -> exists_node t b -> k < 4 -> m < 4 -> pos_level a <= L -> pos_level b <= L ->
  (vertex t a k = vertex t b m <->
   same_point verts (2 ^ L)
     (pos_patch a) (2 ^ (L - pos_level a) * (pos_x a + quad_x k)) (2 ^ (L - pos_level a) * (pos_y a + quad_y k))
     (pos_patch b) (2 ^ (L - pos_level b) * (pos_x b + quad_x m)) (2 ^ (L - pos_level b) * (pos_y b + quad_y m))).
Proof.
  intros verts npts t M N R a b k m L Ha Hb Hk Hm La Lb. destruct (over_wf verts npts t M N R) as [Ov [l W]].
  rewrite (vertex_vxs verts t l a k), (vertex_vxs verts t l b m) by assumption.
  pose proof (indices verts M t l W Ov a b k m L Ha Hb Hk Hm La Lb) as I. unfold px, py in I. rewrite <- I.
  split; congruence.
Qed.

(** indices are below get_number_of_points() and all of them occur at leaves *)
Theorem C18_indices_in_range : forall verts npts t, mesh_ok verts -> numbered verts npts -> reachable_over verts npts t ->
  (forall a k, exists_node t a -> k < 4 -> exists v, vertex t a k = Some v /\ v < t_points t) /\
  (forall v, v < t_points t -> exists a k, is_leaf t a /\ k < 4 /\ vertex t a k = Some v).
Proof.
  intros verts npts t M N R. destruct (over_wf verts npts t M N R) as [Ov [l W]]. split.
  - intros a k Ha Hk. exists (vxs (t_store t) a k). split; [eapply vertex_vxs; eassumption|].
    destruct Ov as [K _]. apply (cf_lt _ _ _ _ (cf_conf t K)); assumption.
  - intros v Hv. pose proof Ov as [K _]. destruct (cf_used t K v Hv) as [a [k [La [Hk E]]]]. exists a, k.
    split; [assumption|]. split; [assumption|]. rewrite <- E. eapply vertex_vxs; eauto.
    destruct La as [n [En _]]. unfold exists_node. congruence.
Qed.

(** the theorems apply to every mesh built from a geometry *)
Theorem C18_geometries : forall (Pt : Type) (close : Pt -> Pt -> bool) corners verts t,
  from_geometry close corners verts t -> exists npts, numbered verts npts /\ reachable_over verts npts t.
Proof. intros. eapply from_geometry_over; eassumption. Qed.

(** corner indices: when [close] is an equivalence, corners get the same index exactly when they coincide *)
Theorem C18_corner_indices : forall (Pt : Type) (close : Pt -> Pt -> bool) corners verts pts,
  (forall x, close x x = true) -> (forall x y, close x y = close y x) ->
  (forall x y z, close x y = true -> close y z = true -> close x z = true) ->
  patch_vertices close [] corners = (verts, pts) ->
  forall p k q m x y, get (nth p corners []) k = Some x -> get (nth q corners []) m = Some y ->
  (pvert verts p k = pvert verts q m <-> close x y = true).
Proof.
  intros Pt close corners verts pts R S T E.
  (* every stored point is far from the others, every vertex index refers to a point close to the corner *)
  assert (F : forall (p0 : list Pt) v, find_pt close v p0 < length p0 -> exists z, nth_error p0 (find_pt close v p0) = Some z /\ close z v = true).
  { intros p0 v. induction p0 as [|z p0 IH]; simpl; [lia|]. destruct (close z v) eqn:Ez; [exists z; auto|]. intros H.
    apply IH. lia. }
  assert (F' : forall (p0 : list Pt) v, length p0 <= find_pt close v p0 -> forall z, In z p0 -> close z v = false).
  { intros p0 v. induction p0 as [|z p0 IH]; simpl; [tauto|]. destruct (close z v) eqn:Ez; [lia|]. intros H w [<-|Hw]; [assumption|].
    apply IH; [lia|assumption]. }
  set (sep := fun p0 : list Pt => forall i j x y, nth_error p0 i = Some x -> nth_error p0 j = Some y -> close x y = true -> i = j).
  assert (A1 : forall p0 v k p1, sep p0 -> add_pt close p0 v = (k, p1) -> sep p1 /\ (exists e, p1 = p0 ++ e) /\ exists z, nth_error p1 k = Some z /\ close z v = true).
  { intros p0 v k p1 Sp H. unfold add_pt in H. destruct (find_pt close v p0 <? length p0) eqn:El; injection H as <- <-.
    - apply Nat.ltb_lt in El. split; [assumption|]. split; [exists []; rewrite app_nil_r; reflexivity|]. apply (F p0 v El).
    - apply Nat.ltb_ge in El. pose proof (F' p0 v El) as Far. split; [|split; [eauto|]].
      + assert (NE : forall i x, nth_error (p0 ++ [v]) i = Some x -> (i < length p0 /\ nth_error p0 i = Some x) \/ (i = length p0 /\ x = v)).
        { intros i x Hx. destruct (lt_dec i (length p0)) as [Hi|Hi].
          - left. split; [assumption|]. rewrite nth_error_app1 in Hx; assumption.
          - right. rewrite nth_error_app2 in Hx by lia. destruct (i - length p0) eqn:D; simpl in Hx; [injection Hx as <-; split; [lia|reflexivity]|].
            destruct n; discriminate. }
        intros i j x y Hx Hy C. apply NE in Hx. apply NE in Hy.
        destruct Hx as [[Hi Hx]|[Hi ->]], Hy as [[Hj Hy]|[Hj ->]].
        * apply (Sp i j x y); assumption.
        * apply nth_error_In in Hx. rewrite (Far x Hx) in C. discriminate.
        * apply nth_error_In in Hy. rewrite S, (Far y Hy) in C. discriminate.
        * lia.
      + exists v. rewrite nth_error_app2, Nat.sub_diag by lia. simpl. auto. }
  assert (A2 : forall vs p0 ks p1, sep p0 -> add_pts close p0 vs = (ks, p1) -> sep p1 /\ (exists e, p1 = p0 ++ e) /\
     forall k x, nth_error vs k = Some x -> exists z, nth_error p1 (nth k ks 0) = Some z /\ close z x = true).
  { induction vs as [|v vs IH]; intros p0 ks p1 Sp H; cbn [add_pts] in H.
    - injection H as <- <-. split; [assumption|]. split; [exists []; rewrite app_nil_r; reflexivity|]. intros [|k] x Hx; discriminate.
    - destruct (add_pt close p0 v) as [k1 q1] eqn:E1. destruct (add_pts close q1 vs) as [ks2 q2] eqn:E2. injection H as <- <-.
      destruct (A1 _ _ _ _ Sp E1) as [S1 [[e1 X1] [z [Z1 Z2]]]]. destruct (IH _ _ _ S1 E2) as [S2 [[e2 X2] H2]].
      split; [assumption|]. split; [exists (e1 ++ e2); subst; rewrite app_assoc; reflexivity|].
      intros [|k] x Hx; simpl in Hx |- *.
      + injection Hx as <-. exists z. split; [|assumption]. subst q2. rewrite nth_error_app1; [assumption|]. apply nth_error_Some. congruence.
      + apply H2. assumption. }
  assert (A3 : forall cs p0 kss p1, sep p0 -> patch_vertices close p0 cs = (kss, p1) -> sep p1 /\ (exists e, p1 = p0 ++ e) /\
     forall p k x, nth_error (nth p cs []) k = Some x -> exists z, nth_error p1 (nth k (nth p kss []) 0) = Some z /\ close z x = true).
  { induction cs as [|c cs IH]; intros p0 kss p1 Sp H; cbn [patch_vertices] in H.
    - injection H as <- <-. split; [assumption|]. split; [exists []; rewrite app_nil_r; reflexivity|].
      intros [|p] k x Hx; simpl in Hx; destruct k; discriminate.
    - destruct (add_pts close p0 c) as [ks1 q1] eqn:E1. destruct (patch_vertices close q1 cs) as [kss2 q2] eqn:E2. injection H as <- <-.
      destruct (A2 _ _ _ _ Sp E1) as [S1 [[e1 X1] H1]]. destruct (IH _ _ _ S1 E2) as [S2 [[e2 X2] H2]].
      split; [assumption|]. split; [exists (e1 ++ e2); subst; rewrite app_assoc; reflexivity|].
      intros [|p] k x Hx; simpl in Hx |- *.
      + destruct (H1 k x Hx) as [z [Z1 Z2]]. exists z. split; [|assumption]. subst q2. rewrite nth_error_app1; [assumption|]. apply nth_error_Some. congruence.
      + apply H2. assumption. }
  destruct (A3 corners [] verts pts) as [Sp [_ H]]; [|assumption|].
  { intros [|i] j x y Hx; discriminate. }
  intros p k q m x y Hx Hy. destruct (H p k x Hx) as [z [Z1 Z2]]. destruct (H q m y Hy) as [w [W1 W2]].
  unfold pvert. split.
  - intros Eq. rewrite Eq in Z1. rewrite W1 in Z1. injection Z1 as ->. apply (T x z y); [rewrite S; assumption|assumption].
  - intros C. apply (Sp _ _ z w Z1 W1). apply (T z x w); [assumption|]. apply (T x y w); [assumption|]. rewrite S. assumption.
Qed.

(** the restriction is needed: with two shared edges one element of the refined mesh gets the same
    index at two different corners *)
Theorem C18_two_shared_edges_refuted : exists t a,
  init_tree Nat.eqb two_shared 1 = Some t /\ is_leaf t a /\ vertex t a 0 = vertex t a 2.
Proof.
  destruct (init_tree Nat.eqb two_shared 1) as [t|] eqn:E; [|vm_compute in E; discriminate].
  exists t, [1; 1]. split; [reflexivity|].
  assert (H : (t' <- init_tree Nat.eqb two_shared 1 ;; n <- t_store t' [1; 1] ;; Some (n_ref n, n_verts n)) = Some (false, [5; 0; 5; 12])) by (vm_compute; reflexivity).
  rewrite E in H. cbn [bind] in H. destruct (t_store t [1; 1]) as [n|] eqn:En; [|discriminate]. cbn [bind] in H. injection H as H1 H2.
  split; [exists n; auto|]. unfold vertex. rewrite En, H2. reflexivity.
Qed.

(** ** concrete cases: the surface of a cube (six patches, eight corners) and three patches around a vertex *)
Definition cube : list (list nat) :=
  [[0;1;2;3]; [1;0;4;5]; [2;1;5;6]; [3;2;6;7]; [0;3;7;4]; [5;4;7;6]].
Definition glued_b verts p i q j : bool :=
  ((pvert verts p i =? pvert verts q j) && (pvert verts p ((i+1) mod 4) =? pvert verts q ((j+1) mod 4))) ||
  ((pvert verts p i =? pvert verts q ((j+1) mod 4)) && (pvert verts p ((i+1) mod 4) =? pvert verts q j)).
Lemma glued_b_iff : forall verts p i q j, glued_b verts p i q j = true <-> glued verts p i q j.
Proof.
  intros. unfold glued_b, glued, aligned, opposed. rewrite orb_true_iff, !andb_true_iff, !Nat.eqb_eq. tauto.
Qed.
Definition slots (verts : list (list nat)) : list (nat * nat) := list_prod (seq 0 (length verts)) (seq 0 4).
Lemma slots_in : forall verts p i, p < length verts -> i < 4 -> In (p, i) (slots verts).
Proof. intros. apply in_prod; apply in_seq; lia. Qed.
Definition two_b (verts : list (list nat)) : bool :=
  forallb (fun x => let r := filter (fun y => glued_b verts (fst x) (snd x) (fst y) (snd y)) (slots verts) in length r <=? 2) (slots verts).
Definition one_b (verts : list (list nat)) : bool :=
  forallb (fun x => forallb (fun y => forallb (fun x' => forallb (fun y' =>
    negb ((fst x =? fst x') && (fst y =? fst y') && negb (fst x =? fst y) && glued_b verts (fst x) (snd x) (fst y) (snd y)
      && glued_b verts (fst x') (snd x') (fst y') (snd y')) || (snd x =? snd x')) (slots verts)) (slots verts)) (slots verts)) (slots verts).
Lemma three_in_two : forall {A} (l : list A) x y z, length l <= 2 -> In x l -> In y l -> In z l -> x = y \/ x = z \/ y = z.
Proof.
  intros A [|a [|b [|c l]]] x y z L Hx Hy Hz; simpl in *; try tauto; try lia;
    repeat match goal with H : _ \/ _ |- _ => destruct H end; subst; try tauto; auto.
Qed.
Lemma mesh_ok_b : forall verts, forallb (fun vs => (length vs =? 4)) verts = true ->
  forallb (fun vs => length vs =? length (nodup Nat.eq_dec vs)) verts = true -> two_b verts = true -> one_b verts = true -> mesh_ok verts.
Proof.
  intros verts H1 H2 H3 H4. rewrite forallb_forall in H1, H2. split.
  - intros vs Hv. apply Nat.eqb_eq. auto.
  - intros vs Hv. specialize (H2 vs Hv). apply Nat.eqb_eq in H2.
    apply (NoDup_incl_NoDup (l := nodup Nat.eq_dec vs)); [apply NoDup_nodup|lia|]. intros x Hx. eapply nodup_In; eassumption.
  - intros p i q j r k Hp Hq Hr Hi Hj Hk G1 G2. unfold two_b in H3. rewrite forallb_forall in H3.
    specialize (H3 (p, i) (slots_in verts p i Hp Hi)). cbv zeta in H3. apply Nat.leb_le in H3. simpl in H3.
    apply (three_in_two _ (p, i) (q, j) (r, k) H3); apply filter_In; simpl; rewrite glued_b_iff.
    + split; [apply slots_in; assumption|]. left. split; reflexivity.
    + split; [apply slots_in; assumption|assumption].
    + split; [apply slots_in; assumption|assumption].
  - intros p i j q i' j' Hp Hq Ne Hi Hj Hi' Hj' G1 G2. unfold one_b in H4. rewrite forallb_forall in H4.
    specialize (H4 (p, i) (slots_in _ _ _ Hp Hi)). rewrite forallb_forall in H4.
    specialize (H4 (q, j) (slots_in _ _ _ Hq Hj)). rewrite forallb_forall in H4.
    specialize (H4 (p, i') (slots_in _ _ _ Hp Hi')). rewrite forallb_forall in H4.
    specialize (H4 (q, j') (slots_in _ _ _ Hq Hj')). simpl in H4.
    rewrite !Nat.eqb_refl in H4. rewrite (proj2 (Nat.eqb_neq p q) Ne) in H4.
    rewrite (proj2 (glued_b_iff _ _ _ _ _) G1), (proj2 (glued_b_iff _ _ _ _ _) G2) in H4. simpl in H4. apply Nat.eqb_eq. assumption.
Qed.
Example cube_mesh : mesh_ok cube.
Proof. apply mesh_ok_b; vm_compute; reflexivity. Qed.
Example cube_numbered : numbered cube 8.
Proof.
  intros v. split.
  - intros H. do 8 (destruct v as [|v]; [solve [exists [0;1;2;3]; simpl; tauto | exists [1;0;4;5]; simpl; tauto | exists [5;4;7;6]; simpl; tauto]|]). lia.
  - intros [vs [H1 H2]]. simpl in H1. repeat destruct H1 as [<-|H1]; simpl in H2; lia.
Qed.
(** a history with uniform and local refinement; 26 = number of points of the level-1 mesh *)
Example cube_history : exists t, reachable_over cube 8 t /\ exists_node t [2; 1; 3] /\ t_points t = 31.
Proof.
  destruct (t0 <- init_patches cube 8 1 ;; run t0 [OpUniform; OpNode [1; 3]]) as [t|] eqn:E; [|vm_compute in E; discriminate].
  exists t. split; [|].
  - destruct (init_patches cube 8 1) as [t0|] eqn:E0; [|discriminate]. cbn [bind] in E.
    exists 1, [OpUniform; OpNode [1; 3]], t0. split; [assumption|]. split; [|assumption].
    cbn [ops_valid op_valid]. split; [exact I|]. intros t1 E1. split; [|intros; exact I].
    assert (X : (t0 <- init_patches cube 8 1 ;; t1 <- run_op t0 OpUniform ;; n <- t_store t1 [1; 3] ;; Some tt) <> None) by (vm_compute; discriminate).
    rewrite E0 in X. cbn [bind] in X. rewrite E1 in X. cbn [bind] in X. unfold exists_node. destruct (t_store t1 [1; 3]); [discriminate|]. exfalso. apply X. reflexivity.
  - assert (X : (t <- (t0 <- init_patches cube 8 1 ;; run t0 [OpUniform; OpNode [1; 3]]) ;; n <- t_store t [2; 1; 3] ;; Some (t_points t)) = Some 31) by (vm_compute; reflexivity).
    rewrite E in X. cbn [bind] in X. unfold exists_node. destruct (t_store t [2; 1; 3]); [|discriminate]. cbn [bind] in X. split; [discriminate|congruence].
Qed.
Example geometry_case : exists t, from_geometry Nat.eqb cube cube t.
Proof.
  destruct (init_tree Nat.eqb cube 1) as [t|] eqn:E; [|vm_compute in E; discriminate].
  exists t, 1, [], t. split; [vm_compute; reflexivity|]. split; [|split; [assumption|split; [exact I|reflexivity]]].
  intros c H. simpl in H. repeat destruct H as [<-|H]; reflexivity || tauto.
Qed.

(** an edge shared by three patches (not manifold): the relation is no longer symmetric *)
Definition fan : list (list nat) := [[0;1;2;3]; [1;0;4;5]; [0;1;6;7]].
Theorem C16_three_patches_refuted : exists t,
  init_tree Nat.eqb fan 0 = Some t /\ adj_at (t_store t) [1] 0 = Some [0] /\ adj_at (t_store t) [2] 0 = Some [0] /\
  adj_at (t_store t) [0] 0 = Some [2] /\ forall k, k < 4 -> adj_at (t_store t) [0] k <> Some [1].
Proof.
  destruct (init_tree Nat.eqb fan 0) as [t|] eqn:E; [|vm_compute in E; discriminate].
  assert (X : (t <- init_tree Nat.eqb fan 0 ;; Some (map (adj_at (t_store t) [0]) [0;1;2;3], map (adj_at (t_store t) [1]) [0], map (adj_at (t_store t) [2]) [0]))
    = Some ([Some [2]; None; None; None], [Some [0]], [Some [0]])) by (vm_compute; reflexivity).
  rewrite E in X. cbn [bind map] in X. injection X as X0 X1 X2 X3 X4 X5. exists t. split; [reflexivity|]. split; [assumption|]. split; [assumption|].
  split; [assumption|]. intros k Hk. do 4 (destruct k as [|k]; [congruence|]). lia.
Qed.

(* BEGIN ASSUMPTIONS *)
Print Assumptions C16_neighbours_share_edges.
Print Assumptions C16_symmetric.
Print Assumptions C16_any_history.
Print Assumptions C17_interfaces.
Print Assumptions C17_two_shared_edges_refuted.
Print Assumptions C18_index_is_point.
Print Assumptions C18_indices_in_range.
Print Assumptions C18_geometries.
Print Assumptions C18_corner_indices.
Print Assumptions C18_two_shared_edges_refuted.
Print Assumptions C16_three_patches_refuted.
