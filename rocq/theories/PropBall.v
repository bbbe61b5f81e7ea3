(** C14, C15, C52: enclosing balls and the point list. *)
From Coq Require Import List Arith Reals Lra Lia Bool QArith Qreals.
From Verif Require Import ModelBase ModelTree ModelBall SpecTree SpecMesh SpecBall ProofTree ProofTreeWF ProofTreeHist
  ProofTreeGeo ProofTreeLook ProofBall ProofPoints PropTopo.
Import ListNotations.
Local Close Scope Q_scope.
Local Open Scope nat_scope.

(** C14: never a division by zero; both balls are contained; the radius is that of the property and no
    ball containing both is smaller *)
Theorem C14_enclosing_ball : forall m1 r1 m2 r2, (0 <= r1)%R -> (0 <= r2)%R ->
  exists m r, enclosing_ball (m1, r1) (m2, r2) = Some (m, r) /\
    (forall p, in_ball p (m1, r1) -> in_ball p (m, r)) /\ (forall p, in_ball p (m2, r2) -> in_ball p (m, r)) /\
    r = Rmax (Rmax r1 r2) ((dist m1 m2 + r1 + r2) / 2).
Proof.
  intros m1 r1 m2 r2 H1 H2. destruct (enclosing_ok m1 r1 m2 r2 H1 H2) as [m [r [E [A [B [_ C]]]]]]. exists m, r. auto.
Qed.

Theorem C14_smallest : forall m1 r1 m2 r2 m r m' r', (0 <= r1)%R -> (0 <= r2)%R ->
  enclosing_ball (m1, r1) (m2, r2) = Some (m, r) ->
  (forall p, in_ball p (m1, r1) -> in_ball p (m', r')) -> (forall p, in_ball p (m2, r2) -> in_ball p (m', r')) ->
  (r <= r')%R.
Proof.
  intros m1 r1 m2 r2 m r m' r' H1 H2 E B1 B2. destruct (enclosing_ok m1 r1 m2 r2 H1 H2) as [m0 [r0 [E0 [_ [_ [_ C]]]]]].
  rewrite E in E0. injection E0 as <- <-. rewrite C.
  apply Rmax_lub; [apply Rmax_lub|].
  - eapply ball_in_radius; [assumption|exact B1].
  - eapply ball_in_radius; [assumption|exact B2].
  - eapply smallest; [exact H1|exact H2|exact B1|exact B2].
Qed.

(** C15: every node of any reachable tree gets a ball; it contains the balls of its sons and all vertices of
    all leaves below it (P: the point list, every vertex of a leaf having an entry) *)
Theorem C15_balls_enclose : forall t P, reachable t ->
  (forall a k v, is_leaf t a -> vertex t a k = Some v -> exists p, col P v = Some p) ->
  exists b, enclosings t P = Some b /\ b [] = None /\
    (forall a, exists_node t a -> exists x, b a = Some x /\ (0 <= snd x)%R) /\
    (forall a n x i y, t_store t a = Some n -> n_ref n = true -> i < 4 -> b a = Some x -> b (i :: a) = Some y ->
       forall p, in_ball p y -> in_ball p x) /\
    (forall a e k v p x, exists_node t a -> is_leaf t e -> under a e -> vertex t e k = Some v -> col P v = Some p ->
       b a = Some x -> in_ball p x).
Proof.
  intros t P R HP. destruct (reachable_wf t R) as [[l W] _].
  destruct (enclosings_ok t l P W) as [b [E [E0 K]]].
  { intros a n v En Er Hv. apply In_nth_error in Hv. destruct Hv as [k Hk]. apply (HP a k v); [exists n; auto|].
    unfold vertex. rewrite En. assumption. }
  exists b. split; [assumption|]. split; [assumption|]. split; [|split].
  - intros a Ha. destruct (K a Ha) as [x [n [Bx [Rx _]]]]. eauto.
  - intros a n x i y En Er Hi Bx By. destruct (K a) as [x' [n' [Bx' [_ [En' [S1 _]]]]]]; [congruence|].
    assert (n' = n) by congruence. subst n'. destruct (S1 Er i Hi) as [y' [By' Iy]].
    assert (y' = y) by congruence. assert (x' = x) by congruence. subst. exact Iy.
  - intros a e k v p x Ha Le [z ->] Hv Hp Bx. destruct Le as [n [En Er]].
    assert (Hne : a <> []) by (eapply wf_nonroot; eauto). unfold vertex in Hv. rewrite En in Hv.
    destruct (encl_vertices t l P b W K z a n Hne En Er k v p Hv Hp) as [x' [Bx' Ix]]. congruence.
Qed.

(** C52: the columns of the point list are the surface points of the corners *)
Theorem C52_point_list : forall verts npts t eval, mesh_ok verts -> numbered verts npts -> reachable_over verts npts t ->
  verts <> [] -> fits verts eval ->
  exists P, point_list eval t = Some P /\ length P = t_points t /\
    (forall a k v, exists_node t a -> k < 4 -> vertex t a k = Some v -> col P v = Some (corner_point eval a k)) /\
    (forall v, v < t_points t -> exists p, col P v = Some p).
Proof. exact point_list_ok. Qed.

(** the optional output counts the element corners at a vertex *)
Theorem C52_vertex_counts : forall verts npts t, mesh_ok verts -> numbered verts npts -> reachable_over verts npts t ->
  verts <> [] -> exists l c, traverse t = Some l /\ vertex_counts t = Some c /\ length c = t_points t /\
    forall v, v < t_points t -> 0 < nth v c 0 /\
      nth v c 0 = length (filter (fun ak => match vertex t (fst ak) (snd ak) with Some w => w =? v | None => false end)
                            (list_prod l [0; 1; 2; 3])).
Proof.
  intros verts npts t M N R Hne. destruct (over_wf verts npts t M N R) as [Ov [l W]].
  destruct (C18_indices_in_range verts npts t M N R) as [Rg Us].
  assert (HPt : 0 < t_patches t) by (destruct Ov as [_ [_ ->]]; destruct verts; [congruence|simpl; lia]).
  exists l. unfold vertex_counts. rewrite (traverse_ok t l W HPt). cbn [bind].
  destruct (count_elements_ok t l (repeat 0 (t_points t))) as [c [E [L Nn]]].
  - intros a Ha. apply (wf_leaf t l W) in Ha. destruct Ha as [n [En _]]. exists n. split; [assumption|].
    pose proof (wf_node t l W a n En) as K. split; [apply (nk_verts _ _ K)|]. intros v Hv. rewrite repeat_length.
    apply In_nth_error in Hv. destruct Hv as [k Hk]. assert (Hk4 : k < 4).
    { rewrite <- (nk_verts _ _ K). apply nth_error_Some. congruence. }
    destruct (Rg a k) as [v' [E1 E2]]; [unfold exists_node; congruence|assumption|].
    unfold vertex in E1. rewrite En in E1. congruence.
  - exists c. split; [reflexivity|]. split; [assumption|]. rewrite repeat_length in L. split; [assumption|].
    intros v Hv. rewrite Nn, nth_repeat, Nat.add_0_l. split; [|reflexivity].
    destruct (Us v Hv) as [a [k [La [Hk Ek]]]]. unfold occ.
    match goal with |- 0 < length ?f => assert (I : In (a, k) f) end.
    { apply filter_In. split.
      - apply in_prod; [apply (wf_leaf t l W); assumption|]. simpl. lia.
      - cbn [fst snd]. rewrite Ek. apply Nat.eqb_refl. }
    destruct (filter _ _); [destruct I|simpl; lia].
Qed.

(** all together: for a geometry whose patches fit together, the balls computed from the surface contain
    the corner points of all elements below a cluster *)
Theorem C15_balls_enclose_surface_corners : forall (Pt : Type) (close : Pt -> Pt -> bool) corners verts t eval,
  corners <> [] -> from_geometry close corners verts t -> mesh_ok verts -> fits verts eval ->
  exists P b, point_list eval t = Some P /\ enclosings t P = Some b /\
    forall a e k, exists_node t a -> is_leaf t e -> under a e -> k < 4 ->
      exists x, b a = Some x /\ in_ball (corner_point eval e k) x.
Proof.
  intros Pt close corners verts t eval Hc G M F.
  destruct (C18_geometries _ _ _ _ _ G) as [npts [N Ro]].
  assert (Re : reachable t).
  { destruct G as [ml [os [t0 [_ [H4 [E0 [V E]]]]]]]. exists Pt, close, corners, ml, os, t0. auto. }
  assert (Hv : verts <> []).
  { destruct G as [ml [os [t0 [Ev _]]]]. intros E. rewrite E in Ev. destruct corners as [|c r]; [congruence|].
    cbn [patch_vertices] in Ev. destruct (add_pts close [] c) as [ks p1]. destruct (patch_vertices close p1 r). discriminate. }
  destruct (C52_point_list verts npts t eval M N Ro Hv F) as [P [EP [LP [CP AP]]]].
  destruct (C18_indices_in_range verts npts t M N Ro) as [Rg _].
  assert (Ex : forall e, is_leaf t e -> exists_node t e) by (intros e [n [En _]]; unfold exists_node; congruence).
  destruct (C15_balls_enclose t P Re) as [b [Eb [_ [B1 [_ B2]]]]].
  { intros a k v La Ev. destruct (lt_dec k 4) as [Hk|Hk].
    - exists (corner_point eval a k). apply CP; auto.
    - exfalso. destruct (reachable_wf t Re) as [[l W] _]. destruct La as [n [En _]]. unfold vertex in Ev. rewrite En in Ev.
      apply Hk. rewrite <- (nk_verts _ _ (wf_node t l W a n En)). apply nth_error_Some. congruence. }
  exists P, b. split; [assumption|]. split; [assumption|]. intros a e k Ha Le Ue Hk.
  destruct (B1 a Ha) as [x [Bx _]]. exists x. split; [assumption|].
  destruct (Rg e k (Ex e Le) Hk) as [v [Ev _]]. apply (B2 a e k v (corner_point eval e k) x); auto.
Qed.

(** ** concrete cases *)
(** unit balls around (0,0,0) and (4,0,0): radius 3 *)
Example ball_example : exists m, enclosing_ball ((0, 0, 0), 1)%R ((4, 0, 0), 1)%R = Some (m, 3%R).
Proof.
  destruct (C14_enclosing_ball (0, 0, 0)%R 1%R (4, 0, 0)%R 1%R) as [m [r [E [_ [_ Er]]]]]; try lra.
  exists m. etransitivity; [exact E|]. f_equal. f_equal. rewrite Er. unfold dist. simpl.
  replace (sqrt _) with 4%R; [|symmetry; replace ((0 - 4) * ((0 - 4) * 1) + (0 - 0) * ((0 - 0) * 1) + (0 - 0) * ((0 - 0) * 1))%R with (4 * 4)%R by ring; apply sqrt_square; lra].
  rewrite (Rmax_left 1 1), Rmax_right by lra. lra.
Qed.
(** two unit squares sharing an edge fit together *)
Definition two_squares : list (list nat) := [[0;1;2;3]; [1;4;5;2]].
Definition two_eval (p : nat) (x y : R) : R * R * R := (INR p + x, y, 0)%R.
Example two_squares_fit : mesh_ok two_squares /\ fits two_squares two_eval.
Proof.
  split.
  - apply mesh_ok_b; vm_compute; reflexivity.
  - assert (D : forall p (Q : nat -> Prop), p < length two_squares -> Q 0 -> Q 1 -> Q p) by (intros [|[|p]] Q H; simpl in H; auto; lia).
    assert (D4 : forall k (Q : nat -> Prop), k < 4 -> Q 0 -> Q 1 -> Q 2 -> Q 3 -> Q k) by (intros [|[|[|[|k]]]] Q H; auto; lia).
    constructor.
    + intros p q k m Hp Hq Hk Hm. apply (D p); [assumption| |]; (apply (D q); [assumption| |]); (apply (D4 k); [assumption| | | |]);
        (apply (D4 m); [assumption| | | |]); intros E; vm_compute in E; try discriminate; unfold at_pt, two_eval; simpl; f_equal; try f_equal; ring.
    + intros p q i j s Hp Hq Hi Hj Hs. apply (D p); [assumption| |]; (apply (D q); [assumption| |]); (apply (D4 i); [assumption| | | |]);
        (apply (D4 j); [assumption| | | |]); intros [E E']; vm_compute in E, E'; try discriminate; unfold at_pt, two_eval; simpl; f_equal; try f_equal; ring.
    + intros p q i j s Hp Hq Hi Hj Hs. apply (D p); [assumption| |]; (apply (D q); [assumption| |]); (apply (D4 i); [assumption| | | |]);
        (apply (D4 j); [assumption| | | |]); intros [E E']; vm_compute in E, E'; try discriminate; unfold at_pt, two_eval; simpl; f_equal; try f_equal; ring.
Qed.

(* BEGIN ASSUMPTIONS *)
Print Assumptions C14_enclosing_ball.
Print Assumptions C14_smallest.
Print Assumptions C15_balls_enclose.
Print Assumptions C52_point_list.
Print Assumptions C52_vertex_counts.
Print Assumptions C15_balls_enclose_surface_corners.
