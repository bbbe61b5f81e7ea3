(** C88, second part: the compressed matrix of the same geometry: it exists for all operators of the library, the elements of its
    far-field blocks are far from each other, and for the Laplace operators on flat patches the product with it converges exponentially
    to the product with the full matrix when the number of interpolation points grows. *)
From Coq Require Import Reals Lra Lia Arith Bool List ZArith QArith Qreals.
From Coquelicot Require Import Coquelicot.
From Verif Require Import RSum SpecBernstein ModelBase ModelBernstein ModelTree ModelBall ModelBlock ModelH2 ModelInterp ModelH2Init ModelQuad ModelAssembly ModelDuffy ModelOperators ModelPipeline
  SpecTree SpecMesh SpecBall SpecBlock SpecInterp SpecDuffy SpecCheb SpecFlat SpecQuad ProofTree ProofTreeWF ProofTreeHist ProofTreeGeo ProofTreeLook ProofBall ProofOperators ProofDuffy ProofDuffyInt ProofPipeline
  PropTree PropBlock PropTopo PropBall PropH2 PropAssembly PropInterp PropDuffy PropQuad PropCompare PropConform PropFarLaplace PropNearFar PropFarDouble PropGalerkin PropCompressed PropPipeline PropMotion ProofMotion ProofNearFar ProofGaussErr ProofCheb.
Import ListNotations.
Local Close Scope Q_scope.
Local Open Scope R_scope.

(** two balls whose points have distance at least D *)
Lemma balls_distance : forall m1 r1 m2 r2 D, 0 < D -> 0 <= r1 -> 0 <= r2 ->
  (forall p q, in_ball p (m1, r1) -> in_ball q (m2, r2) -> D <= dist p q) -> D <= vnorm (vsub m1 m2) - r1 - r2.
Proof.
  intros m1 r1 m2 r2 D HD H1 H2 Hpq. set (z := vsub m2 m1). set (d := vnorm z).
  assert (Ed : vnorm (vsub m1 m2) = d) by (unfold d, z; apply vnorm_sym). rewrite Ed.
  assert (Em : m2 = vadd m1 (vscal 1 z)) by (unfold z; destruct m1 as [[? ?] ?], m2 as [[? ?] ?]; unfold vadd, vscal, vsub, vx, vy, vz; cbn [fst snd]; f_equal; [f_equal|]; ring).
  assert (E0 : m1 = vadd m1 (vscal 0 z)) by (destruct m1 as [[? ?] ?]; unfold vadd, vscal, vsub, vx, vy, vz; cbn [fst snd]; f_equal; [f_equal|]; ring).
  assert (Dz : forall c e, dist (vadd m1 (vscal c z)) (vadd m1 (vscal e z)) = Rabs (c - e) * d) by (intros; apply shift_dist).
  assert (B1 : forall c, Rabs c * d <= r1 -> in_ball (vadd m1 (vscal c z)) (m1, r1)) by (intros; apply shift_in; assumption).
  assert (B2 : forall c, Rabs (c - 1) * d <= r2 -> in_ball (vadd m1 (vscal c z)) (m2, r2)).
  { intros c Hc. unfold in_ball. cbn [fst snd]. rewrite Em, Dz. exact Hc. }
  assert (Hd : 0 < d).
  { assert (Q : D <= dist (vadd m1 (vscal 0 z)) (vadd m1 (vscal 1 z))) by (apply Hpq; [apply B1; rewrite Rabs_R0; lra|apply B2; replace (1 - 1) with 0 by ring; rewrite Rabs_R0; lra]).
    rewrite Dz in Q. replace (0 - 1) with (- (1)) in Q by ring. rewrite Rabs_Ropp, Rabs_R1 in Q. lra. }
  set (c := Rmin (r1 / d) 1).
  assert (Hc : 0 <= c <= 1 /\ c * d <= r1).
  { unfold c. assert (0 <= r1 / d) by (apply Rmult_le_pos; [lra|apply Rlt_le, Rinv_0_lt_compat, Hd]). split; [split; [apply Rmin_glb; lra|apply Rmin_r]|].
    apply Rle_trans with (r1 / d * d); [apply Rmult_le_compat_r; [lra|apply Rmin_l]|right; field; lra]. }
  assert (Bc : in_ball (vadd m1 (vscal c z)) (m1, r1)) by (apply B1; rewrite Rabs_right by lra; lra).
  destruct (Rle_lt_dec d (r1 + r2)) as [L|L].
  - exfalso. assert (Q : D <= dist (vadd m1 (vscal c z)) (vadd m1 (vscal c z))).
    { apply Hpq; [exact Bc|apply B2]. rewrite Rabs_minus_sym, Rabs_right by lra. unfold c. destruct (Rle_lt_dec 1 (r1 / d)) as [Q|Q]; [rewrite Rmin_right by lra; lra|rewrite Rmin_left by lra].
      replace ((1 - r1 / d) * d) with (d - r1) by (field; lra). lra. }
    rewrite dist_self in Q. lra.
  - set (e := 1 - r2 / d). assert (He : (1 - e) * d = r2) by (unfold e; field; lra). assert (Hce : c * d <= e * d) by (destruct Hc; nra).
    assert (Cd : c * d = r1). { unfold c. rewrite Rmin_left; [field; lra|]. apply Rmult_le_reg_r with d; [exact Hd|]. replace (r1 / d * d) with r1 by (field; lra). lra. }
    assert (Q : D <= dist (vadd m1 (vscal c z)) (vadd m1 (vscal e z))).
    { apply Hpq; [exact Bc|apply B2]. rewrite Rabs_minus_sym. rewrite Rabs_right; [lra|]. apply Rle_ge. apply Rmult_le_reg_r with d; [exact Hd|]. lra. }
    rewrite Dz, Rabs_minus_sym, Rabs_right in Q by (apply Rle_ge; apply Rmult_le_reg_r with d; [exact Hd|]; lra). lra.
Qed.

(** ** the balls of the clusters of a mesh *)
Section Geo.
Variables (X : surface) (P M : nat) (g : mesh).
Hypothesis HX : surface_mesh X P.
Hypothesis Eg : init_mesh X P M = Some g.
Let t := g_tree g.
Let b := g_balls g.
Lemma mesh_geometry : from_geometry close_points (corners_of X P) (patch_numbers X P) t.
Proof.
  destruct (corners_facts X P (proj1 HX)) as [Hc [H4 Lc]]. destruct (C88_mesh X P M g (proj1 HX) Eg) as [Et _].
  exists M, [], t. split; [reflexivity|]. split; [exact H4|]. split; [exact Et|]. split; [exact I|reflexivity].
Qed.
Lemma mesh_reach : reachable t.
Proof.
  destruct mesh_geometry as [ml [os [t0 [_ [H4 [E0 [V E]]]]]]]. exists vec3, close_points, (corners_of X P), ml, os, t0.
  split; [apply (corners_facts X P (proj1 HX))|]. split; [exact H4|]. split; [exact E0|]. split; [exact V|exact E].
Qed.
Lemma ball_facts : b [] = None /\
  (forall a, exists_node t a -> exists x, b a = Some x /\ 0 <= snd x) /\
  (forall a n x i y, t_store t a = Some n -> n_ref n = true -> (i < 4)%nat -> b a = Some x -> b (i :: a) = Some y -> forall p, in_ball p y -> in_ball p x) /\
  (forall e k v, is_leaf t e -> (k < 4)%nat -> vertex t e k = Some v -> exists p, col (g_points g) v = Some p /\ forall a x, exists_node t a -> under a e -> b a = Some x -> in_ball p x).
Proof.
  destruct HX as [HP [MO FI]]. destruct (corners_facts X P HP) as [Hc [H4 Lc]]. destruct (C88_mesh X P M g HP Eg) as [Et [Ep [Eb _]]].
  destruct (C18_geometries _ _ _ _ _ mesh_geometry) as [npts [N Ro]].
  assert (Hv : patch_numbers X P <> []).
  { unfold patch_numbers. intros Q. destruct (corners_of X P) as [|c r]; [congruence|]. cbn [patch_vertices] in Q. destruct (add_pts close_points [] c) as [ks p1]. destruct (patch_vertices close_points p1 r). discriminate Q. }
  destruct (C52_point_list _ npts t (points_of X) MO N Ro Hv FI) as [P' [EP [LP [CP AP]]]].
  fold t in Ep, Eb. rewrite Ep in EP. apply some_eq in EP. subst P'.
  assert (CV : forall a k v, is_leaf t a -> vertex t a k = Some v -> exists p, col (g_points g) v = Some p).
  { intros a k v La Ev. destruct (lt_dec k 4) as [Hk|Hk].
    - exists (corner_point (points_of X) a k). apply CP; auto. destruct La as [n [En _]]. unfold exists_node. congruence.
    - exfalso. destruct (reachable_wf t mesh_reach) as [[l W] _]. destruct La as [n [En _]]. unfold vertex in Ev. rewrite En in Ev.
      apply Hk. rewrite <- (nk_verts _ _ (wf_node t l W a n En)). apply nth_error_Some. congruence. }
  destruct (C15_balls_enclose t (g_points g) mesh_reach CV) as [b' [Eb' [B0 [B1 [B2 B3]]]]]. rewrite Eb in Eb'. apply some_eq in Eb'. unfold b. rewrite Eb'.
  split; [exact B0|]. split; [exact B1|]. split; [exact B2|]. intros e k v Le Hk Ev. destruct (CV e k v Le Ev) as [p Hp]. exists p. split; [exact Hp|].
  intros a x Ea Ua Bx. apply (B3 a e k v p x Ea Le Ua Ev Hp Bx).
Qed.
Lemma nested : forall a e x y, exists_node t a -> exists_node t e -> under a e -> b a = Some x -> b e = Some y -> forall p, in_ball p y -> in_ball p x.
Proof.
  intros a e x y Ea Ee [s ->]. destruct (reachable_wf t mesh_reach) as [[l W] _]. destruct ball_facts as [_ [B1 [B2 _]]].
  assert (Na : a <> []) by (eapply wf_nonroot; eassumption).
  revert x y Ee. induction s as [|i s IH]; intros x y Ee Bx By p Hp.
  - cbn [app] in By. assert (x = y) by congruence. subst y. exact Hp.
  - cbn [app] in By, Ee. assert (Ns : s ++ a <> []) by (destruct s; [exact Na|discriminate]).
    destruct (proj1 (wf_son t l W i (s ++ a) Ns) Ee) as [Hi [n [En Rn]]]. assert (Es : exists_node t (s ++ a)) by (unfold exists_node; congruence).
    destruct (B1 _ Es) as [z [Bz _]]. apply (IH x z Es Bx Bz). apply (B2 (s ++ a) n z i y En Rn Hi Bz By p Hp).
Qed.
Lemma mesh_root_near : forall eta, near_of (mid_of b) (rad_of b) eta [] [] = true.
Proof. intros eta. unfold near_of, rad_of. rewrite (proj1 ball_facts). reflexivity. Qed.
(** every leaf of the tree is an element *)
Lemma leaf_element : forall a, is_leaf t a -> exists E, In E (g_elements g) /\ e_addr E = a /\ t_store t a = Some (e_node E) /\ b a = Some (e_mid E, e_rad E).
Proof.
  intros a La. destruct (C88_mesh X P M g (proj1 HX) Eg) as [_ [_ [_ [[l [Tr El]] _]]]]. fold t b in Tr, El.
  destruct (reachable_wf t mesh_reach) as [[l' W] HPt]. rewrite (traverse_ok t l' W HPt) in Tr. apply some_eq in Tr. subst l'.
  destruct (elements_nth t b l _ El) as [Ll Hn]. apply (wf_leaf t l W) in La. destruct (In_nth l a [] La) as [i [Hi Ei]].
  destruct (Hn i Hi) as [E [Ne [Ae [Se Eo]]]]. rewrite Ei in *. exists E. split; [eapply nth_error_In; eassumption|]. split; [exact Ae|]. split; [exact Se|].
  unfold element_of in Eo. rewrite Se in Eo. cbn [bind] in Eo. destruct (b a) as [x|]; [|discriminate]. cbn [bind] in Eo. apply some_eq in Eo. rewrite <- Eo. cbn [e_mid e_rad]. destruct x; reflexivity.
Qed.
(** the elements below the clusters of a far-field block: they are disjoint, and their distance is at least that of the clusters *)
Lemma far_elements : forall eta mincl bt B a1 a2 E1 E2, 0 < eta -> block_tree t (near_of (mid_of b) (rad_of b) eta) mincl = Some bt -> In B (leaves bt) -> b_cc B = LowRank ->
  In E1 (g_elements g) -> In E2 (g_elements g) -> e_addr E1 = a1 -> e_addr E2 = a2 -> is_leaf t a1 -> is_leaf t a2 -> b a1 = Some (e_mid E1, e_rad E1) -> b a2 = Some (e_mid E2, e_rad E2) ->
  t_store t a1 = Some (e_node E1) -> t_store t a2 = Some (e_node E2) -> under (b_c1 B) a1 -> under (b_c2 B) a2 ->
  snd (fst (compare_elements E1 E2)) = 0%nat /\ snd (compare_elements E1 E2) = element_distance E1 E2 /\
  exists m1 r1 m2 r2, b (b_c1 B) = Some (m1, r1) /\ b (b_c2 B) = Some (m2, r2) /\ 0 < dist3 m1 m2 - r1 - r2 /\ dist3 m1 m2 - r1 - r2 <= element_distance E1 E2.
Proof.
  intros eta mincl bt B a1 a2 E1 E2 He Eb HB Hl I1 I2 A1 A2 L1 L2 B1 B2 S1 S2 U1 U2.
  destruct (reachable_wf t mesh_reach) as [[l W] HPt]. destruct (block_tree_ok t l (near_of (mid_of b) (rad_of b) eta) mincl W HPt) as [bt' [Eb' Hleaf]]. rewrite Eb in Eb'. apply some_eq in Eb'. subst bt'.
  destruct (Hleaf B HB) as [C1 [C2 [Len [Cc _]]]]. rewrite Hl in Cc.
  assert (Hne : b_c1 B <> [] /\ b_c2 B <> []).
  { split; intro Q; rewrite Q in *; cbn [length] in Len; [symmetry in Len|]; apply length_zero_iff_nil in Len; rewrite Len in Cc; unfold compare_cluster in Cc; rewrite mesh_root_near in Cc; destruct (_ <=? _)%Z in Cc; discriminate. }
  destruct C1 as [C1|C1]; [tauto|]. destruct C2 as [C2|C2]; [tauto|].
  destruct ball_facts as [_ [F1 [_ F3]]]. destruct (F1 _ C1) as [[m1 r1] [K1 R1]]. destruct (F1 _ C2) as [[m2 r2] [K2 R2]]. cbn [snd] in R1, R2.
  assert (Nf : near_of (mid_of b) (rad_of b) eta (b_c1 B) (b_c2 B) = false). { unfold compare_cluster in Cc. destruct (near_of _ _ _ _ _) eqn:Q; [|reflexivity]. destruct (_ <=? _)%Z in Cc; discriminate. }
  assert (Hd : 0 < dist3 m1 m2 - r1 - r2).
  { unfold near_of, mid_of, rad_of in Nf. rewrite K1, K2 in Nf. cbn [fst snd] in Nf.
    assert (E : norm3 m1 m2 = dist3 m1 m2) by (unfold norm3, dist3; destruct m1 as [[u v] w], m2 as [[u' v'] w']; reflexivity). rewrite E in Nf.
    destruct (Rlt_dec 0 (dist3 m1 m2 - r1 - r2)) as [H0|H0]; [exact H0|]. exfalso. rewrite Rmult_0_r in Nf. destruct (Rlt_dec r2 r1); destruct (Rle_dec _ _) as [Q|Q] in Nf; try discriminate; apply Q; assumption. }
  set (D := dist3 m1 m2 - r1 - r2) in *.
  assert (D3 : dist3 m1 m2 = dist m1 m2) by (destruct m1 as [[u v] w], m2 as [[u' v'] w']; unfold dist3, dist, Rsqr; cbn [fst snd]; f_equal; ring).
  assert (Far : forall p q, in_ball p (m1, r1) -> in_ball q (m2, r2) -> D <= dist p q).
  { intros p q Hp Hq. unfold in_ball in Hp, Hq. cbn [fst snd] in Hp, Hq. unfold D. rewrite D3. pose proof (dist_tri m1 p m2) as T1. pose proof (dist_tri p q m2) as T2. rewrite (dist_sym m1 p) in T1. lra. }
  assert (X1 : exists_node t a1) by (destruct L1 as [n [En _]]; unfold exists_node; congruence). assert (X2 : exists_node t a2) by (destruct L2 as [n [En _]]; unfold exists_node; congruence).
  assert (G1 : forall p, in_ball p (e_mid E1, e_rad E1) -> in_ball p (m1, r1)) by (apply (nested (b_c1 B) a1 _ _ C1 X1 U1 K1 B1)).
  assert (G2 : forall p, in_ball p (e_mid E2, e_rad E2) -> in_ball p (m2, r2)) by (apply (nested (b_c2 B) a2 _ _ C2 X2 U2 K2 B2)).
  assert (P1 : 0 <= e_rad E1) by (destruct (F1 _ X1) as [z [Bz Rz]]; rewrite B1 in Bz; apply some_eq in Bz; subst z; exact Rz).
  assert (P2 : 0 <= e_rad E2) by (destruct (F1 _ X2) as [z [Bz Rz]]; rewrite B2 in Bz; apply some_eq in Bz; subst z; exact Rz).
  assert (De : D <= vnorm (vsub (e_mid E1) (e_mid E2)) - e_rad E1 - e_rad E2) by (apply balls_distance; [exact Hd|exact P1|exact P2|]; intros p q Hp Hq; apply Far; [apply G1, Hp|apply G2, Hq]).
  assert (Dl : D <= element_distance E1 E2) by (unfold element_distance; cbv zeta; destruct (Rle_dec 0 _) as [Q|Q]; lra).
  assert (Nv : forall k1 k2, (k1 < 4)%nat -> (k2 < 4)%nat -> e_vert E1 k1 <> e_vert E2 k2).
  { intros k1 k2 H1 H2 Q. pose proof (wf_node t l W a1 _ S1) as N1. pose proof (wf_node t l W a2 _ S2) as N2.
    assert (V1 : vertex t a1 k1 = Some (e_vert E1 k1)) by (unfold vertex, e_vert; rewrite S1; apply nth_error_nth'; rewrite (nk_verts _ _ N1); exact H1).
    assert (V2 : vertex t a2 k2 = Some (e_vert E2 k2)) by (unfold vertex, e_vert; rewrite S2; apply nth_error_nth'; rewrite (nk_verts _ _ N2); exact H2).
    destruct (F3 a1 k1 _ L1 H1 V1) as [p1 [Q1 T1]]. destruct (F3 a2 k2 _ L2 H2 V2) as [p2 [Q2 T2]]. rewrite Q in Q1. assert (p1 = p2) by congruence. subst p2.
    pose proof (Far p1 p1 (T1 _ _ C1 U1 K1) (T2 _ _ C2 U2 K2)) as Z. rewrite dist_self in Z. lra. }
  assert (Na : addr_eqb (e_addr E1) (e_addr E2) = false).
  { destruct (addr_eqb (e_addr E1) (e_addr E2)) eqn:Q; [|reflexivity]. exfalso. apply addr_eqb_eq in Q. rewrite A1, A2 in Q. subst a2. rewrite Q in S1. assert (En : e_node E1 = e_node E2) by congruence.
    apply (Nv 0%nat 0%nat); [lia|lia|]. unfold e_vert. rewrite En. reflexivity. }
  split; [|split].
  - unfold compare_elements. rewrite Na. cbv zeta. destruct (Rlt_dec _ _); [reflexivity|]. cbn [fst]. unfold compare_vertices.
    destruct (find _ _) as [[k1 k2]|] eqn:Fd; [|reflexivity]. exfalso. apply find_some in Fd. destruct Fd as [In0 Eq]. apply in_prod_iff in In0. rewrite !in_seq in In0. cbn [fst snd] in Eq. apply Nat.eqb_eq in Eq. apply (Nv k1 k2); [lia|lia|exact Eq].
  - unfold compare_elements. rewrite Na. cbv zeta. destruct (Rlt_dec _ _); reflexivity.
  - exists m1, r1, m2, r2. auto.
Qed.
End Geo.

(** ** the setting of the theorems about flat patches *)
Lemma mesh_setting : forall X P M g O U V, surface_mesh X P -> init_mesh X P M = Some g -> flat_surface X O U V -> (forall p, area U V p <> 0) ->
  far_setting close_points (corners_of X P) M (g_tree g) X O U V (g_points g) (g_balls g) (mid_of (g_balls g)) (rad_of (g_balls g)).
Proof.
  intros X P M g O U V HX Eg FX FA. destruct (corners_facts X P (proj1 HX)) as [Hc [H4 Lc]]. destruct (C88_mesh X P M g (proj1 HX) Eg) as [Et [Ep [Eb _]]]. destruct HX as [HP [MO FI]].
  constructor; try assumption; [|reflexivity]. intros a x Ea. unfold mid_of. rewrite Ea. reflexivity.
Qed.

(** ** two quadrature rules in the far field *)
Section Rules.
Context {Pt : Type} (close : Pt -> Pt -> bool) (corners : list (list Pt)) (M : nat) (t : tree) (X : surface) (O U V : nat -> vec3)
  (P : list (option vec3)) (b : balls) (mid : addr -> vec3) (rad : addr -> option R).
Hypothesis FS : far_setting close corners M t X O U V P b mid rad.
Lemma far_pair : forall eta mincl bt B a1 a2 n1 n2, block_tree t (near_of mid rad eta) mincl = Some bt ->
  In B (leaves bt) -> b_cc B = LowRank -> 0 < eta ->
  t_store t a1 = Some n1 -> t_store t a2 = Some n2 -> is_leaf t a1 -> is_leaf t a2 -> under (b_c1 B) a1 -> under (b_c2 B) a2 ->
  exists x1 x2, b (b_c1 B) = Some x1 /\ b (b_c2 B) = Some x2 /\ let d := dist3 (fst x1) (fst x2) - snd x1 - snd x2 in 0 < d /\
    side_ok U V n1 (2 * eta * d) /\ side_ok U V n2 (2 * eta * d) /\
    forall s s', in_square s -> in_square s' -> d <= vnorm (vsub (p_f (surf_point X n1 s 0)) (p_f (surf_point X n2 s' 0))).
Proof.
  intros eta mincl bt B a1 a2 n1 n2 Eb HB Hlr He S1 S2 L1 L2 U1 U2.
  destruct (lowrank_clusters Pt close corners M t X O U V P b mid rad FS eta mincl bt B Eb HB Hlr) as [c1 [c2 [Ec1 Ec2]]].
  destruct (reachable_wf t (fs_reach close corners M t X O U V P b mid rad FS)) as [[l W] HP].
  destruct (block_tree_ok t l (near_of mid rad eta) mincl W HP) as [bt' [E' H']]. rewrite Eb in E'. apply some_eq in E'. subst bt'.
  destruct (H' B HB) as [_ [_ [_ [Cc _]]]]. rewrite Hlr in Cc. unfold compare_cluster in Cc.
  destruct (near_of mid rad eta (b_c1 B) (b_c2 B)) eqn:En; [destruct (_ <=? _)%Z in Cc; discriminate|].
  destruct (element_facts close corners M t X O U V P b mid rad FS _ _ a1 n1 Ec1 S1 L1 U1) as [x1 [B1 [R1 [In1 Sd1]]]]. destruct (element_facts close corners M t X O U V P b mid rad FS _ _ a2 n2 Ec2 S2 L2 U2) as [x2 [B2 [R2 [In2 Sd2]]]].
  destruct (near_false close corners M t X O U V P b mid rad FS eta _ _ x1 x2 B1 B2 R1 R2 En) as [A1 A2]. exists x1, x2. split; [exact B1|]. split; [exact B2|]. cbv zeta. set (d := dist3 (fst x1) (fst x2) - snd x1 - snd x2) in *.
  pose proof (Rmax_l (snd x1) (snd x2)). pose proof (Rmax_r (snd x1) (snd x2)). split; [unfold d; lra|].
  split; [split; destruct Sd1; lra|]. split; [split; destruct Sd2; lra|].
  intros s s' Is Is'. unfold d. destruct x1 as [m1 r1], x2 as [m2 r2]. cbn [fst snd] in *. apply balls_apart; [apply In1, Is|apply In2, Is'].
Qed.
(** what a rule of degree m + p contributes at distance d *)
Definition rule_error (eta d : R) (m : nat) : R := 4 * (INR m + 1) ^ 2 * (/ d + / d ^ 2) * (growth m * (eta / 2) ^ m).
Lemma rule_error_le : forall eta d0 d m, 0 < eta -> (0 < m)%nat -> 0 < d0 -> d0 <= d -> 0 <= rule_error eta d m <= rule_error eta d0 m.
Proof.
  intros eta d0 d m He Hm H0 Hd. pose proof (growth_nonneg m Hm) as HG. change (0 <= growth m) in HG. assert (Pn : 0 <= (eta / 2) ^ m) by (apply pow_le; lra).
  assert (G : 0 <= growth m * (eta / 2) ^ m) by (apply Rmult_le_pos; assumption). pose proof (pow2_ge_0 (INR m + 1)) as Sq.
  assert (I1 : 0 < / d) by (apply Rinv_0_lt_compat; lra). assert (I2 : 0 < / d ^ 2) by (apply Rinv_0_lt_compat, pow_lt; lra).
  assert (J1 : / d <= / d0) by (apply Rinv_le_contravar; lra). assert (J2 : / d ^ 2 <= / d0 ^ 2) by (apply Rinv_le_contravar; [apply pow_lt; lra|apply pow_incr; lra]).
  unfold rule_error. split; [apply Rmult_le_pos; [apply Rmult_le_pos; lra|exact G]|]. apply Rmult_le_compat_r; [exact G|]. apply Rmult_le_compat_l; lra.
Qed.
Lemma two_rules : forall op ss eta mincl bt B a1 a2 E1 E2 i j d0 a0 dq m xi w dq' m' xi' w', op = laplace_sl \/ op = laplace_dl \/ op = laplace_adl -> ss_M ss = M ->
  block_tree t (near_of mid rad eta) mincl = Some bt -> In B (leaves bt) -> b_cc B = LowRank -> 0 < eta ->
  t_store t a1 = Some (e_node E1) -> t_store t a2 = Some (e_node E2) -> is_leaf t a1 -> is_leaf t a2 -> under (b_c1 B) a1 -> under (b_c2 B) a2 -> (i < ss_n2 ss)%nat -> (j < ss_n2 ss)%nat ->
  far_distance b bt d0 -> (forall p, (p < length corners)%nat -> area U V p <= a0) ->
  exact_rule dq xi w -> positive_rule xi w -> (0 < m)%nat -> (m + ss_p ss <= dq)%nat -> exact_rule dq' xi' w' -> positive_rule xi' w' -> (0 < m')%nat -> (m' + ss_p ss <= dq')%nat ->
  Rabs (integrate1 (op_kern op ss X) E1 E2 (tensor_rule (xi, w)) i j - integrate1 (op_kern op ss X) E1 E2 (tensor_rule (xi', w')) i j) <=
  ss_h ss * ss_h ss * (a0 * a0 / (4 * PI)) * (rule_error eta d0 m + rule_error eta d0 m').
Proof.
  intros op ss eta mincl bt B a1 a2 E1 E2 i j d0 a0 dq m xi w dq' m' xi' w' Hop HM Eb HB Hlr He S1 S2 L1 L2 U1 U2 Hi Hj Hd0 Ha HE HR Hm Hdq HE' HR' Hm' Hdq'.
  destruct (far_pair eta mincl bt B a1 a2 (e_node E1) (e_node E2) Eb HB Hlr He S1 S2 L1 L2 U1 U2) as [[m1 r1] [[m2 r2] [B1 [B2 [Hd [K1 [K2 Aw]]]]]]]. cbn [fst snd] in *. set (d := dist3 m1 m2 - r1 - r2) in *.
  destruct Hd0 as [D0 Hd0]. pose proof (Hd0 B m1 r1 m2 r2 HB Hlr B1 B2) as Dd. fold d in Dd.
  destruct (lowrank_clusters Pt close corners M t X O U V P b mid rad FS eta mincl bt B Eb HB Hlr) as [c1 [c2 [Ec1 Ec2]]].
  pose proof (fs_four _ _ _ _ _ _ _ _ _ _ _ _ FS) as H4. pose proof (fs_tree _ _ _ _ _ _ _ _ _ _ _ _ FS) as Et.
  destruct (level_patch close corners M t a1 (e_node E1) (b_c1 B) c1 H4 Et S1 L1 Ec1 U1) as [V1 _].
  assert (Lv : n_level (e_node E1) = ss_M ss) by congruence. assert (HL : 0 <= 2 * eta * d) by (apply Rmult_le_pos; lra).
  pose proof (fs_flat _ _ _ _ _ _ _ _ _ _ _ _ FS) as FX. pose proof (fs_area _ _ _ _ _ _ _ _ _ _ _ _ FS) as FA.
  destruct (C79_disjoint_elements X O U V ss dq m xi w E1 E2 i j (2 * eta * d) d FX FA Lv HE HR Hm Hdq Hi Hj Hd HL K1 K2 Aw) as [[v1 [I1 Q1]] [[v2 [I2 Q2]] [v3 [I3 Q3]]]].
  destruct (C79_disjoint_elements X O U V ss dq' m' xi' w' E1 E2 i j (2 * eta * d) d FX FA Lv HE' HR' Hm' Hdq' Hi Hj Hd HL K1 K2 Aw) as [[v1' [I1' Q1']] [[v2' [I2' Q2']] [v3' [I3' Q3']]]].
  rewrite (integral4_unique _ _ _ I1' I1) in Q1'. rewrite (integral4_unique _ _ _ I2' I2) in Q2'. rewrite (integral4_unique _ _ _ I3' I3) in Q3'. clear I1 I2 I3 I1' I2' I3' v1' v2' v3'.
  replace (2 * eta * d / (4 * d)) with (eta / 2) in * by (field; lra).
  set (k := area U V (n_patch (e_node E1)) * area U V (n_patch (e_node E2)) / (4 * PI)) in *. pose proof PI_RGT_0 as Pp. pose proof (h_pos ss) as Hh.
  pose proof (patch_bound Pt close corners M t X O U V P b mid rad FS a1 _ S1) as P1. pose proof (patch_bound Pt close corners M t X O U V P b mid rad FS a2 _ S2) as P2.
  assert (N1 : 0 <= area U V (n_patch (e_node E1))) by apply vnorm_nonneg. assert (N2 : 0 <= area U V (n_patch (e_node E2))) by apply vnorm_nonneg.
  assert (Ip : 0 < / (4 * PI)) by (apply Rinv_0_lt_compat; lra).
  assert (Hk : 0 <= k <= a0 * a0 / (4 * PI)).
  { unfold k, Rdiv. split; [apply Rmult_le_pos; [apply Rmult_le_pos; assumption|lra]|]. apply Rmult_le_compat_r; [lra|]. apply Rmult_le_compat; try assumption; apply Ha; assumption. }
  assert (Sq : forall z, (0 < z)%nat -> 4 * (INR z + 1) ^ 2 / d ^ 2 * (growth z * (eta / 2) ^ z) <= rule_error eta d0 z /\ 4 / d * (growth z * (eta / 2) ^ z) <= rule_error eta d0 z).
  { intros z Hz. pose proof (growth_nonneg z Hz) as HG. change (0 <= growth z) in HG. assert (Pn : 0 <= (eta / 2) ^ z) by (apply pow_le; lra).
    assert (G : 0 <= growth z * (eta / 2) ^ z) by (apply Rmult_le_pos; assumption). destruct (rule_error_le eta d0 d z He Hz D0 Dd) as [_ Le].
    assert (I1 : 0 < / d) by (apply Rinv_0_lt_compat; lra). assert (I2 : 0 < / d ^ 2) by (apply Rinv_0_lt_compat, pow_lt; lra).
    assert (S1' : 1 <= (INR z + 1) ^ 2) by (pose proof (pos_INR z); replace 1 with (1 ^ 2) at 1 by ring; apply pow_incr; lra).
    split; (eapply Rle_trans; [|exact Le]); unfold rule_error, Rdiv; apply Rmult_le_compat_r; try exact G.
    - apply Rmult_le_compat_l; [apply Rmult_le_pos; lra|lra].
    - replace (4 * / d) with (4 * 1 * / d) by ring. apply Rmult_le_compat; [lra|lra|apply Rmult_le_compat_l; lra|lra]. }
  assert (Fin : forall v e e' A1 A2, Rabs (A1 - ss_h ss * ss_h ss * v) <= ss_h ss * ss_h ss * k * e -> Rabs (A2 - ss_h ss * ss_h ss * v) <= ss_h ss * ss_h ss * k * e' ->
    0 <= e -> 0 <= e' -> e <= rule_error eta d0 m -> e' <= rule_error eta d0 m' -> Rabs (A1 - A2) <= ss_h ss * ss_h ss * (a0 * a0 / (4 * PI)) * (rule_error eta d0 m + rule_error eta d0 m')).
  { intros v e e' A1 A2 F1 F2 P0 P0' F3 F4. replace (A1 - A2) with ((A1 - ss_h ss * ss_h ss * v) - (A2 - ss_h ss * ss_h ss * v)) by ring.
    eapply Rle_trans; [apply Rabs_triang|]. rewrite Rabs_Ropp. assert (H2 : 0 <= ss_h ss * ss_h ss) by nra.
    apply Rle_trans with (ss_h ss * ss_h ss * k * (e + e')); [rewrite Rmult_plus_distr_l; lra|]. apply Rmult_le_compat; [apply Rmult_le_pos; lra|lra|apply Rmult_le_compat_l; lra|lra]. }
  assert (Pos : forall z, (0 < z)%nat -> 0 <= 4 / d * (growth z * (eta / 2) ^ z) /\ 0 <= 4 * (INR z + 1) ^ 2 / d ^ 2 * (growth z * (eta / 2) ^ z)).
  { intros z Hz. pose proof (growth_nonneg z Hz) as HG. change (0 <= growth z) in HG. assert (Pn : 0 <= (eta / 2) ^ z) by (apply pow_le; lra).
    assert (G : 0 <= growth z * (eta / 2) ^ z) by (apply Rmult_le_pos; assumption). assert (I1 : 0 < / d) by (apply Rinv_0_lt_compat; lra). assert (I2 : 0 < / d ^ 2) by (apply Rinv_0_lt_compat, pow_lt; lra).
    pose proof (pow2_ge_0 (INR z + 1)). split; apply Rmult_le_pos; try exact G; unfold Rdiv; apply Rmult_le_pos; lra. }
  destruct (Sq m Hm) as [S1' S2']. destruct (Sq m' Hm') as [T1 T2]. destruct (Pos m Hm) as [Y1 Y2]. destruct (Pos m' Hm') as [Z1 Z2].
  rewrite !(Rmult_assoc (ss_h ss * ss_h ss * k)) in Q1, Q2, Q3, Q1', Q2', Q3'.
  destruct Hop as [ -> | [ -> | -> ] ]; [apply (Fin v1 _ _ _ _ Q1 Q1')|apply (Fin v2 _ _ _ _ Q2 Q2')|apply (Fin v3 _ _ _ _ Q3 Q3')]; assumption.
Qed.
End Rules.

(** ** the quadrature of the code *)
(** the rule with d + 1 points: points in the unit interval, positive weights, exact for polynomials of degree 2 d + 1 *)
Definition gauss_rule (d : Z) (r : list R * list R) : Prop := positive_rule (fst r) (snd r) /\ exact_rule (2 * (Z.to_nat d + 1)) (fst r) (snd r).
(** all rules the forms of the elements els use are Gauss rules; the degrees are below the limit of the code *)
Definition forms_quadrature (els : list element) (p order : Z) (M : nat) (rules : Z -> list R * list R) : Prop :=
  (forall d, length (fst (rules d)) = length (snd (rules d)) /\ (0 < length (fst (rules d)))%nat) /\
  forall E1 E2, In E1 els -> In E2 els -> let deg := Z.max (nearfield_degree p order (snd (compare_elements E1 E2)) M) (farfield_degree p order) in
    (deg < 50)%Z /\ gauss_rule deg (rules deg).
Lemma integrate1_node : forall op ss X E1 E2 F1 F2 Q, e_node E1 = e_node F1 -> e_node E2 = e_node F2 -> integrate1 (op_kern op ss X) E1 E2 Q = integrate1 (op_kern op ss X) F1 F2 Q.
Proof.
  intros op ss X [b1 n1 m1 r1] [b2 n2 m2 r2] [c1 o1 k1 s1] [c2 o2 k2 s2] Q G1 G2. cbn [e_node] in G1, G2. subst o1 o2. reflexivity.
Qed.
Section Converge.
Variables (X : surface) (O U V : nat -> vec3) (P M : nat) (g : mesh).
Hypothesis HX : surface_mesh X P.
Hypothesis Eg : init_mesh X P M = Some g.
Hypothesis FX : flat_surface X O U V.
Hypothesis FA : forall p, area U V p <> 0.
Lemma mesh_far_quadrature : forall op ss order rules eta mincl bt d0 a0 m xi w dq' m', let p := Z.of_nat (ss_p ss) in
  op = laplace_sl \/ op = laplace_dl \/ op = laplace_adl -> ss_M ss = M ->
  block_tree (g_tree g) (near_of (mid_of (g_balls g)) (rad_of (g_balls g)) eta) mincl = Some bt -> 0 < eta ->
  far_distance (g_balls g) bt d0 -> (forall q, (q < P)%nat -> area U V q <= a0) -> forms_quadrature (g_elements g) p order M rules ->
  (0 < m)%nat -> (m + ss_p ss <= 2 * (Z.to_nat (farfield_degree p order) + 1))%nat ->
  exact_rule dq' xi w -> positive_rule xi w -> (0 < m')%nat -> (m' + ss_p ss <= dq')%nat ->
  far_quadrature (g_tree g) X op ss (op_form op ss X order (fun d => tensor_rule (rules d)) (g_elements g)) xi w bt
    (ss_h ss * ss_h ss * (a0 * a0 / (4 * PI)) * (rule_error eta d0 m + rule_error eta d0 m')).
Proof.
  intros op ss order rules eta mincl bt d0 a0 m xi w dq' m' p Hop HM Eb He Hd0 Ha [Hr Hq] Hm Hdq HE' HR' Hm' Hdq' B a1 a2 E1 E2 i j HB Hl S1 S2 L1 L2 U1 U2 Hi Hj.
  pose proof (mesh_setting X P M g O U V HX Eg FX FA) as FS. destruct (corners_facts X P (proj1 HX)) as [Hc [H4 Lc]].
  destruct (leaf_element X P M g HX Eg a1 L1) as [F1 [I1 [A1 [T1 B1]]]]. destruct (leaf_element X P M g HX Eg a2 L2) as [F2 [I2 [A2 [T2 B2]]]].
  assert (N1 : e_node E1 = e_node F1) by congruence. assert (N2 : e_node E2 = e_node F2) by congruence. rewrite (integrate1_node op ss X E1 E2 F1 F2) by assumption. rewrite N1, N2.
  destruct (far_elements X P M g HX Eg eta mincl bt B a1 a2 F1 F2 He Eb HB Hl I1 I2 A1 A2 L1 L2 B1 B2 T1 T2 U1 U2) as [C0 _].
  pose proof (C88_entries X P M g op ss order rules F1 F2 (proj1 HX) Eg I1 I2 Hr) as Q. cbv zeta in Q. fold p in Q. rewrite C0 in Q.
  destruct (Hq F1 F2 I1 I2) as [Hd [GP GE]]. rewrite (Q Hd). clear Q.
  set (deg := Z.max (nearfield_degree p order (snd (compare_elements F1 F2)) M) (farfield_degree p order)) in *.
  assert (Dle : (Z.to_nat (farfield_degree p order) <= Z.to_nat deg)%nat) by (assert (farfield_degree p order <= deg)%Z by (unfold deg; lia); clearbody deg; lia).
  destruct (rules deg) as [x0 w0]. cbn [fst snd] in GP, GE.
  apply (two_rules close_points (corners_of X P) M (g_tree g) X O U V (g_points g) (g_balls g) (mid_of (g_balls g)) (rad_of (g_balls g)) FS op ss eta mincl bt B a1 a2 F1 F2 i j d0 a0 (2 * (Z.to_nat deg + 1)) m x0 w0 dq' m' xi w); try assumption.
  - rewrite Lc. exact Ha.
  - lia.
Qed.
End Converge.

(** ** the compressed matrix *)
(** init_H2Matrix succeeds for every operator of the library; the result describes a matrix of the dimension of the full one, whose
    dense blocks agree with it (before the transformation to the basis) *)
Theorem C88_compressed_exists : forall X P M g k op ss order GS eta mincl n xi w ja jm, surface_mesh X P -> init_mesh X P M = Some g ->
  In op (library_operators k) -> (0 <= mincl)%Z -> (0 < n)%nat ->
  exists H, compressed_operator op ss X P M order GS eta mincl n xi w ja jm = Some H /\ h2_of_mesh H P M /\ h_vd H = op_vd op /\ comp_size H P M = (ss_n2 ss * t_elements (g_tree g))%nat /\
    exists A, described_by H P M A /\
    forall m, assembled (op_vd op) (ss_n2 ss) (t_elements (g_tree g)) (op_form op ss X order GS (g_elements g)) (map e_node (g_elements g)) m ->
      forall B a1 a2 e1 e2 rc cc m1 m2, In B (leaves (h_blocks H)) -> b_cc B = Dense ->
      t_store (g_tree g) a1 = Some e1 -> t_store (g_tree g) a2 = Some e2 -> is_leaf (g_tree g) a1 -> is_leaf (g_tree g) a2 -> under (b_c1 B) a1 -> under (b_c2 B) a2 ->
      (rc < op_vd op)%nat -> (cc < op_vd op)%nat -> (m1 < ss_n2 ss)%nat -> (m2 < ss_n2 ss)%nat ->
      let N := (P * 4 ^ M)%nat in A (row_of (ss_n2 ss) N rc m1 e1) (row_of (ss_n2 ss) N cc m2 e2) = m (row_of (ss_n2 ss) N rc m1 e1) (row_of (ss_n2 ss) N cc m2 e2).
Proof.
  intros X P M g k op ss order GS eta mincl n xi w ja jm HX Eg Hop H0 Hn.
  destruct (corners_facts X P (proj1 HX)) as [Hc [H4 Lc]]. destruct (C88_mesh X P M g (proj1 HX) Eg) as [Et [_ [_ [_ [Me [_ [Lt _]]]]]]].
  destruct (reachable_wf (g_tree g) (mesh_reach X P M g HX Eg)) as [[l W] HPt]. set (near := near_of (mid_of (g_balls g)) (rad_of (g_balls g)) eta).
  destruct (block_tree_ok (g_tree g) l near mincl W HPt) as [bt [Eb _]].
  assert (EH : exists H, h2_init (op_linop op ss X (op_form op ss X order GS (g_elements g))) (g_tree g) near mincl n xi w ja jm = Some H) by (unfold h2_init; rewrite Eb; cbn [bind]; eauto).
  destruct EH as [H EH]. exists H. split; [unfold compressed_operator; rewrite Eg; exact EH|].
  assert (NF : (0 < op_nF op)%nat /\ (0 < op_vd op)%nat).
  { unfold library_operators in Hop. cbn [app flat_map fst snd] in Hop. simpl in Hop. repeat (destruct Hop as [<-|Hop]; [cbn; lia|]). destruct Hop. }
  assert (SU : h2_of_mesh H P M).
  { rewrite <- Lc. apply (C54_setup vec3 close_points (corners_of X P) M (g_tree g) (op_linop op ss X (op_form op ss X order GS (g_elements g))) near mincl n xi w ja jm H Hc H4 Et); try assumption; try apply NF.
    apply (mesh_root_near X P M g HX Eg). }
  destruct (h2_init_facts _ _ _ _ _ _ _ _ _ _ EH) as [T1 [T2 [T3 [T4 [T5 [T6 T7]]]]]].
  split; [exact SU|]. split; [exact T7|]. split; [unfold comp_size; rewrite T4, Lt; reflexivity|].
  destruct (C29_matrix_exists H P M SU) as [A DA]. exists A. split; [exact DA|].
  intros m Am B a1 a2 e1 e2 rc cc m1 m2 HB Hd S1 S2 L1 L2 U1 U2 R1 R2 M1 M2 N. unfold N. rewrite <- Lc. rewrite <- Lc in DA.
  apply (C54_dense_entries_agree vec3 close_points (corners_of X P) M (g_tree g) (op_linop op ss X (op_form op ss X order GS (g_elements g))) near mincl n xi w ja jm H A (map e_node (g_elements g)) m Hc H4 Et EH DA Me Am B a1 a2); assumption.
Qed.
(** ** convergence: for the Laplace operators on flat patches, with the default admissibility or any eta below 2, the product with the
    compressed matrix differs from that with the full matrix by a term that decreases exponentially with the number n of interpolation
    points per direction, and by the quadrature error of the far-field entries of the full matrix itself.  The moments of the clusters
    are computed with a rule exact for polynomials of degree below n + p, as GL[ceil((n + p - 2) / 2)] is. *)
Lemma projected_product : forall D nd (T m : mat) rhs u,
  rsum (fun v => projected D T m u v * rhs v) nd = rsum (fun q => T q u * rsum (fun q' => m q q' * rsum (fun j => T q' j * rhs j) nd) D) D.
Proof.
  intros D nd T m rhs u. unfold projected.
  rewrite (rsum_ext _ (fun v => rsum (fun q => T q u * rsum (fun q' => m q q' * T q' v) D * rhs v) D) nd) by (intros; rewrite <- rsum_scal_r; reflexivity).
  rewrite rsum_swap. apply rsum_ext. intros q Hq.
  rewrite (rsum_ext _ (fun v => T q u * (rsum (fun q' => m q q' * T q' v) D * rhs v)) nd) by (intros; ring). rewrite rsum_scal. f_equal.
  rewrite (rsum_ext _ (fun v => rsum (fun q' => m q q' * (T q' v * rhs v)) D) nd).
  - rewrite rsum_swap. apply rsum_ext. intros q' Hq'. rewrite rsum_scal. reflexivity.
  - intros v Hv. rewrite <- rsum_scal_r. apply rsum_ext. intros; ring.
Qed.
Theorem C88_compressed_converges : forall X O U V P M g op ss order rules eta mincl T nd m a0, surface_mesh X P -> init_mesh X P M = Some g ->
  flat_surface X O U V -> (forall p, area U V p <> 0) -> (forall q, (q < P)%nat -> area U V q <= a0) ->
  op = laplace_sl \/ op = laplace_dl \/ op = laplace_adl -> 0 < eta < 2 -> (0 <= mincl)%Z -> ss_M ss = M ->
  let p := Z.of_nat (ss_p ss) in let GS := fun d => tensor_rule (rules d) in let D := (ss_n2 ss * t_elements (g_tree g))%nat in
  forms_quadrature (g_elements g) p order M rules -> (0 < m)%nat -> (m + ss_p ss <= 2 * (Z.to_nat (farfield_degree p order) + 1))%nat ->
  exists bt d0 c q, block_tree (g_tree g) (near_of (mid_of (g_balls g)) (rad_of (g_balls g)) eta) mincl = Some bt /\ far_distance (g_balls g) bt d0 /\
  0 <= c /\ 0 <= q < 1 /\ let E := ss_h ss * ss_h ss * (a0 * a0 / (4 * PI)) * rule_error eta d0 m in
  forall n xi w ja jm H F alpha rhs res res', (0 < n)%nat -> positive_rule xi w -> exact_rule (n + ss_p ss) xi w ->
  compressed_operator op ss X P M order GS eta mincl n xi w ja jm = Some H -> full_operator op ss X P M order GS T F ->
  h2_product H D nd T alpha rhs res res' -> forall u,
  Rabs (res' u - (res u + alpha * rsum (fun v => F u v * rhs v) nd)) <=
  Rabs alpha * ((c * q ^ n + E) * norm1 D (fun r => T r u) * norm1 D (fun r => rsum (fun v => T r v * rhs v) nd)).
Proof.
  intros X O U V P M g op ss order rules eta mincl T nd m a0 HX Eg FX FA Ha Hop He H0 HM p GS D HQ Hm Hdq.
  pose proof (mesh_setting X P M g O U V HX Eg FX FA) as FS. destruct (corners_facts X P (proj1 HX)) as [Hc [H4 Lc]].
  destruct (C88_mesh X P M g (proj1 HX) Eg) as [Et [_ [_ [_ [Me _]]]]]. set (form := op_form op ss X order GS (g_elements g)).
  assert (Vd : op_vd op = 1%nat) by (destruct Hop as [ -> | [ -> | -> ] ]; reflexivity).
  destruct (C33_assembly_exists 1 (ss_n2 ss) (t_elements (g_tree g)) form (map e_node (g_elements g))) as [A0 Am].
  destruct (reachable_wf (g_tree g) (mesh_reach X P M g HX Eg)) as [[l W] HPt].
  destruct (block_tree_ok (g_tree g) l (near_of (mid_of (g_balls g)) (rad_of (g_balls g)) eta) mincl W HPt) as [bt [Eb _]].
  destruct (C85_distance vec3 close_points (corners_of X P) M (g_tree g) X O U V (g_points g) (g_balls g) (mid_of (g_balls g)) (rad_of (g_balls g)) FS eta mincl bt (proj1 He) Eb) as [d0 Hd0].
  destruct (C85_converges vec3 close_points (corners_of X P) M (g_tree g) X O U V (g_points g) (g_balls g) (mid_of (g_balls g)) (rad_of (g_balls g)) FS op ss form eta mincl (map e_node (g_elements g)) A0 Hop He H0 HM Me Am) as [c1 [q1 [C1 [Q1 HC]]]].
  destruct (exponential (eta / 2) ltac:(lra)) as [c2 [q2 [C2 [Q2 HE]]]].
  pose proof PI_RGT_0 as Pp. pose proof (h_pos ss) as Hh. pose proof (proj1 Hd0) as D0.
  set (f := ss_h ss * ss_h ss * (a0 * a0 / (4 * PI))). set (E := f * rule_error eta d0 m).
  assert (Hf : 0 <= f). { unfold f. apply Rmult_le_pos; [nra|]. apply Rmult_le_pos; [apply Rle_0_sqr|apply Rlt_le, Rinv_0_lt_compat; lra]. }
  assert (HE0 : 0 <= E) by (apply Rmult_le_pos; [exact Hf|apply (rule_error_le eta d0 d0 m); lra || assumption]).
  assert (D1 : 0 < / d0) by (apply Rinv_0_lt_compat, D0). assert (D2 : 0 < / d0 ^ 2) by (apply Rinv_0_lt_compat, pow_lt, D0).
  set (c3 := f * (4 * (/ d0 + / d0 ^ 2)) * c2). assert (C3 : 0 <= c3) by (apply Rmult_le_pos; [apply Rmult_le_pos; lra|exact C2]).
  exists bt, d0, (c1 + c3), (Rmax q1 q2). split; [exact Eb|]. split; [exact Hd0|]. split; [lra|]. split; [split; [eapply Rle_trans; [apply Q1|apply Rmax_l]|apply Rmax_lub_lt; lra]|].
  intros E' n xi w ja jm H F alpha rhs res res' Hn HR HX' EC EF HP u. change E' with E. clear E'.
  assert (EH : h2_init (op_linop op ss X form) (g_tree g) (near_of (mid_of (g_balls g)) (rad_of (g_balls g)) eta) mincl n xi w ja jm = Some H) by (unfold compressed_operator in EC; rewrite Eg in EC; exact EC).
  destruct (h2_init_facts _ _ _ _ _ _ _ _ _ _ EH) as [T1 [T2 [T3 [T4 [T5 [T6 T7]]]]]].
  assert (SU : h2_of_mesh H P M).
  { rewrite <- Lc. apply (C54_setup vec3 close_points (corners_of X P) M (g_tree g) (op_linop op ss X form) (near_of (mid_of (g_balls g)) (rad_of (g_balls g)) eta) mincl n xi w ja jm H Hc H4 Et); try assumption.
    - apply (mesh_root_near X P M g HX Eg).
    - destruct Hop as [ -> | [ -> | -> ] ]; cbn; lia.
    - destruct Hop as [ -> | [ -> | -> ] ]; cbn; lia. }
  destruct (C29_matrix_exists H P M SU) as [A DA].
  set (delta := f * (rule_error eta d0 m + rule_error eta d0 n)).
  assert (Eq : h_blocks H = bt) by congruence.
  assert (FQ : far_quadrature (g_tree g) X op ss form xi w (h_blocks H) delta).
  { rewrite Eq. exact (mesh_far_quadrature X O U V P M g HX Eg FX FA op ss order rules eta mincl bt d0 a0 m xi w (n + ss_p ss) n Hop HM Eb (proj1 He) Hd0 Ha HQ Hm Hdq HX' HR Hn (le_n _)). }
  assert (Rn : 0 <= rule_error eta d0 n) by (apply (rule_error_le eta d0 d0 n); lra || assumption).
  assert (Hdel : 0 <= delta) by (unfold delta; rewrite Rmult_plus_distr_l; fold E; assert (0 <= f * rule_error eta d0 n) by (apply Rmult_le_pos; assumption); lra).
  assert (DA' : described_by H (length (corners_of X P)) M A) by (rewrite Lc; exact DA).
  pose proof (HC n xi w ja jm H A delta Hn HR Hdel EH DA' FQ) as Ent.
  (* the bound of the entries *)
  assert (Qn : forall q, 0 <= q -> q <= Rmax q1 q2 -> q ^ n <= Rmax q1 q2 ^ n) by (intros; apply pow_incr; lra).
  pose proof (Qn q1 (proj1 Q1) (Rmax_l _ _)) as G1. pose proof (Qn q2 (proj1 Q2) (Rmax_r _ _)) as G2. set (r := Rmax q1 q2) in *.
  assert (Gn : f * rule_error eta d0 n <= c3 * r ^ n).
  { unfold rule_error, c3. replace (f * (4 * (INR n + 1) ^ 2 * (/ d0 + / d0 ^ 2) * (growth n * (eta / 2) ^ n))) with (f * (4 * (/ d0 + / d0 ^ 2)) * (growth n * (INR n + 1) ^ 2 * (eta / 2) ^ n)) by ring.
    rewrite (Rmult_assoc _ c2). apply Rmult_le_compat_l; [apply Rmult_le_pos; lra|]. eapply Rle_trans; [apply HE, Hn|]. apply Rmult_le_compat_l; assumption. }
  assert (Bd : c1 * q1 ^ n + delta <= (c1 + c3) * r ^ n + E).
  { unfold delta. rewrite Rmult_plus_distr_l. fold E. assert (c1 * q1 ^ n <= c1 * r ^ n) by (apply Rmult_le_compat_l; assumption). lra. }
  assert (Dim : (h_vd H * comp_size H P M)%nat = D).
  { unfold comp_size. rewrite T7, T4. cbn [o_vd o_p op_linop]. rewrite Vd. destruct (C88_mesh X P M g (proj1 HX) Eg) as [_ [_ [_ [_ [_ [_ [Lt _]]]]]]]. unfold D. rewrite Lt. unfold ss_n2. lia. }
  rewrite <- Dim in HP. pose proof (C85_product H P M A nd T alpha rhs res res' A0 ((c1 + c3) * r ^ n + E) SU DA) as PR. cbv zeta in PR. rewrite Dim in PR, HP.
  assert (Ent' : forall i j, (i < D)%nat -> (j < D)%nat -> Rabs (A i j - A0 i j) <= (c1 + c3) * r ^ n + E) by (intros i j Hi Hj; eapply Rle_trans; [apply Ent; assumption|exact Bd]).
  specialize (PR Ent' HP u).
  assert (EF0 : full_operator op ss X P M order GS T (projected D T A0)).
  { exists g, A0. split; [exact Eg|]. rewrite Vd. split; [exact Am|]. unfold D. rewrite Nat.mul_1_l. reflexivity. }
  assert (Ef : rsum (fun v => F u v * rhs v) nd = rsum (fun v => projected D T A0 u v * rhs v) nd).
  { apply rsum_ext. intros v Hv. rewrite (C88_full_unique op ss X P M order GS T F (projected D T A0) (proj1 HX) EF EF0). reflexivity. }
  rewrite Ef, projected_product. exact PR.
Qed.

(** ** a concrete case: two sheets far from each other, whose block is compressed; the rule with three points has degree 5 *)
Lemma sheet_numbers : patch_numbers far_sheets 2 = far_corners.
Proof.
  assert (E : corners_of far_sheets 2 = map (map sheet_point) far_corners).
  { unfold corners_of, far_corners, unit_corners, far_sheets, sheet_point. cbn [map seq fst snd]. cbn [Nat.modulo Nat.div Nat.divmod Nat.sub nth].
    unfold far_O, far_U, far_V, vadd, vscal, vx, vy, vz. cbn [fst snd INR].
    repeat match goal with |- cons _ _ = cons _ _ => f_equal end; try reflexivity; f_equal; [f_equal| |f_equal| |f_equal| |f_equal| |f_equal| |f_equal| |f_equal| |f_equal|]; ring. }
  unfold patch_numbers. rewrite E. pose proof (patch_vertices_map Nat.eqb close_points sheet_point (fun l => (l < 8)%nat) sheet_close far_corners [] ltac:(constructor)) as Q. cbn [map] in Q.
  rewrite Q; [vm_compute; reflexivity|]. unfold far_corners. repeat constructor.
Qed.
Lemma flat_degree : forall d, (nearfield_degree 0 (-1) d 0 <= 0)%Z.
Proof.
  intros d. unfold nearfield_degree.
  assert (T : forall x, x <= 0 -> (trunc x <= 0)%Z).
  { intros x Hx. unfold trunc. destruct (Rle_dec 0 x) as [Hz|Hz].
    - assert (x = 0) by lra. subst x. assert (Int_part 0 = 0%Z); [|lia]. destruct (base_Int_part 0) as [A1 A2]. assert (-1 < IZR (Int_part 0)) by lra. apply lt_IZR in H. assert (IZR (Int_part 0) <= IZR 0) by lra. apply le_IZR in H0. lia.
    - destruct (base_Int_part (- x)) as [A1 A2]. assert (IZR (Int_part (- x)) > -1) by lra. apply Rgt_lt in H. apply (lt_IZR (-1)) in H. lia. }
  apply T. unfold nearfield_numerator, nearfield_denominator, distance_log. cbn [INR pow Nat.add]. rewrite Rmult_1_r. rewrite !Rmult_0_l, !Rmult_0_r, !Rmult_0_l, Ropp_0.
  assert (L2 : 0 < ln 2) by (rewrite <- ln_1; apply ln_increasing; lra).
  destruct (Rlt_dec d 1) as [Hd|Hd].
  - rewrite Rmult_0_r, Rminus_0_r, Rmult_0_r. unfold Rdiv. rewrite Rmult_0_l. lra.
  - assert (Ld : 0 <= ln d) by (destruct (Req_dec d 1) as [->|Ne]; [rewrite ln_1; lra|apply Rlt_le; rewrite <- ln_1; apply ln_increasing; lra]).
    match goal with |- context [IZR (2 - ?z + ?y)%Z] => change (IZR (2 - z + y)) with 1 end. unfold Rdiv.
    assert (I0 : 0 < / ((1 + 1) * ln 2 + ln d)) by (apply Rinv_0_lt_compat; lra). assert (Y : 0 <= ln d * / ((1 + 1) * ln 2 + ln d)) by (apply Rmult_le_pos; [exact Ld|apply Rlt_le, I0]).
    match goal with |- ?g <= 0 => replace g with (- (/ 2 * (ln d * / ((1 + 1) * ln 2 + ln d)))) by ring end. revert Y. generalize (ln d * / ((1 + 1) * ln 2 + ln d)). intros y Y. lra.
Qed.

Example C88_compressed_example : let rules := fun _ : Z => (gauss3_x, gauss3_w) in let GS := fun d => tensor_rule (rules d) in let ss := mkSS 0 0 zero_arr zero_arr zero_arr zero_arr in
  surface_mesh far_sheets 2 /\ flat_surface far_sheets far_O far_U far_V /\ (forall p, area far_U far_V p <> 0) /\ exists g, init_mesh far_sheets 2 0 = Some g /\
  forms_quadrature (g_elements g) (Z.of_nat (ss_p ss)) (-1) 0 rules /\ (6 + ss_p ss <= 2 * (Z.to_nat (farfield_degree (Z.of_nat (ss_p ss)) (-1)) + 1))%nat /\
  positive_rule gauss3_x gauss3_w /\ exact_rule (6 + ss_p ss) gauss3_x gauss3_w /\
  exists H B, compressed_operator laplace_sl ss far_sheets 2 0 (-1) GS 1 0 6 gauss3_x gauss3_w zero_arr zero_mat = Some H /\ In B (leaves (h_blocks H)) /\ b_cc B = LowRank /\
  forall T rhs nd, exists F res', full_operator laplace_sl ss far_sheets 2 0 (-1) GS T F /\ h2_product H (ss_n2 ss * t_elements (g_tree g)) nd T 1 rhs zero_arr res'.
Proof.
  intros rules GS ss. destruct far_fits as [MO FI].
  assert (SM : surface_mesh far_sheets 2) by (split; [lia|]; rewrite sheet_numbers; split; assumption). split; [exact SM|].
  destruct C79_disjoint_example as [FX [FA _]]. split; [exact FX|]. split; [exact FA|].
  destruct C87_example as [_ [g [Eg [_ EC]]]]. exists g. split; [exact Eg|].
  assert (PR : positive_rule gauss3_x gauss3_w) by apply singular_example.
  split.
  { split; [intros d; cbn; lia|]. intros E1 E2 I1 I2 deg. assert (deg = 2%Z) by (unfold deg; pose proof (flat_degree (snd (compare_elements E1 E2))); cbn in *; lia). split; [lia|]. rewrite H. split; [exact PR|exact gauss3_exact]. }
  split; [cbn; lia|]. split; [exact PR|]. split; [exact gauss3_exact|].
  destruct (C88_compressed_exists far_sheets 2 0 g Ci laplace_sl ss (-1) GS 1 0 6 gauss3_x gauss3_w zero_arr zero_mat SM Eg (or_introl eq_refl) ltac:(lia) ltac:(lia)) as [H [EH [SU [Vd [Cs _]]]]].
  destruct (EC laplace_sl ss (-1)%Z GS) as [H' [B [EH' [HB Cc]]]]. exists H, B. split; [exact EH|].
  assert (Eq : h_blocks H = h_blocks H').
  { unfold compressed_operator in EH, EH'. rewrite Eg in EH, EH'. cbn [bind] in EH, EH'. destruct (h2_init_facts _ _ _ _ _ _ _ _ _ _ EH) as [_ [_ [T3 _]]]. destruct (h2_init_facts _ _ _ _ _ _ _ _ _ _ EH') as [_ [_ [T3' _]]]. congruence. }
  rewrite Eq. split; [exact HB|]. split; [exact Cc|]. intros T rhs nd.
  destruct (C88_full_exists laplace_sl ss far_sheets 2 0 (-1) GS T SM) as [F EF].
  destruct (C28_execution_exists H (ss_n2 ss * t_elements (g_tree g)) nd T 1 rhs zero_arr) as [res' HP]. exists F, res'. split; [exact EF|exact HP].
Qed.

(* BEGIN ASSUMPTIONS *)
Print Assumptions C88_compressed_exists.
Print Assumptions C88_compressed_converges.
