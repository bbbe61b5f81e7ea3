(** C90: the unit of length.  Enlarging the geometry by a factor enlarges the mesh and multiplies the entries of the operators by a power
    of the factor, with the wave number changed to the new unit; two places of the library are not of this kind. *)
From Coq Require Import Reals Lra Lia Arith Bool List ZArith QArith Qreals FunctionalExtensionality.
From Coquelicot Require Import Complex.
From Verif Require Import RSum ModelBase ModelBernstein ModelTree ModelBall ModelBlock ModelH2 ModelH2Init ModelQuad ModelDuffy ModelAssembly ModelUtil ModelOperators ModelForms ModelL2 ModelPipeline SpecTree SpecMesh SpecBall SpecFlat.
From Verif Require Import ProofTree ProofTreeWF ProofTreeGeo ProofTreeHist ProofPoints ProofBall ProofMotion ProofCompare ProofPipeline.
From Verif Require Import PropTopo PropBall PropAssembly PropQuad PropCompare PropOperators PropFarLaplace PropMotion PropPipeline.
From Verif Require Import SpecScale ProofScale.
Import ListNotations.
Local Close Scope Q_scope.
Local Open Scope R_scope.

(** the mesh of the enlarged geometry is the enlarged mesh; it exists exactly if the mesh of the geometry exists *)
Theorem C90_mesh : forall l X P M, 0 < l -> same_corners l X P -> init_mesh (scaled l X) P M = option_map (scaled_mesh l) (init_mesh X P M).
Proof. intros l X P M Hl HS. apply scaled_init_mesh; assumption. Qed.
(** the same pairs of clusters are admissible *)
Theorem C90_admissibility : forall l g eta a c, 0 < l ->
  near_of (mid_of (g_balls (scaled_mesh l g))) (rad_of (g_balls (scaled_mesh l g))) eta a c = near_of (mid_of (g_balls g)) (rad_of (g_balls g)) eta a c.
Proof. intros l g eta a c Hl. apply scaled_near. exact Hl. Qed.
(** the functions of two points: the integrands of the quadrature and the kernels interpolated on pairs of clusters *)
Theorem C90_operators : forall l k op' op e ss X, 0 < l -> In (op', op, e) (scaled_operators l k) ->
  (forall e1 s e2 t a b, (a < op_vd op * ss_n2 ss)%nat -> (b < op_vd op * ss_n2 ss)%nat -> op_kern op' ss (scaled l X) (scaled_element l e1) s (scaled_element l e2) t a b = l ^ e * op_kern op ss X e1 s e2 t a b) /\
  (forall c1 s c2 t i j, op_fmm op' (surf_point (scaled l X) c1 s 0) (surf_point (scaled l X) c2 t 0) i j = l ^ e * op_fmm op (surf_point X c1 s 0) (surf_point X c2 t 0) i j).
Proof.
  intros l k op' op e ss X Hl Hop. split; intros.
  - apply (scaled_op_kern l Hl k op' op e ss X); assumption.
  - rewrite !scaled_surf. apply (scaled_op_fmm l Hl k op' op e). exact Hop.
Qed.

(** elements with a common vertex have distance 0 *)
Lemma common_distance : forall X P M g E1 E2 k m, surface_mesh X P -> init_mesh X P M = Some g -> In E1 (g_elements g) -> In E2 (g_elements g) ->
  (k < 4)%nat -> (m < 4)%nat -> e_vert E1 k = e_vert E2 m -> element_distance E1 E2 = 0.
Proof.
  intros X P M g E1 E2 k m [HP [MO FI]] Eg I1 I2 Hk Hm EV. destruct (corners_facts X P HP) as [Hc [H4 Lc]]. destruct (C88_mesh X P M g HP Eg) as [Et [Ep [Eb [Mb _]]]].
  assert (G : from_geometry close_points (corners_of X P) (patch_numbers X P) (g_tree g)) by (exists M, [], (g_tree g); split; [reflexivity|]; split; [exact H4|]; split; [exact Et|]; split; [exact I|reflexivity]).
  destruct (C15_balls_enclose_surface_corners _ close_points (corners_of X P) (patch_numbers X P) (g_tree g) (points_of X) Hc G MO FI) as [pts [b [Ep' [Eb' Bd]]]].
  rewrite Ep in Ep'. apply some_eq in Ep'. subst pts. rewrite Eb in Eb'. apply some_eq in Eb'. subst b.
  destruct (uniform_elements close_points (corners_of X P) M _ _ _ Hc H4 Et Mb) as [_ Lv]. destruct (Lv E1 I1) as [V1 [Lf1 [A1 _]]]. destruct (Lv E2 I2) as [V2 [Lf2 [A2 _]]].
  destruct (C18_geometries _ _ _ _ _ G) as [npts [N Ro]]. destruct (over_wf (patch_numbers X P) npts (g_tree g) MO N Ro) as [Ov [l W]].
  assert (Hv : patch_numbers X P <> []).
  { intros E. pose proof (init_tree_map close_points close_points (fun x => x) (fun _ => True) (corners_of X P) M) as _. destruct Ov as [_ [_ El]]. rewrite E in El. destruct (init_tree_ok close_points (corners_of X P) M H4) as [t [q [Et2 [_ [Pt _]]]]]. rewrite Et in Et2. apply some_eq in Et2. subst t. cbn in El. lia. }
  destruct (C52_point_list (patch_numbers X P) npts (g_tree g) (points_of X) MO N Ro Hv FI) as [pts [Ep2 [_ [CP _]]]]. rewrite Ep in Ep2. apply some_eq in Ep2. subst pts.
  assert (Un : forall a : addr, under a a) by (intros a; exists []; reflexivity).
  unfold element_of in A1, A2. apply bind_some in A1. destruct A1 as [n1 [En1 A1]]. apply bind_some in A1. destruct A1 as [x1 [Bx1 A1]]. apply bind_some in A2. destruct A2 as [n2 [En2 A2]]. apply bind_some in A2. destruct A2 as [x2 [Bx2 A2]]. apply some_eq in A1. apply some_eq in A2.
  set (a1 := e_addr E1) in *. set (a2 := e_addr E2) in *.
  assert (X1 : exists_node (g_tree g) a1) by (unfold exists_node; congruence). assert (X2 : exists_node (g_tree g) a2) by (unfold exists_node; congruence).
  assert (W1 : vertex (g_tree g) a1 k = Some (e_vert E1 k)).
  { unfold vertex, e_vert. rewrite En1, <- A1. cbn [e_node]. apply nth_error_nth'. rewrite (nk_verts _ _ (wf_node (g_tree g) l W a1 n1 En1)). exact Hk. }
  assert (W2 : vertex (g_tree g) a2 m = Some (e_vert E2 m)).
  { unfold vertex, e_vert. rewrite En2, <- A2. cbn [e_node]. apply nth_error_nth'. rewrite (nk_verts _ _ (wf_node (g_tree g) l W a2 n2 En2)). exact Hm. }
  pose proof (CP a1 k _ X1 Hk W1) as C1. pose proof (CP a2 m _ X2 Hm W2) as C2. rewrite EV in C1. rewrite C1 in C2. apply some_eq in C2.
  apply (touching E1 E2 (corner_point (points_of X) a1 k)).
  - destruct (Bd a1 a1 k X1 Lf1 (Un _) Hk) as [y [By Iy]]. assert (y = x1) by congruence. subst y. rewrite <- A1. cbn [e_mid e_rad]. destruct x1; exact Iy.
  - rewrite C2. destruct (Bd a2 a2 m X2 Lf2 (Un _) Hm) as [y [By Iy]]. assert (y = x2) by congruence. subst y. rewrite <- A2. cbn [e_mid e_rad]. destruct x2; exact Iy.
Qed.
(** two elements keep their mutual position *)
Theorem C90_position : forall l X P M g E1 E2, 0 < l -> surface_mesh X P -> init_mesh X P M = Some g -> In E1 (g_elements g) -> In E2 (g_elements g) ->
  compare_elements (scaled_element l E1) (scaled_element l E2) = (fst (compare_elements E1 E2), l * snd (compare_elements E1 E2)).
Proof. intros l X P M g E1 E2 Hl HX Eg I1 I2. apply (scaled_compare l Hl). intros k m Hk Hm _ EV. apply (common_distance X P M g E1 E2 k m); assumption. Qed.
(** the entries of the local matrices *)
Theorem C90_entries : forall l X P M g k op' op e ss order rules E1 E2 a b, 0 < l -> surface_mesh X P -> same_corners l X P -> init_mesh X P M = Some g -> In (op', op, e) (scaled_operators l k) ->
  (forall d, length (fst (rules d)) = length (snd (rules d)) /\ (0 < length (fst (rules d)))%nat) -> same_quadrature l g M (Z.of_nat (ss_p ss)) order rules ->
  In E1 (g_elements g) -> In E2 (g_elements g) -> (a < op_vd op * ss_n2 ss)%nat -> (b < op_vd op * ss_n2 ss)%nat ->
  let GS := fun d => tensor_rule (rules d) in
  op_form op' ss (scaled l X) order GS (g_elements (scaled_mesh l g)) (e_node E1) (e_node E2) a b = l ^ e * op_form op ss X order GS (g_elements g) (e_node E1) (e_node E2) a b.
Proof.
  intros l X P M g k op' op e ss order rules E1 E2 a b Hl HX HS Eg Hop HR SQ I1 I2 Ha Hb GS. pose proof (proj1 HX) as HP.
  destruct (SQ E1 E2 I1 I2) as [D1 [D2 Er]]. pose proof (C90_position l X P M g E1 E2 Hl HX Eg I1 I2) as Cm.
  assert (Eg' : init_mesh (scaled l X) P M = Some (scaled_mesh l g)) by (rewrite (C90_mesh l X P M Hl HS), Eg; reflexivity).
  assert (I1' : In (scaled_element l E1) (g_elements (scaled_mesh l g))) by (cbn [scaled_mesh g_elements]; apply in_map; exact I1).
  assert (I2' : In (scaled_element l E2) (g_elements (scaled_mesh l g))) by (cbn [scaled_mesh g_elements]; apply in_map; exact I2).
  pose proof (C88_entries X P M g op ss order rules E1 E2 HP Eg I1 I2 HR) as Q. cbv zeta in Q. specialize (Q D1 a b). fold GS in Q. rewrite Q. clear Q.
  pose proof (C88_entries (scaled l X) P M (scaled_mesh l g) op' ss order rules (scaled_element l E1) (scaled_element l E2) HP Eg' I1' I2' HR) as Q. cbv zeta in Q. rewrite Cm in Q. cbn [fst snd] in Q. specialize (Q D2 a b).
  change (e_node (scaled_element l E1)) with (e_node E1) in Q. change (e_node (scaled_element l E2)) with (e_node E2) in Q. fold GS in Q. rewrite Q. clear Q. rewrite Er.
  set (K := op_kern op ss X). set (K' := op_kern op' ss (scaled l X)).
  assert (HK : forall e1 s e2 t, K' (scaled_element l e1) s (scaled_element l e2) t a b = l ^ e * K e1 s e2 t a b) by (intros; apply (proj1 (C90_operators l k op' op e ss X Hl Hop)); assumption).
  destruct (snd (fst (compare_elements E1 E2))) as [|[|[|[|c]]]].
  - apply scaled_integrate1. exact HK.
  - apply scaled_integrate4. exact HK.
  - apply scaled_integrate2. exact HK.
  - apply scaled_integrate3. exact HK.
  - apply scaled_integrate4. exact HK.
Qed.
(** the full matrix, whatever the schedules of the two computations *)
Theorem C90_full : forall l X P M k op' op e ss order rules T A A', 0 < l -> surface_mesh X P -> same_corners l X P -> In (op', op, e) (scaled_operators l k) ->
  (forall d, length (fst (rules d)) = length (snd (rules d)) /\ (0 < length (fst (rules d)))%nat) ->
  (forall g, init_mesh X P M = Some g -> same_quadrature l g M (Z.of_nat (ss_p ss)) order rules) -> let GS := fun d => tensor_rule (rules d) in
  full_operator op ss X P M order GS T A -> full_operator op' ss (scaled l X) P M order GS T A' -> forall u v, A' u v = l ^ e * A u v.
Proof.
  intros l X P M k op' op e ss order rules T A A' Hl HX HS Hop HR SQ GS F F' u v. pose proof (proj1 HX) as HP.
  assert (Eg : exists g, init_mesh X P M = Some g) by (destruct F as [g [m [Eg _]]]; eauto). destruct Eg as [g Eg].
  assert (Eg' : init_mesh (scaled l X) P M = Some (scaled_mesh l g)) by (rewrite (C90_mesh l X P M Hl HS), Eg; reflexivity).
  destruct (C88_full op ss X P M g order GS T A HP Eg F) as [Re V]. destruct (C88_full op' ss (scaled l X) P M _ order GS T A' HP Eg' F') as [_ V']. rewrite V, V'. clear V V'.
  destruct (scaled_vd l k op' op e Hop) as [Vd _]. rewrite Vd. set (n2 := ss_n2 ss) in *. set (N := (P * 4 ^ M)%nat) in *. set (D := (op_vd op * n2 * N)%nat) in *.
  rewrite <- rsum_scal. apply rsum_ext. intros q Hq. replace (l ^ e * (T q u * rsum _ D)) with (T q u * (l ^ e * rsum (fun q' => match row_element g n2 N q with Some e0 => match row_element g n2 N q' with Some e' => op_form op ss X order GS (g_elements g) (e_node e0) (e_node e') (row_local n2 N q) (row_local n2 N q') | None => 0 end | None => 0 end * T q' v) D)) by ring. f_equal.
  rewrite <- rsum_scal. apply rsum_ext. intros q' Hq'.
  assert (RE : forall z, row_element (scaled_mesh l g) n2 N z = option_map (scaled_element l) (row_element g n2 N z)) by (intros z; unfold row_element; cbn [scaled_mesh g_elements]; apply nth_error_map). rewrite !RE.
  destruct (Re q Hq) as [e1 Ee]. destruct (Re q' Hq') as [e2 Ee']. rewrite Ee, Ee'. cbn [option_map]. cbn [scaled_element e_node].
  assert (RL : forall z, (z < D)%nat -> (row_local n2 N z < op_vd op * n2)%nat).
  { intros z Hz. assert (Np : N <> 0%nat) by (unfold D in Hz; lia). assert (Kp : n2 <> 0%nat) by (unfold D in Hz; lia). unfold row_local.
    assert (z / n2 / N < op_vd op)%nat by (apply Nat.div_lt_upper_bound; [lia|]; apply Nat.div_lt_upper_bound; [lia|]; unfold D in Hz; lia).
    pose proof (Nat.mod_upper_bound z n2 Kp). clear - H H0. nia. }
  assert (I1 : In e1 (g_elements g)) by (unfold row_element in Ee; eapply nth_error_In; eassumption). assert (I2 : In e2 (g_elements g)) by (unfold row_element in Ee'; eapply nth_error_In; eassumption).
  pose proof (C90_entries l X P M g k op' op e ss order rules e1 e2 (row_local n2 N q) (row_local n2 N q') Hl HX HS Eg Hop HR (SQ g Eg) I1 I2 (RL q Hq) (RL q' Hq')) as Q. cbv zeta in Q. fold GS in Q. cbn [scaled_mesh g_elements] in Q |- *. rewrite Q. ring.
Qed.

(* BEGIN ASSUMPTIONS *)
Print Assumptions C90_mesh.
Print Assumptions C90_admissibility.
Print Assumptions C90_operators.
Print Assumptions C90_position.
Print Assumptions C90_entries.
Print Assumptions C90_full.
