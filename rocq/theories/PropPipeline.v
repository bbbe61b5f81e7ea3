(** C88: the computation as a whole, from the map of the geometry to the matrix: the mesh of ClusterTree, the forms of all pairs of
    its elements with the precomputed far-field points, assembly by parallel tasks and transformation to the basis.  The matrix exists,
    does not depend on the schedule, has the stated entries, and operators with exchanged points have transposed matrices. *)
From Coq Require Import Reals Lra Lia Arith Bool List ZArith QArith Qreals FunctionalExtensionality.
From Coquelicot Require Import Complex.
From Verif Require Import RSum ModelBase ModelBernstein ModelTree ModelBall ModelBlock ModelH2 ModelH2Init ModelQuad ModelDuffy ModelAssembly ModelOperators ModelForms ModelPipeline.
From Verif Require Import SpecTree SpecMesh SpecBall SpecDuffy SpecFlat ProofTree ProofTreeWF ProofTreeHist ProofBall ProofOperators ProofDuffy ProofDuffyInt ProofMotion ProofPipeline.
From Verif Require Import PropTopo PropBall PropDuffy PropQuad PropAssembly PropCompare PropOperators.
Import ListNotations.
Local Close Scope Q_scope.
Local Open Scope nat_scope.

(** the geometry: P patches with the map X, whose corners are identified as ElementTree does *)
Definition patch_numbers (X : surface) (P : nat) : list (list nat) := fst (patch_vertices close_points [] (corners_of X P)).
(** conforming patches: their common corners and edges are vertices and edges of both (mesh_ok) and the maps of two patches agree there *)
Definition surface_mesh (X : surface) (P : nat) : Prop := 0 < P /\ mesh_ok (patch_numbers X P) /\ fits (patch_numbers X P) (points_of X).

Lemma corners_facts : forall X P, 0 < P -> corners_of X P <> [] /\ (forall c, In c (corners_of X P) -> length c = 4) /\ length (corners_of X P) = P.
Proof.
  intros X P HP. unfold corners_of. repeat split.
  - destruct P; [lia|]. discriminate.
  - intros c Hc. apply in_map_iff in Hc. destruct Hc as [p [<- _]]. reflexivity.
  - rewrite map_length, seq_length. reflexivity.
Qed.
(** ** the mesh is that of the other theorems: tree, points, balls and elements of the patches of X *)
Lemma map_nodes : forall t b l els, map_opt (element_of t b) l = Some els -> map_opt (t_store t) l = Some (map e_node els).
Proof.
  intros t b l. induction l as [|a l IH]; intros els E; cbn [map_opt] in *.
  - injection E as <-. reflexivity.
  - apply bind_some in E. destruct E as [e [Ea E]]. apply bind_some in E. destruct E as [r [Er E]]. injection E as <-.
    unfold element_of in Ea. apply bind_some in Ea. destruct Ea as [n [En Ea]]. apply bind_some in Ea. destruct Ea as [x [Ex Ea]]. injection Ea as <-.
    rewrite En. cbn [bind]. rewrite (IH r Er). reflexivity.
Qed.
Theorem C88_mesh : forall X P M g, 0 < P -> init_mesh X P M = Some g ->
  init_tree close_points (corners_of X P) M = Some (g_tree g) /\ point_list (points_of X) (g_tree g) = Some (g_points g) /\
  enclosings (g_tree g) (g_points g) = Some (g_balls g) /\ mesh_with_balls (g_tree g) (g_balls g) (g_elements g) /\
  mesh_elements (g_tree g) (map e_node (g_elements g)) /\ length (g_elements g) = P * 4 ^ M /\ t_elements (g_tree g) = P * 4 ^ M /\
  forall i, i < P * 4 ^ M -> exists e, nth_error (g_elements g) i = Some e /\ n_id (e_node e) = i /\ e_level e = M.
Proof.
  intros X P M g HP Eg. destruct (corners_facts X P HP) as [Hc [H4 Lc]]. unfold init_mesh in Eg.
  apply bind_some in Eg. destruct Eg as [t [Et Eg]]. apply bind_some in Eg. destruct Eg as [pts [Ep Eg]]. apply bind_some in Eg. destruct Eg as [b [Eb Eg]].
  apply bind_some in Eg. destruct Eg as [l [El Eg]]. apply bind_some in Eg. destruct Eg as [els [Ee Eg]]. injection Eg as <-. cbn [g_tree g_points g_balls g_elements].
  assert (Mb : mesh_with_balls t b els) by (exists l; auto). assert (Me : mesh_elements t (map e_node els)) by (exists l; split; [exact El|apply (map_nodes t b l els Ee)]).
  destruct (uniform_ids close_points (corners_of X P) M t _ Hc H4 Et Me) as [L1 [L2 _]]. rewrite map_length in L1. rewrite Lc in L2.
  destruct (uniform_elements close_points (corners_of X P) M t b els Hc H4 Et Mb) as [Ids Lv].
  repeat (split; [first [assumption|congruence]|]). intros i Hi. destruct (Ids i ltac:(congruence)) as [e [Ne Id]]. exists e. split; [exact Ne|]. split; [exact Id|]. apply (Lv e), (nth_error_In _ _ Ne).
Qed.
Theorem C88_mesh_exists : forall X P M, surface_mesh X P -> exists g, init_mesh X P M = Some g.
Proof.
  intros X P M [HP [MO FI]]. destruct (corners_facts X P HP) as [Hc [H4 Lc]].
  destruct (init_tree_ok close_points (corners_of X P) M H4) as [t [l [Et [Wt [Pt [Al ML]]]]]].
  assert (G : from_geometry close_points (corners_of X P) (patch_numbers X P) t) by (exists M, [], t; split; [reflexivity|]; split; [exact H4|]; split; [exact Et|]; split; [exact I|reflexivity]).
  destruct (C15_balls_enclose_surface_corners _ close_points (corners_of X P) (patch_numbers X P) t (points_of X) Hc G MO FI) as [pts [b [Ep [Eb Bd]]]].
  assert (HPt : 0 < t_patches t) by (rewrite Pt, Lc; exact HP).
  assert (E : exists els, map_opt (element_of t b) l = Some els).
  { assert (All : forall a, In a l -> exists e, element_of t b a = Some e).
    { intros a Ia. pose proof (proj1 (wf_leaf t l Wt a) Ia) as Lf. destruct Lf as [n [En Rn]].
      destruct (Bd a a 0) as [x [Bx _]]; [unfold exists_node; congruence|exists n; auto|exists []; reflexivity|lia|].
      unfold element_of. rewrite En, Bx. cbn [bind]. eauto. }
    clear -All. induction l as [|a l IH]; cbn [map_opt]; [eauto|]. destruct (All a (or_introl eq_refl)) as [e Ea]. rewrite Ea. cbn [bind].
    destruct IH as [r Er]; [intros; apply All; right; assumption|]. rewrite Er. cbn [bind]. eauto. }
  destruct E as [els Ee]. unfold init_mesh. rewrite Et. cbn [bind]. change (point_list _ t) with (point_list (points_of X) t). rewrite Ep. cbn [bind]. rewrite Eb. cbn [bind].
  rewrite (traverse_ok t l Wt HPt). cbn [bind]. rewrite Ee. cbn [bind]. eauto.
Qed.

(** ** the form of a pair of elements *)
Section Forms.
Variables (X : surface) (P M : nat) (g : mesh).
Hypothesis HP : 0 < P.
Hypothesis Eg : init_mesh X P M = Some g.
Lemma element_id : forall e, In e (g_elements g) -> get (g_elements g) (n_id (e_node e)) = Some e.
Proof.
  intros e He. destruct (C88_mesh X P M g HP Eg) as [_ [_ [_ [_ [_ [L [_ Ids]]]]]]]. destruct (In_nth_error _ _ He) as [i Ni].
  assert (Hi : i < P * 4 ^ M) by (rewrite <- L; apply nth_error_Some; congruence). destruct (Ids i Hi) as [e' [Ne [Id _]]]. assert (e' = e) by congruence. subst e'. unfold get. congruence.
Qed.
Definition far_points (GS : Z -> cubature) (deg : Z) (e : element) : list surface_point := ffield_points (e_h e) e (GS deg).
Lemma form_value : forall op ss order GS E1 E2, In E1 (g_elements g) -> In E2 (g_elements g) ->
  let p := Z.of_nat (ss_p ss) in 0 < length (fst (GS (farfield_degree p order))) ->
  op_form op ss X order GS (g_elements g) (e_node E1) (e_node E2) =
  match evaluate_bilinear_form (op_kern op ss X) p order GS E1 E2 (far_points GS (farfield_degree p order) E1) (far_points GS (farfield_degree p order) E2) with Some m => m | None => zero_mat end.
Proof.
  intros op ss order GS E1 E2 I1 I2 p HQ. destruct (corners_facts X P HP) as [Hc [H4 Lc]]. destruct (C88_mesh X P M g HP Eg) as [Et [_ [_ [Mb _]]]].
  destruct (C36_far_field_points _ close_points (corners_of X P) M (g_tree g) (g_balls g) (g_elements g) (GS (farfield_degree p order)) Hc H4 Et Mb HQ) as [ff [Ef Hf]].
  unfold op_form. cbv zeta. fold p. rewrite Ef. cbn [bind]. rewrite !element_id by assumption. cbn [bind]. unfold get. rewrite (Hf E1 I1), (Hf E2 I2). cbn [bind]. reflexivity.
Qed.
End Forms.
(** the entries: with the quadrature degree for the distance of the two elements below the maximal degree 50, the result is that of the
    routine for the position of the two elements (disjoint, equal, common edge, common vertex); the far-field points computed in
    advance give the same as points computed for the pair *)
Theorem C88_entries : forall X P M g op ss order rules E1 E2, 0 < P -> init_mesh X P M = Some g -> In E1 (g_elements g) -> In E2 (g_elements g) ->
  (forall d, length (fst (rules d)) = length (snd (rules d)) /\ 0 < length (fst (rules d))) ->
  let GS := fun d => tensor_rule (rules d) in let p := Z.of_nat (ss_p ss) in let cp := compare_elements E1 E2 in
  let deg := Z.max (nearfield_degree p order (snd cp) M) (farfield_degree p order) in let K := op_kern op ss X in
  (deg < 50)%Z -> forall a b,
  op_form op ss X order GS (g_elements g) (e_node E1) (e_node E2) a b =
  match snd (fst cp) with
  | 0 => integrate1 K E1 E2 (GS deg) a b
  | 2 => integrate2 K E1 (GS deg) a b
  | 3 => integrate3 K E1 (fst (fst (fst cp))) E2 (snd (fst (fst cp))) (GS deg) a b
  | _ => integrate4 K E1 (fst (fst (fst cp))) E2 (snd (fst (fst cp))) (GS deg) a b
  end.
Proof.
  intros X P M g op ss order rules E1 E2 HP Eg I1 I2 HR GS p cp deg K Hd a b.
  rewrite (form_value X P M g HP Eg op ss order GS E1 E2 I1 I2); [fold p K|unfold GS; destruct (HR (farfield_degree p order)) as [L1 L2]; fold p; destruct (rules (farfield_degree p order)) as [x w]; cbn [fst snd] in *; rewrite tensor_len by exact L1; unfold q_size, tensor_rule; cbn [fst snd]; rewrite map_length, seq_length; apply Nat.mul_pos_pos; lia].
  destruct (corners_facts X P HP) as [Hc [H4 Lc]]. destruct (C88_mesh X P M g HP Eg) as [Et [_ [_ [Mb _]]]].
  destruct (uniform_elements close_points (corners_of X P) M _ _ _ Hc H4 Et Mb) as [_ Lv]. destruct (Lv E1 I1) as [V1 _]. destruct (Lv E2 I2) as [V2 _].
  unfold evaluate_bilinear_form. fold cp. destruct cp as [[[r1 r2] c] d] eqn:EC. cbn [fst snd] in *. rewrite V1.
  assert (En : (if (farfield_degree p order <=? nearfield_degree p order d M)%Z then nearfield_degree p order d M else farfield_degree p order) = deg) by (unfold deg; destruct (Z.leb_spec (farfield_degree p order) (nearfield_degree p order d M)); lia).
  rewrite En. assert (B : (deg <? max_quadrature_degree)%Z = true) by (apply Z.ltb_lt; unfold max_quadrature_degree; lia). rewrite B.
  destruct (compare_case E1 E2 (r1, r2, c) d EC) as [C|[[C A]|[C|C]]]; cbn [snd] in C; subst c; try reflexivity.
  destruct (Z.eqb_spec deg (farfield_degree p order)) as [Ed|Nd]; [|reflexivity].
  unfold far_points. rewrite <- Ed. unfold GS. destruct (HR deg) as [L1 _]. destruct (rules deg) as [x w]. cbn [fst snd] in L1.
  replace (e_h E2) with (e_h E1); [apply C36_precomputed; [exact L1|reflexivity]|]. unfold e_h, get_h. unfold e_level in V1, V2. rewrite V1, V2. reflexivity.
Qed.

(** ** operators with exchanged points: the form of a pair of elements is the transpose of that of the exchanged pair *)
Definition symmetric_rules (rules : Z -> list R * list R) : Prop := forall d, exists x w, rules d = (x, w) /\ symmetric_rule x w /\ 0 < length w.
Theorem C88_form_transpose : forall X P M g k op op' ss order rules E1 E2 a b, surface_mesh X P -> oriented (patch_numbers X P) -> 1 <= M -> init_mesh X P M = Some g ->
  In (op, op') (partners k) -> symmetric_rules rules -> In E1 (g_elements g) -> In E2 (g_elements g) -> a < op_vd op * ss_n2 ss -> b < op_vd op * ss_n2 ss ->
  let GS := fun d => tensor_rule (rules d) in
  op_form op ss X order GS (g_elements g) (e_node E1) (e_node E2) a b = op_form op' ss X order GS (g_elements g) (e_node E2) (e_node E1) b a.
Proof.
  intros X P M g k op op' ss order rules E1 E2 a b [HP [MO FI]] OR HM Eg Hop HR I1 I2 Ha Hb GS.
  set (p := Z.of_nat (ss_p ss)).
  assert (HQ : 0 < length (fst (GS (farfield_degree p order)))).
  { unfold GS. destruct (HR (farfield_degree p order)) as [x [w [-> [[L _] Hw]]]]. rewrite tensor_len by exact L. unfold q_size, tensor_rule. cbn [fst snd]. rewrite map_length, seq_length. apply Nat.mul_pos_pos; exact Hw. }
  rewrite (form_value X P M g HP Eg op ss order GS E1 E2 I1 I2 HQ), (form_value X P M g HP Eg op' ss order GS E2 E1 I2 I1 HQ). fold p.
  destruct (corners_facts X P HP) as [Hc [H4 Lc]]. destruct (C88_mesh X P M g HP Eg) as [Et [Ep [Eb [Mb _]]]].
  destruct (uniform_elements close_points (corners_of X P) M _ _ _ Hc H4 Et Mb) as [_ Lv]. destruct (Lv E1 I1) as [V1 _]. destruct (Lv E2 I2) as [V2 _].
  set (f1 := far_points GS (farfield_degree p order) E1). set (f2 := far_points GS (farfield_degree p order) E2).
  set (K := op_kern op ss X). set (K' := op_kern op' ss X).
  assert (Df : forall K1 K2 m, evaluate_bilinear_form K1 p order GS E1 E2 f1 f2 = Some m -> exists m', evaluate_bilinear_form K2 p order GS E2 E1 f2 f1 = Some m').
  { intros K1 K2 m Hm. destruct (form_degree _ _ _ _ _ _ _ _ _ Hm) as [D1 D2]. apply C36_result_exists; [exact D1|]. rewrite compare_distance, V2, <- V1. exact D2. }
  assert (Df' : forall K1 K2 m, evaluate_bilinear_form K1 p order GS E2 E1 f2 f1 = Some m -> exists m', evaluate_bilinear_form K2 p order GS E1 E2 f1 f2 = Some m').
  { intros K1 K2 m Hm. destruct (form_degree _ _ _ _ _ _ _ _ _ Hm) as [D1 D2]. apply C36_result_exists; [exact D1|]. rewrite compare_distance, V1, <- V2. exact D2. }
  destruct (evaluate_bilinear_form K p order GS E1 E2 f1 f2) as [m|] eqn:Em.
  - destruct (Df K K' m Em) as [m' Em']. rewrite Em'.
    set (KK := pair_kernel K K' a b). destruct (Df K KK m Em) as [q' Eq']. destruct (Df' K' KK m' Em') as [q Eq].
    assert (A1 : m a b = q 0 1) by (apply (entry_form K KK a b 0 1 (fun x s y t => eq_refl) p order GS E1 E2 f1 f2 m q Em Eq)).
    assert (A2 : m' b a = q' 1 0) by (apply (entry_form K' KK b a 1 0 (fun x s y t => eq_refl) p order GS E2 E1 f2 f1 m' q' Em' Eq')).
    rewrite A1, A2. symmetry.
    destruct (C36_far_field_points _ close_points (corners_of X P) M (g_tree g) (g_balls g) (g_elements g) (GS (farfield_degree p order)) Hc H4 Et Mb HQ) as [ff [Ef Hf]].
    apply (C56_mesh vec3 close_points (corners_of X P) M (g_tree g) (points_of X) (g_points g) (g_balls g) (g_elements g) rules p order KK ff Hc H4 Et HM MO OR FI Ep Eb Mb) with (e1 := E1) (e2 := E2) (ff1 := f1) (ff2 := f2); try assumption.
    + intros e1 s e2 t i j. unfold KK, pair_kernel. destruct i as [|[|i]], j as [|[|j]]; try reflexivity; unfold K, K'; [|symmetry]; apply (partners_exchange k); assumption.
    + apply (Hf E1 I1).
    + apply (Hf E2 I2).
  - destruct (evaluate_bilinear_form K' p order GS E2 E1 f2 f1) as [m'|] eqn:Em'; [|reflexivity]. destruct (Df' K' K m' Em') as [m Em2]. congruence.
Qed.

(** ** the full matrix *)
Theorem C88_full_exists : forall op ss X P M order GS T, surface_mesh X P -> exists A, full_operator op ss X P M order GS T A.
Proof.
  intros op ss X P M order GS T HX. destruct (C88_mesh_exists X P M HX) as [g Eg].
  destruct (C33_assembly_exists (op_vd op) (ss_n2 ss) (t_elements (g_tree g)) (op_form op ss X order GS (g_elements g)) (map e_node (g_elements g))) as [m Am].
  eexists. exists g, m. split; [exact Eg|]. split; [exact Am|reflexivity].
Qed.
(** the row q of the matrix before the transformation: element, component and local number of the basis function *)
Definition row_element (g : mesh) (n2 N q : nat) : option element := nth_error (g_elements g) ((q / n2) mod N).
Definition row_local (n2 N q : nat) : nat := q / n2 / N * n2 + q mod n2.
(** ... and its entries: whatever the schedule of the tasks, the entry (u, v) is the double sum over the columns u and v of the
    transformation matrix and the forms of the elements of the rows *)
Theorem C88_full : forall op ss X P M g order GS T A, 0 < P -> init_mesh X P M = Some g -> full_operator op ss X P M order GS T A ->
  let n2 := ss_n2 ss in let N := P * 4 ^ M in let D := op_vd op * n2 * N in
  (forall q, q < D -> exists e, row_element g n2 N q = Some e) /\
  forall u v, A u v = rsum (fun q => T q u * rsum (fun q' =>
    match row_element g n2 N q, row_element g n2 N q' with
    | Some e, Some e' => op_form op ss X order GS (g_elements g) (e_node e) (e_node e') (row_local n2 N q) (row_local n2 N q')
    | _, _ => 0 end * T q' v) D)%R D.
Proof.
  intros op ss X P M g order GS T A HP Eg [g' [m [Eg' [Am ->]]]] n2 N D. assert (g' = g) by congruence. subst g'.
  destruct (corners_facts X P HP) as [Hc [H4 Lc]]. destruct (C88_mesh X P M g HP Eg) as [Et [Ep [Eb [Mb [Me [Le [Lt Ids]]]]]]].
  assert (Np : 0 < N) by (unfold N; apply Nat.mul_pos_pos; [exact HP|]; assert (4 ^ M <> 0) by (apply Nat.pow_nonzero; lia); lia).
  assert (Kp : 0 < n2) by (unfold n2, ss_n2; lia).
  assert (Row : forall q, q < D -> exists i a e, i < op_vd op /\ a < n2 /\ In e (g_elements g) /\ q = row_of n2 N i a (e_node e) /\ row_element g n2 N q = Some e /\ row_local n2 N q = i * n2 + a).
  { intros q Hq. destruct (C33_rows_covered _ close_points (corners_of X P) M (g_tree g) _ (op_vd op) n2 q Hc H4 Et Me) as [i [a [nd [Hi [Ha [In0 Eq]]]]]]; [rewrite Lt; exact Hq|].
    apply in_map_iff in In0. destruct In0 as [e [<- Ie]]. rewrite Lt in Eq. fold N in Eq. exists i, a, e. repeat (split; [assumption|]).
    assert (Hid : n_id (e_node e) < N). { destruct (In_nth_error _ _ Ie) as [z Nz]. assert (z < N) by (unfold N; rewrite <- Le; apply nth_error_Some; congruence). destruct (Ids z) as [e' [Nz' [Id _]]]; [assumption|]. assert (e' = e) by congruence. subst e'. lia. }
    assert (D1 : q / n2 = i * N + n_id (e_node e)) by (rewrite Eq; unfold row_of; rewrite (Nat.mul_comm n2), Nat.div_add_l by lia; rewrite (Nat.div_small a n2) by assumption; lia).
    assert (D2 : q mod n2 = a) by (rewrite Eq; unfold row_of; rewrite (Nat.mul_comm n2), Nat.add_comm, Nat.mod_add by lia; apply Nat.mod_small; assumption).
    unfold row_element, row_local. rewrite D1, D2. split.
    - rewrite Nat.add_comm, Nat.mod_add by lia. rewrite Nat.mod_small by assumption. apply (element_id X P M g HP Eg e Ie).
    - rewrite Nat.div_add_l by lia. rewrite (Nat.div_small (n_id (e_node e))) by assumption. f_equal. f_equal. lia. }
  split; [intros q Hq; destruct (Row q Hq) as [_ [_ [e [_ [_ [_ [_ [Re _]]]]]]]]; eauto|].
  intros u v. unfold projected. rewrite Lt. fold N n2 D. apply rsum_ext. intros q Hq. f_equal. apply rsum_ext. intros q' Hq'. f_equal.
  destruct (Row q Hq) as [i [a [e [Hi [Ha [Ie [Eq [Re Rl]]]]]]]]. destruct (Row q' Hq') as [i' [a' [e' [Hi' [Ha' [Ie' [Eq' [Re' Rl']]]]]]]].
  rewrite Re, Re', Rl, Rl'. rewrite Eq, Eq'.
  pose proof (C33_assembly _ close_points (corners_of X P) M (g_tree g) _ (op_vd op) n2 _ m Hc H4 Et Me Am i i' (e_node e) (e_node e') a a' Hi Hi' (in_map e_node _ _ Ie) (in_map e_node _ _ Ie') Ha Ha') as Q.
  rewrite Lt in Q. exact Q.
Qed.
(** the matrix does not depend on the schedule and on the contents of the memory *)
Theorem C88_full_unique : forall op ss X P M order GS T A A', 0 < P -> full_operator op ss X P M order GS T A -> full_operator op ss X P M order GS T A' -> forall u v, A u v = A' u v.
Proof.
  intros op ss X P M order GS T A A' HP F F' u v. assert (Eg : exists g, init_mesh X P M = Some g) by (destruct F as [g [m [Eg _]]]; eauto). destruct Eg as [g Eg].
  destruct (C88_full op ss X P M g order GS T A HP Eg F) as [_ V]. destruct (C88_full op ss X P M g order GS T A' HP Eg F') as [_ V']. rewrite V, V'. reflexivity.
Qed.
(** ** operators with exchanged points have transposed matrices *)
Theorem C88_transpose : forall X P M k op op' ss order rules T A A', surface_mesh X P -> oriented (patch_numbers X P) -> 1 <= M ->
  In (op, op') (partners k) -> symmetric_rules rules -> let GS := fun d => tensor_rule (rules d) in
  full_operator op ss X P M order GS T A -> full_operator op' ss X P M order GS T A' -> forall u v, A u v = A' v u.
Proof.
  intros X P M k op op' ss order rules T A A' HX OR HM Hop HR GS F F' u v. assert (Eg : exists g, init_mesh X P M = Some g) by (destruct F as [g [m [Eg _]]]; eauto). destruct Eg as [g Eg].
  pose proof (proj1 HX) as HP. destruct (C88_full op ss X P M g order GS T A HP Eg F) as [Re V]. destruct (C88_full op' ss X P M g order GS T A' HP Eg F') as [_ V']. rewrite V, V'. clear V V'.
  rewrite (partners_vd k op op' Hop). set (n2 := ss_n2 ss) in *. set (N := P * 4 ^ M) in *. set (D := op_vd op * n2 * N) in *.
  rewrite (rsum_ext _ (fun q => rsum (fun q' => T q u * (match row_element g n2 N q with Some e => match row_element g n2 N q' with Some e' => op_form op ss X order GS (g_elements g) (e_node e) (e_node e') (row_local n2 N q) (row_local n2 N q') | None => 0 end | None => 0 end * T q' v))%R D) D)
    by (intros; rewrite rsum_scal; reflexivity).
  rewrite rsum_swap. apply rsum_ext. intros q Hq. rewrite <- rsum_scal. apply rsum_ext. intros q' Hq'.
  destruct (Re q Hq) as [e Ee]. destruct (Re q' Hq') as [e' Ee']. rewrite Ee, Ee'.
  assert (RL : forall z, z < D -> row_local n2 N z < op_vd op * n2).
  { intros z Hz. assert (Np : N <> 0) by (unfold D in Hz; lia). assert (Kp : n2 <> 0) by (unfold D in Hz; lia). unfold row_local.
    assert (z / n2 / N < op_vd op) by (apply Nat.div_lt_upper_bound; [lia|]; apply Nat.div_lt_upper_bound; [lia|]; unfold D in Hz; lia).
    pose proof (Nat.mod_upper_bound z n2 Kp). nia. }
  assert (I1 : In e (g_elements g)) by (unfold row_element in Ee; eapply nth_error_In; eassumption). assert (I2 : In e' (g_elements g)) by (unfold row_element in Ee'; eapply nth_error_In; eassumption).
  pose proof (C88_form_transpose X P M g k op op' ss order rules e' e (row_local n2 N q') (row_local n2 N q) HX OR HM Eg Hop HR I2 I1 (RL q' Hq') (RL q Hq)) as Q. cbv zeta in Q. fold GS in Q. rewrite Q. ring.
Qed.
(** in particular the matrices of the single layer, hypersingular and Maxwell operators are symmetric *)
Theorem C88_symmetric : forall X P M k op ss order rules T A, surface_mesh X P -> oriented (patch_numbers X P) -> 1 <= M ->
  In op ([laplace_sl; laplace_hs] ++ flat_map (fun op => [part_of fst op; part_of snd op]) [helmholtz_sl k; helmholtz_hs k; maxwell_sl k]) -> symmetric_rules rules ->
  full_operator op ss X P M order (fun d => tensor_rule (rules d)) T A -> forall u v, A u v = A v u.
Proof.
  intros X P M k op ss order rules T A HX OR HM Hop HR F. apply (C88_transpose X P M k op op ss order rules T A A HX OR HM); try assumption.
  unfold partners, real_partners, complex_partners. cbn [app flat_map fst snd]. cbn [app flat_map] in Hop. simpl in Hop |- *.
  repeat (destruct Hop as [<-|Hop]; [tauto|]). destruct Hop.
Qed.

(** ** a concrete case: two unit squares with a common edge, refined once; the single layer matrix exists and is symmetric *)
Definition two_sheets : surface := fun p st => ((INR p + fst st, snd st, 0), (1, 0, 0), (0, 1, 0))%R.
Definition square_point (l : nat) : vec3 := (nth l [(0, 0, 0); (1, 0, 0); (1, 1, 0); (0, 1, 0); (2, 0, 0); (2, 1, 0)] (0, 0, 0))%R.
Lemma square_close : forall a b, a < 6 -> b < 6 -> close_points (square_point a) (square_point b) = Nat.eqb a b.
Proof.
  intros a b Ha Hb. unfold close_points, pt_tol. destruct (Nat.eqb_spec a b) as [ -> |Ne].
  - destruct (Rlt_dec _ _) as [L|L]; [reflexivity|]. exfalso. apply L. unfold vnorm. replace (vdot _ _) with 0%R by (unfold vdot, vsub, vx, vy, vz; cbn [fst snd]; ring). rewrite sqrt_0. apply Rinv_0_lt_compat, pow_lt. lra.
  - destruct (Rlt_dec _ _) as [L|L]; [|reflexivity]. exfalso. assert (T1 : (/ 10 ^ 9 < 1)%R) by (rewrite <- Rinv_1; apply Rinv_lt_contravar; [rewrite Rmult_1_l; apply pow_lt; lra|simpl; lra]).
    assert (N : (1 <= vnorm (vsub (square_point a) (square_point b)))%R); [|lra]. unfold vnorm. rewrite <- sqrt_1 at 1. apply sqrt_le_1_alt. clear L T1.
    destruct a as [|[|[|[|[|[|a]]]]]]; [..|lia]; (destruct b as [|[|[|[|[|[|b]]]]]]; [..|lia]); try congruence; unfold square_point, vdot, vsub, vx, vy, vz; cbn [nth fst snd]; lra.
Qed.
Lemma two_numbers : patch_numbers two_sheets 2 = two_squares.
Proof.
  assert (E : corners_of two_sheets 2 = map (map square_point) two_squares).
  { unfold corners_of, two_squares, unit_corners, two_sheets, square_point. cbn [map seq fst snd nth INR].
    repeat match goal with |- cons _ _ = cons _ _ => f_equal end; try reflexivity; repeat (apply f_equal2; [|try reflexivity]); try reflexivity; ring. }
  unfold patch_numbers. rewrite E. pose proof (patch_vertices_map Nat.eqb close_points square_point (fun l => l < 6) square_close two_squares [] ltac:(constructor)) as Q. cbn [map] in Q.
  rewrite Q; [vm_compute; reflexivity|]. unfold two_squares. repeat constructor.
Qed.
Example C88_example : surface_mesh two_sheets 2 /\ oriented (patch_numbers two_sheets 2) /\ symmetric_rules (fun _ => (gauss3_x, gauss3_w)) /\
  forall ss order T, exists A, full_operator laplace_sl ss two_sheets 2 1 order (fun d => tensor_rule ((fun _ => (gauss3_x, gauss3_w)) d)) T A /\ forall u v, A u v = A v u.
Proof.
  assert (SM : surface_mesh two_sheets 2).
  { split; [lia|]. rewrite two_numbers. destruct two_squares_fit as [MO FI]. split; [exact MO|]. exact FI. }
  assert (OR : oriented (patch_numbers two_sheets 2)) by (rewrite two_numbers; apply oriented_b; vm_compute; reflexivity).
  assert (SR : symmetric_rules (fun _ => (gauss3_x, gauss3_w))) by (intros d; exists gauss3_x, gauss3_w; split; [reflexivity|]; split; [exact gauss3_symmetric|unfold gauss3_w; cbn; lia]).
  split; [exact SM|]. split; [exact OR|]. split; [exact SR|]. intros ss order T.
  destruct (C88_full_exists laplace_sl ss two_sheets 2 1 order (fun d => tensor_rule ((fun _ => (gauss3_x, gauss3_w)) d)) T SM) as [A FA]. exists A. split; [exact FA|].
  apply (C88_symmetric two_sheets 2 1 0%R laplace_sl ss order (fun _ => (gauss3_x, gauss3_w)) T A SM OR (le_n 1)); [left; reflexivity|exact SR|exact FA].
Qed.

(* BEGIN ASSUMPTIONS *)
Print Assumptions C88_mesh.
Print Assumptions C88_mesh_exists.
Print Assumptions C88_entries.
Print Assumptions C88_form_transpose.
Print Assumptions C88_full_exists.
Print Assumptions C88_full.
Print Assumptions C88_full_unique.
Print Assumptions C88_transpose.
Print Assumptions C88_symmetric.
