(** C84: the number of degrees of freedom. *)
From Coq Require Import Reals Lra Lia Arith Bool List ZArith QArith Qreals Permutation Relations.
From Verif Require Import RSum ModelBase ModelBernstein SpecBernstein ModelTree SpecTree SpecMesh ModelGlue SpecGlue SpecDofs ProofDofs ModelDeBoor SpecDeBoor ProofTopoInfo ProofGlueMat ProofGlueDiv ProofGlueMesh PropTopo PropGlue
  ModelBall ModelOperators ModelForms PropTree PropForms ModelProj SpecProj ProofProj ProofProjMesh PropProj
  PropUtil ModelAnsatz SpecConform ProofConform ProofAnsatz PropConform.
Import ListNotations.
Local Close Scope R_scope.
Local Close Scope Q_scope.
Local Open Scope nat_scope.

(** the lists exist for every mesh *)
Lemma shared_exists : forall verts, exists l, shared_sides verts l.
Proof.
  intros verts. set (sides := list_prod (seq 0 (length verts)) (seq 0 4)).
  exists (filter (fun e : nat * nat * (nat * nat) => (fst (fst e) <? fst (snd e)) && opposed_b verts (fst (fst e)) (snd (fst e)) (fst (snd e)) (snd (snd e))) (list_prod sides sides)). split.
  - apply NoDup_filter. repeat apply ProofDofs.nodup_prod; apply seq_NoDup.
  - intros a i b j. rewrite filter_In. unfold sides. rewrite !in_prod_iff, !in_seq. cbn [fst snd]. rewrite andb_true_iff, Nat.ltb_lt. unfold opposed_b, opposed. rewrite andb_true_iff, !Nat.eqb_eq. split; [|intuition lia]. intros [H1 [H2 H3]]. split; [exact H2|]. split; [lia|]. split; [lia|]. split; [lia|]. exact H3.
Qed.
Lemma vertices_exist : forall verts, exists l, all_vertices verts l.
Proof.
  intros verts. exists (nodup Nat.eq_dec (concat verts)). split; [apply NoDup_nodup|]. intros v. rewrite nodup_In, in_concat. split; intros [c H]; exists c; tauto.
Qed.

Section Mesh.
Context {Pt : Type} (close : Pt -> Pt -> bool) (corners : list (list Pt)) (M : nat) (t : tree) (els : list node).
Hypothesis Hm : uniform_mesh close corners M t els.
Variables (ws : list R) (junk : mat) (j1 j2 : arr) (solve : nat -> mat -> arr -> arr).
Hypothesis Hw : 20 <= length ws.
Hypothesis Hs : good_solve solve.
Notation verts := (fst (patch_vertices close [] corners)).
Hypothesis HM : mesh_ok verts.
Hypothesis HO : oriented verts.
Notation n := (2 ^ M).
Notation P := (length corners).

Theorem C84_discontinuous : forall p rep S, p <= 19 -> 1 <= rep -> ansatz_discontinuous ws junk j1 j2 solve p M P rep t els = Some S ->
  as_cols S = P * (spline_dim p n (Nat.min rep (p + 1)) * spline_dim p n (Nat.min rep (p + 1))).
Proof.
  intros p rep S Hp Hr ES. destruct (C64_discontinuous close corners M t els Hm ws junk j1 j2 solve Hw Hs HM p rep Hp Hr) as [S' [A [ES' [EA [_ [Ec _]]]]]]. rewrite ES in ES'. injection ES' as <-.
  destruct (disc_run close corners M t els Hm ws junk j1 j2 solve Hw Hs p rep Hp Hr) as [A' [EA' [_ [Ec' _]]]]. rewrite EA in EA'. injection EA' as <-. congruence.
Qed.

(** what the gluing of the continuous space does *)
Lemma continuous_glue : forall p rep S shared vs, 1 <= rep <= p -> p <= 19 -> ansatz_continuous ws junk j1 j2 solve p M P rep t els = Some S -> shared_sides verts shared -> all_vertices verts vs ->
  let D := spline_dim p n rep in exists edges ids trips, 2 <= D /\
  (forall a b i j, In (a, Some b, i, Some j) edges <-> a < b /\ b < length verts /\ i < 4 /\ j < 4 /\ opposed verts a i b j) /\
  (forall x y, x <> y -> (same_group ids x y <-> identified D edges x y)) /\ glues (length verts * (D * D)) (as_cols S) ids trips.
Proof.
  intros p rep S shared vs Hr Hp ES Sh Vs D.
  destruct (disc_run close corners M t els Hm ws junk j1 j2 solve Hw Hs p rep Hp ltac:(lia)) as [A [EA [ER [Ec _]]]]. rewrite Nat.min_l in Ec by lia.
  destruct (over_mesh close corners M t els Hm) as [npts [HN HR]]. pose proof (verts_length close corners) as VL.
  destruct (C22_mesh verts npts t p rep M HM HO HN HR ltac:(lia)) as [edges [groups [stored [Ee [Iff [Eg H]]]]]].
  change (one_d_dim p rep M) with D in *. fold D in Ec. rewrite VL in *.
  unfold ansatz_continuous in ES. rewrite cont_run in ES by lia. rewrite EA in ES. cbn [bind] in ES. rewrite Ee in ES. cbn [bind] in ES. rewrite Ec in ES. apply bind_some in ES. destruct ES as [ids [Ei ES]]. apply bind_some in ES. destruct ES as [G [Ea ES]].
  assert (NG : no_gap groups).
  { unfold cont_identification in Ei. destruct (assert (1 <=? p)%nat); [|discriminate]. cbn [bind] in Ei. change (one_d_dim p rep M) with D in Ei. rewrite Eg in Ei. cbn [bind fst] in Ei.
    apply (proj2 (C23_cleanup groups) ids Ei). apply (assemble_nonempty _ _ _ Ea). }
  destruct (H NG) as [ids' [post [trips [Ei' [Same [Ea' [Gl One]]]]]]]. assert (ids' = ids) by congruence. subst ids'.
  destruct (product_value A G S ES) as [tr [EG _]]. assert (Ps : as_cols S = post) by congruence.
  exists edges, ids, trips. split; [unfold D, spline_dim; clear -Hr; generalize (rep * (n - 1)); lia|]. split; [exact Iff|]. split; [exact Same|]. rewrite Ps. exact Gl.
Qed.
(** In a continuous space there is one degree of freedom for every inner spline of a patch, for every inner spline of an edge of
    the mesh and for every vertex: (D - 2)^2 per patch, D - 2 per edge (4 P minus the number of shared sides), one per vertex. *)
Theorem C84_continuous : forall p rep S shared vs, 1 <= rep <= p -> p <= 19 -> ansatz_continuous ws junk j1 j2 solve p M P rep t els = Some S ->
  shared_sides verts shared -> all_vertices verts vs -> fans_connected verts -> let D := spline_dim p n rep in
  as_cols S + length shared * (D - 2) = P * ((D - 2) * (D - 2)) + 4 * P * (D - 2) + length vs.
Proof.
  intros p rep S shared vs Hr Hp ES Sh Vs Fan D. destruct (continuous_glue p rep S shared vs Hr Hp ES Sh Vs) as [edges [ids [trips [HD [Iff [Same Gl]]]]]]. fold D in HD, Same, Gl.
  rewrite <- (verts_length close corners). rewrite <- (keys_length verts D shared vs HM HD Sh). f_equal.
  apply (count_columns (length verts * (D * D)) _ trips (key verts D shared)); [apply Gl|apply Gl| |apply (keys_nodup verts D shared vs Vs)|apply (keys_all verts D shared vs HM HD Sh Vs)].
  assert (Row : forall r c v, In (r, c, v) trips -> r < length verts * (D * D)).
  { intros r c v I. assert (Q : In r (map (fun z : triplet => fst (fst z)) trips)) by (apply in_map_iff; exists (r, c, v); auto). apply (Permutation_in _ (gl_rows _ _ _ _ Gl)) in Q. apply in_seq in Q. lia. }
  intros r c v r' c' v' I I'. rewrite (gl_same _ _ _ _ Gl _ _ _ _ _ _ I I'). split.
  - intros [->|Q]; [reflexivity|]. destruct (Nat.eq_dec r r') as [->|Ne]; [reflexivity|]. apply (identified_key verts D edges shared HM HD Iff Sh). apply Same; assumption.
  - intros Q. destruct (Nat.eq_dec r r') as [->|Ne]; [left; reflexivity|]. right. apply Same; [exact Ne|]. apply (key_identified verts D edges shared HM HD Iff Sh Fan); [eapply Row; eauto|eapply Row; eauto|exact Q].
Qed.

(** every shared side counts twice *)
Lemma closed_count : forall shared, shared_sides verts shared -> closed_mesh verts -> length shared = 2 * P.
Proof.
  intros shared Sh Cl. rewrite <- (verts_length close corners). set (l := map fst shared ++ map snd shared).
  assert (L : length l = 2 * length shared) by (unfold l; rewrite app_length, !map_length; lia).
  assert (Q : length l = length (list_prod (seq 0 (length verts)) (seq 0 4))); [|rewrite prod_length, !seq_length in Q; lia].
  apply ProofDofs.same_length.
  - unfold l. apply ProofDofs.nodup_app.
    + apply ProofDofs.nodup_map_in; [exact (proj1 Sh)|]. intros [[a i] [b j]] [[a' i'] [b' j']] I I' Q. cbn [fst] in Q. injection Q as -> ->. apply (proj2 Sh) in I. apply (proj2 Sh) in I'. destruct I as [H1 [H2 [H3 [H4 H5]]]], I' as [H1' [H2' [H3' [H4' H5']]]].
      f_equal. apply (partner_unique verts 2 HM (le_n 2) a' i' b j b' j'); try assumption; lia.
    + apply ProofDofs.nodup_map_in; [exact (proj1 Sh)|]. intros [[a i] [b j]] [[a' i'] [b' j']] I I' Q. cbn [snd] in Q. injection Q as -> ->. apply (proj2 Sh) in I. apply (proj2 Sh) in I'. destruct I as [H1 [H2 [H3 [H4 H5]]]], I' as [H1' [H2' [H3' [H4' H5']]]].
      f_equal. apply (partner_unique verts 2 HM (le_n 2) b' j' a i a' i'); try assumption; try lia; apply opposed_flip; assumption.
    + intros [q k] I I'. apply in_map_iff in I. destruct I as [[[a i] [b j]] [Q I]]. apply in_map_iff in I'. destruct I' as [[[a' i'] [b' j']] [Q' I']]. cbn [fst snd] in Q, Q'. injection Q as -> ->. injection Q' as -> ->.
      apply (proj2 Sh) in I. apply (proj2 Sh) in I'. destruct I as [H1 [H2 [H3 [H4 H5]]]], I' as [H1' [H2' [H3' [H4' H5']]]].
      pose proof (partner_unique verts 2 HM (le_n 2) q k b j a' i' ltac:(lia) H2 ltac:(lia) H3 H4 H3' H5 (opposed_flip verts _ _ _ _ H5')) as F. injection F as -> ->. lia.
  - apply ProofDofs.nodup_prod; apply seq_NoDup.
  - intros [q k]. unfold l. rewrite in_app_iff, in_prod_iff, !in_seq. split.
    + intros [I|I]; apply in_map_iff in I; destruct I as [[[a i] [b j]] [Q I]]; cbn [fst snd] in Q; injection Q as -> ->; apply (proj2 Sh) in I; lia.
    + intros [Hq Hk]. destruct (Cl q k ltac:(lia) ltac:(lia)) as [b [j [Hb [Hj Op]]]]. destruct (lt_eq_lt_dec q b) as [[L'|L']|L'].
      * left. apply in_map_iff. exists (q, k, (b, j)). split; [reflexivity|]. apply (proj2 Sh). repeat (split; [lia|]). exact Op.
      * exfalso. subst b. exact (opposed_irrefl verts 2 HM (le_n 2) q k j ltac:(lia) ltac:(lia) Hj Op).
      * right. apply in_map_iff. exists (b, j, (q, k)). split; [reflexivity|]. apply (proj2 Sh). repeat (split; [lia|]). apply opposed_flip. exact Op.
Qed.
(** on closed surfaces: P (D - 1)^2 - P plus the number of vertices; that is P (D - 1)^2 + 2 for a topological sphere *)
Theorem C84_continuous_closed : forall p rep S vs, 1 <= rep <= p -> p <= 19 -> ansatz_continuous ws junk j1 j2 solve p M P rep t els = Some S ->
  all_vertices verts vs -> fans_connected verts -> closed_mesh verts -> let D := spline_dim p n rep in
  as_cols S + P = P * ((D - 1) * (D - 1)) + length vs.
Proof.
  intros p rep S vs Hr Hp ES Vs Fan Cl D. destruct (shared_exists verts) as [shared Sh]. pose proof (C84_continuous p rep S shared vs Hr Hp ES Sh Vs Fan) as Q. cbv zeta in Q. fold D in Q. rewrite (closed_count shared Sh Cl) in Q.
  assert (HD : exists m, D = m + 2) by (unfold D, spline_dim; clear -Hr; exists (p + 1 + rep * (n - 1) - 2); generalize (rep * (n - 1)); lia). clearbody D. destruct HD as [m ->].
  replace (m + 2 - 2) with m in Q by lia. replace (m + 2 - 1) with (m + 1) by lia. replace (P * ((m + 1) * (m + 1))) with (P * (m * m) + 2 * P * m + P) by ring. lia.
Qed.

(** ** vector fields *)
Definition is_shared (e : interface) : bool := match e with (_, Some _, _, Some _) => true | _ => false end.
Lemma slaves_count : forall Sd L Q edges, n_slaves (flat_map (dgroups Sd L Q) edges) = length (filter is_shared edges) * Sd.
Proof.
  intros Sd L Q edges. unfold n_slaves. induction edges as [|e edges IH]; [reflexivity|]. cbn [flat_map filter]. rewrite map_app.
  assert (Ap : forall u v, list_sum (u ++ v) = list_sum u + list_sum v) by (induction u as [|x u IHu]; intros v; cbn [app list_sum fold_right]; [reflexivity|unfold list_sum in *; cbn [fold_right app]; rewrite IHu; lia]).
  rewrite Ap. assert (Sz : list_sum (map (fun g : group => length (fst g) - 1) (dgroups Sd L Q e)) = if is_shared e then Sd else 0).
  { destruct e as [[[a [b|]] i] [j|]]; cbn [dgroups is_shared]; try reflexivity. rewrite map_map. transitivity (list_sum (map (fun _ => 1) (seq 0 Sd))); [f_equal; apply map_ext; reflexivity|].
    transitivity (length (seq 0 Sd)); [|apply seq_length]. induction (seq 0 Sd) as [|x l IHl]; [reflexivity|]. cbn [map length]. unfold list_sum in *. cbn [fold_right]. rewrite IHl. reflexivity. }
  etransitivity; [apply f_equal2; [exact Sz|exact IH]|]. destruct (is_shared e); cbn [length]; lia.
Qed.
(** In a div-conforming space every shared side takes one degree of freedom away for each of the Sd splines of the normal
    component along the side. *)
Theorem C84_div : forall p rep S shared, 1 <= rep <= p -> p <= 19 -> ansatz_div ws junk j1 j2 solve p M P rep t els = Some S -> shared_sides verts shared ->
  let Sd := spline_dim (p - 1) n rep in as_cols S + length shared * Sd = 2 * P * (Sd * (Sd + 1)).
Proof.
  intros p rep S shared Hr Hp ES Sh Sd. destruct (div_run close corners M t els Hm ws junk j1 j2 solve Hw Hs p rep Hr Hp) as [A [EA [ER [Ec _]]]].
  destruct (over_mesh close corners M t els Hm) as [npts [HN HR]]. pose proof (verts_length close corners) as VL.
  destruct (C24_mesh_sides verts npts t HM HN HR) as [edges [Ee [Eok ND]]]. rewrite VL in Eok.
  destruct (C17_interfaces verts npts t HM HN HR) as [edges' [Ee' [Nd [I1 _]]]]. assert (edges' = edges) by congruence. subst edges'.
  assert (HP : (1 <= P)%nat) by (destruct Hm as [Hc _]; destruct corners; [congruence|simpl; lia]).
  destruct (C24_div_identification p rep M P edges ltac:(lia) HP Eok ND) as [ids [Ei [K [Gr [post [trips [Ea Gl]]]]]]].
  set (S0 := (p + rep * (n - 1))%nat) in *. assert (E1 : Sd = S0) by (unfold Sd, spline_dim, S0; clear -Hr; generalize (rep * (n - 1))%nat; lia).
  assert (E2 : spline_dim p n rep = (S0 + 1)%nat) by (unfold spline_dim, S0; clear; generalize (rep * (n - 1))%nat; lia).
  assert (Ec' : sm_cols A = (2 * P * (S0 * (S0 + 1)))%nat) by (rewrite Ec; fold Sd; rewrite E1, E2; ring).
  unfold ansatz_div in ES. rewrite EA in ES. cbn [bind] in ES. rewrite Ee in ES. cbn [bind] in ES. rewrite Ec', Ei in ES. cbn [bind] in ES. rewrite Ea in ES. cbn [bind] in ES.
  destruct (product_value A _ S ES) as [tr [EG _]]. assert (Ps : as_cols S = post) by congruence.
  assert (Ids : ids = flat_map (dgroups S0 (S0 + 1) P) edges).
  { unfold div_identification in Ei. replace (p + 1 + rep * (2 ^ M - 1)) with (S0 + 1) in Ei by (unfold S0; lia). fold S0 in Ei. apply bind_some in Ei. destruct Ei as [[] [_ Ei]].
    assert (HS : 1 <= S0) by (unfold S0; generalize (rep * (2 ^ M - 1)); intros; lia). rewrite (div_fold S0 (S0 + 1) P HS eq_refl) in Ei by assumption. cbn [app] in Ei. congruence. }
  pose proof (gl_dim _ _ _ _ Gl) as Dm. rewrite Ids, slaves_count in Dm. rewrite Ps, E1, <- Dm. f_equal. f_equal.
  transitivity (length (map (fun e : interface => match e with (a, Some b, i, Some j) => (a, i, (b, j)) | _ => (0, 0, (0, 0)) end) (filter is_shared edges))); [|apply map_length]. apply ProofDofs.same_length.
  - exact (proj1 Sh).
  - apply ProofDofs.nodup_map_in; [apply NoDup_filter; exact Nd|]. intros [[[a [b|]] i] [j|]] [[[a' [b'|]] i'] [j'|]] I I' Q; apply filter_In in I; apply filter_In in I'; destruct I as [_ I], I' as [_ I']; try discriminate I; try discriminate I'. congruence.
  - intros [[a i] [b j]]. rewrite (proj2 Sh), in_map_iff. split.
    + intros H. exists (a, Some b, i, Some j). split; [reflexivity|]. apply filter_In. split; [|reflexivity]. apply I1. destruct H as [H1 [H2 [H3 [H4 H5]]]]. repeat (split; [assumption|]). right. exact H5.
    + intros [e [Q I]]. apply filter_In in I. destruct I as [I F]. destruct e as [[[a' [b'|]] i'] [j'|]]; try discriminate F. injection Q as -> -> -> ->. apply I1 in I. destruct I as [H1 [H2 [H3 [H4 H5]]]].
      repeat (split; [assumption|]). apply HO; try assumption; try lia. intros Q. injection Q as -> _. lia.
Qed.
(** closed surfaces: 2 P Sd^2 *)
Theorem C84_div_closed : forall p rep S, 1 <= rep <= p -> p <= 19 -> ansatz_div ws junk j1 j2 solve p M P rep t els = Some S -> closed_mesh verts ->
  as_cols S = 2 * P * (spline_dim (p - 1) n rep * spline_dim (p - 1) n rep).
Proof.
  intros p rep S Hr Hp ES Cl. destruct (shared_exists verts) as [shared Sh]. pose proof (C84_div p rep S shared Hr Hp ES Sh) as Q. cbv zeta in Q. rewrite (closed_count shared Sh Cl) in Q.
  set (Sd := spline_dim (p - 1) n rep) in *. rewrite Nat.mul_add_distr_l, Nat.mul_1_r, Nat.mul_add_distr_l in Q. lia.
Qed.
End Mesh.

(** ** the hypotheses are met: the cube *)
Definition corner_step_b (verts : list (list nat)) (x y : nat * nat) : bool :=
  (fst x <? length verts) && (fst y <? length verts) &&
  existsb (fun i => existsb (fun j => opposed_b verts (fst x) i (fst y) j &&
    (((snd x =? i) && (snd y =? (j + 1) mod 4)) || ((snd x =? (i + 1) mod 4) && (snd y =? j)))) (seq 0 4)) (seq 0 4).
Lemma corner_step_b_ok : forall verts x y, corner_step_b verts x y = true -> corner_step verts x y.
Proof.
  intros verts x y H. unfold corner_step_b in H. apply andb_true_iff in H. destruct H as [H0 H]. apply andb_true_iff in H0. destruct H0 as [H1 H2]. apply Nat.ltb_lt in H1, H2.
  apply existsb_exists in H. destruct H as [i [Ii H]]. apply existsb_exists in H. destruct H as [j [Ij H]]. apply in_seq in Ii, Ij. apply andb_true_iff in H. destruct H as [Ho H].
  exists i, j. split; [exact H1|]. split; [exact H2|]. split; [lia|]. split; [lia|]. split; [unfold opposed_b in Ho; apply andb_true_iff in Ho; rewrite !Nat.eqb_eq in Ho; exact Ho|].
  apply orb_true_iff in H. rewrite !andb_true_iff, !Nat.eqb_eq in H. exact H.
Qed.
Example C84_cube : closed_mesh cube /\ fans_connected cube /\ all_vertices cube (seq 0 8).
Proof.
  split; [|split].
  - assert (X : forallb (fun z => existsb (fun w => opposed_b cube (fst z) (snd z) (fst w) (snd w)) (list_prod (seq 0 6) (seq 0 4))) (list_prod (seq 0 6) (seq 0 4)) = true) by (vm_compute; reflexivity).
    intros a i Ha Hi. change (length cube) with 6 in *. rewrite forallb_forall in X. specialize (X (a, i)). rewrite in_prod_iff, !in_seq in X. specialize (X ltac:(lia)). apply existsb_exists in X. destruct X as [[b j] [I X]]. cbn [fst snd] in X.
    apply in_prod_iff in I. rewrite !in_seq in I. exists b, j. split; [lia|]. split; [lia|]. unfold opposed_b in X. apply andb_true_iff in X. rewrite !Nat.eqb_eq in X. exact X.
  - assert (X : forallb (fun z => forallb (fun w => negb (pvert cube (fst z) (snd z) =? pvert cube (fst w) (snd w)) || ((fst z =? fst w) && (snd z =? snd w)) || corner_step_b cube z w) (list_prod (seq 0 6) (seq 0 4))) (list_prod (seq 0 6) (seq 0 4)) = true) by (vm_compute; reflexivity).
    intros a k b l Ha Hb Hk Hl Ev. change (length cube) with 6 in *. rewrite forallb_forall in X. specialize (X (a, k)). rewrite in_prod_iff, !in_seq in X. specialize (X ltac:(lia)). rewrite forallb_forall in X. specialize (X (b, l)). rewrite in_prod_iff, !in_seq in X. specialize (X ltac:(lia)).
    cbn [fst snd] in X. rewrite Ev, Nat.eqb_refl in X. cbn [negb orb] in X. apply orb_true_iff in X. destruct X as [X|X]; [|apply rst_step, corner_step_b_ok; exact X].
    apply andb_true_iff in X. rewrite !Nat.eqb_eq in X. destruct X as [-> ->]. apply rst_refl.
  - split; [apply seq_NoDup|]. assert (X : forallb (fun v => existsb (fun c => existsb (Nat.eqb v) c) cube) (seq 0 8) && forallb (fun c => forallb (fun v => v <? 8) c) cube = true) by (vm_compute; reflexivity).
    apply andb_true_iff in X. destruct X as [X1 X2]. rewrite forallb_forall in X1, X2. intros v. split.
    + intros I. specialize (X1 v I). apply existsb_exists in X1. destruct X1 as [c [Ic X1]]. apply existsb_exists in X1. destruct X1 as [w [Iw Q]]. apply Nat.eqb_eq in Q. subst w. eauto.
    + intros [c [Ic Iv]]. specialize (X2 c Ic). rewrite forallb_forall in X2. specialize (X2 v Iv). apply Nat.ltb_lt in X2. apply in_seq. lia.
Qed.
(** 56 functions of degree 2 on the cube refined once: 6 * 3^2 - 6 + 8 *)
Example C84_example : exists t els solve S, uniform_mesh Nat.eqb cube 1 t els /\ good_solve solve /\
  ansatz_continuous (repeat 0%R 20) (fun _ _ => 0%R) (fun _ => 0%R) (fun _ => 0%R) solve 2 1 6 1 t els = Some S /\
  as_cols S + 6 = 6 * ((spline_dim 2 (2 ^ 1) 1 - 1) * (spline_dim 2 (2 ^ 1) 1 - 1)) + 8 /\ as_cols S = 56.
Proof.
  destruct C64_example as [t [els [solve [S [U [Hs [HM [HO [ES [_ Ec]]]]]]]]]]. exists t, els, solve, S. split; [exact U|]. split; [exact Hs|]. split; [exact ES|]. split; [|exact Ec].
  destruct C84_cube as [C1 [C2 C3]]. pose proof cube_verts as Cv. rewrite <- Cv in C1, C2, C3.
  exact (C84_continuous_closed Nat.eqb cube 1 t els U (repeat 0%R 20) (fun _ _ => 0%R) (fun _ => 0%R) (fun _ => 0%R) solve Hw1 Hs HM HO 2 1 S (seq 0 8) ltac:(lia) ltac:(lia) ES C3 C2 C1).
Qed.
(** the condition on the vertices is needed: two squares which meet only in one vertex have 8 bilinear functions, 7 vertices *)
Definition pinched : list (list nat) := [[0; 1; 2; 3]; [2; 4; 5; 6]].
Theorem C84_pinched_refuted : mesh_ok pinched /\ oriented pinched /\ all_vertices pinched (seq 0 7) /\ shared_sides pinched [] /\
  exists t els solve S, uniform_mesh Nat.eqb pinched 0 t els /\ good_solve solve /\
  ansatz_continuous (repeat 0%R 20) (fun _ _ => 0%R) (fun _ => 0%R) (fun _ => 0%R) solve 1 0 2 1 t els = Some S /\ as_cols S = 8.
Proof.
  assert (HM : mesh_ok pinched) by (apply mesh_ok_b; vm_compute; reflexivity). assert (HO : oriented pinched) by (apply oriented_b_ok; vm_compute; reflexivity).
  split; [exact HM|]. split; [exact HO|]. split; [|split].
  - split; [apply seq_NoDup|]. intros v. split.
    + intros I. apply in_seq in I. assert (v = 0 \/ v = 1 \/ v = 2 \/ v = 3 \/ v = 4 \/ v = 5 \/ v = 6) as Q by lia. unfold pinched. destruct (le_lt_dec v 3); [exists [0; 1; 2; 3]|exists [2; 4; 5; 6]]; (split; [simpl; tauto|]); repeat (destruct Q as [Q|Q]; [subst v; simpl; tauto || lia|]); subst v; simpl; tauto || lia.
    + intros [c [[<-|[<-|[]]] I]]; apply in_seq; simpl in I; intuition lia.
  - split; [constructor|]. intros a i b j. split; [intros []|]. intros [H1 [H2 [H3 [H4 H5]]]]. change (length pinched) with 2 in H2. assert (a = 0) by lia. assert (b = 1) by lia. subst. exfalso.
    assert (X : forallb (fun z => negb (opposed_b pinched 0 (fst z) 1 (snd z))) (list_prod (seq 0 4) (seq 0 4)) = true) by (vm_compute; reflexivity). rewrite forallb_forall in X. specialize (X (i, j)). rewrite in_prod_iff, !in_seq in X. specialize (X ltac:(lia)). cbn [fst snd] in X.
    unfold opposed_b in X. rewrite (proj2 (Nat.eqb_eq _ _) (proj1 H5)), (proj2 (Nat.eqb_eq _ _) (proj2 H5)) in X. discriminate.
  - assert (F4 : forall c, In c pinched -> length c = 4) by (intros c [<-|[<-|[]]]; reflexivity). assert (Vt : fst (patch_vertices Nat.eqb [] pinched) = pinched) by (vm_compute; reflexivity).
    destruct (any_mesh pinched 0 ltac:(discriminate) F4) as [t [els U]]. destruct C25_solver_exists as [solve Hs].
    rewrite <- Vt in HM, HO.
    destruct (C64_defined Nat.eqb pinched 0 t els U (repeat 0%R 20) (fun _ _ => 0%R) (fun _ => 0%R) (fun _ => 0%R) solve Hw1 Hs HM HO 1 1 ltac:(lia) ltac:(lia)) as [edges [groups [stored [Ee [Eg [Df Sz]]]]]].
    pose proof U as [U1 [U2 [E U3]]].
    assert (X : (t <- init_tree Nat.eqb pinched 0 ;; e <- patch_topology_info t ;; st <- cont_groups 2 8 e ;; Some (no_gap_b (fst st), n_slaves (filter nonempty (fst st)))) = Some (true, 0)) by (vm_compute; reflexivity).
    change (spline_dim 1 (2 ^ 0) 1) with 2 in *. change (length pinched * (2 * 2)) with 8 in *.
    rewrite E in X. cbn [bind] in X. rewrite Ee in X. cbn [bind] in X. rewrite Eg in X. cbn [bind fst] in X. injection X as X1 X2. apply no_gap_b_iff in X1.
    destruct (proj1 Df X1) as [S ES]. destruct (Sz S ES) as [R1 R2]. exists t, els, solve, S. split; [exact U|]. split; [exact Hs|]. split; [exact ES|]. lia.
Qed.

(* BEGIN ASSUMPTIONS *)
Print Assumptions C84_discontinuous.
Print Assumptions C84_continuous.
Print Assumptions C84_continuous_closed.
Print Assumptions C84_div.
Print Assumptions C84_div_closed.
Print Assumptions C84_pinched_refuted.
