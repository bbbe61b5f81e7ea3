(** C19-C24: gluing of patch-wise degrees of freedom. *)
From Coq Require Import List Arith Bool ZArith Lia Permutation Relations Sorted.
From Verif Require Import ModelBase ModelTree ModelGlue SpecTree SpecMesh SpecGlue ProofTreeWF ProofTreeHist ProofConf ProofConfTree ProofConfHist ProofConfPts ProofTopoInfo ProofGlueMat ProofGlueId ProofGlueEdge ProofGlueMesh ProofGlueDiv PropTopo.
Import ListNotations.
Local Open Scope nat_scope.

(** ** C19 *)
Lemma sorted_map_seq : forall (f : nat -> nat) m, (forall a b, a < b -> f a < f b) -> StronglySorted lt (map f (seq 0 m)).
Proof.
  intros f m H. generalize 0. induction m as [|m IH]; intros a; cbn [seq map]; constructor; [apply IH|].
  apply Forall_forall. intros x Hx. apply in_map_iff in Hx. destruct Hx as [b [<- Hb]]. apply in_seq in Hb. apply H. lia.
Qed.

(** the list without the asserts (release build): exactly the grid points of the side, in increasing order *)
Theorem C19_edge_list : forall e nx ny shift, e < 4 -> 1 <= nx -> 1 <= ny ->
  let l := edge_list e nx ny shift in
  (forall d, In d l <-> exists X Y, X < nx /\ Y < ny /\ on_side e nx ny X Y /\ d = grid_dof nx shift X Y) /\
  NoDup l /\ StronglySorted lt l /\ length l = edge_len e nx ny /\
  (forall k, k < edge_len e nx ny -> nth_error l k = Some (grid_dof nx shift (fst (edge_point e nx ny k)) (snd (edge_point e nx ny k)))).
Proof.
  intros e nx ny shift He Hx Hy. cbv zeta. rewrite edge_list_spec by auto.
  assert (Mono : forall a b, a < b -> edge_dof e nx ny shift a < edge_dof e nx ny shift b) by (intros; apply edge_dof_lt; assumption).
  split; [|split; [|split; [|split]]].
  - intros d. rewrite in_map_iff. split.
    + intros [k [<- Hk]]. apply in_seq in Hk.
      exists (fst (edge_point e nx ny k)), (snd (edge_point e nx ny k)).
      clear Mono. apply lt4 in He. destruct He as [-> | [-> | [-> | -> ] ] ]; cbn [edge_point edge_len on_side fst snd] in *; repeat split; lia.
    + intros [X [Y [HX [HY [S ->]]]]]. clear Mono.
      apply lt4 in He. destruct He as [-> | [-> | [-> | -> ] ] ]; cbn [on_side] in S; subst;
        unfold edge_dof; cbn [edge_len edge_point fst snd];
        match goal with
        | |- exists k, grid_dof _ _ k _ = grid_dof _ _ ?X _ /\ _ => exists X
        | |- exists k, grid_dof _ _ _ k = grid_dof _ _ _ ?Y /\ _ => exists Y
        end; (split; [reflexivity|apply in_seq; lia]).
  - apply nodup_map_in; [|apply seq_NoDup]. intros a b _ _ E. destruct (lt_eq_lt_dec a b) as [[H|H]|H]; [apply Mono in H; lia|assumption|apply Mono in H; lia].
  - apply sorted_map_seq. assumption.
  - rewrite map_length, seq_length. reflexivity.
  - intros k Hk. apply (get_map_seq (edge_dof e nx ny shift)). assumption.
Qed.
(** with asserts the routine returns this list exactly when the side is not longer than the other direction *)
Theorem C19_edge_dofs : forall e nx ny shift, e < 4 ->
  (edge_dofs e nx ny shift = Some (edge_list e nx ny shift) <-> match e with 0 | 2 => nx <= ny | _ => ny <= nx end) /\
  (edge_dofs e nx ny shift = None <-> match e with 0 | 2 => ny < nx | _ => nx < ny end).
Proof.
  intros e nx ny shift He. unfold edge_dofs.
  apply lt4 in He. destruct He as [-> | [-> | [-> | -> ] ] ]; cbn [assert bind];
  match goal with |- context [?a <=? ?b] => destruct (Nat.leb_spec a b) end; cbn; split; split; intros; try lia; try discriminate; auto.
Qed.
Example edge_dofs_case : edge_dofs 1 4 3 100 = Some [103; 107; 111] /\ edge_dofs 2 3 4 100 = Some [109; 110; 111].
Proof. split; reflexivity. Qed.

(** ** C20 *)
(** dof number k of edge i and its partner on edge j have complementary positions along the counter-clockwise
    boundaries, that is, they sit at the same point of a common edge run through in opposite directions *)
Theorem C20_pairing : forall n i j k, i < 4 -> j < 4 -> k < n ->
  let k' := if reverse_parametrized i j then n - 1 - k else k in
  k' < n /\ exists s s', s + s' = n - 1 /\
    on_edge (n - 1) i s (fst (edge_point i n n k)) (snd (edge_point i n n k)) /\
    on_edge (n - 1) j s' (fst (edge_point j n n k')) (snd (edge_point j n n k')).
Proof.
  intros n i j k Hi Hj Hk. cbv zeta. fold (partner i j n k). pose proof (partner_lt i j n k Hk) as Hp. split; [assumption|].
  exists (ccw i n k), (ccw j n (partner i j n k)). split; [apply ccw_partner; assumption|]. split; apply on_edge_point; assumption.
Qed.
(** the coefficient is the only one for which the fluxes out of the two patches cancel *)
Theorem C20_sign : forall i j v, i < 4 -> j < 4 -> (glue_coef i j = v <-> (out_flux i * 1 + out_flux j * v = 0)%Z).
Proof. intros i j v Hi Hj. pose proof (coef_flux i j v Hi Hj). split; intros; [subst v; assert (out_flux i + glue_coef i j * out_flux j = 0)%Z by tauto; lia|symmetry; apply H; lia]. Qed.
(** for an edge run through in the same direction by both boundaries (patches of opposite orientation) the
    pairing is the wrong one *)
Theorem C20_aligned_refuted : exists n i j k, i < 4 /\ j < 4 /\ k < n /\
  let k' := if reverse_parametrized i j then n - 1 - k else k in
  ~ exists s, on_edge (n - 1) i s (fst (edge_point i n n k)) (snd (edge_point i n n k)) /\
    on_edge (n - 1) j s (fst (edge_point j n n k')) (snd (edge_point j n n k')).
Proof. exists 2, 0, 0, 0. repeat (split; [lia|]). cbv zeta. intros [s [[_ A] [_ B]]]. cbn in A, B. lia. Qed.

(** ** C21 *)
Theorem C21_glue_matrix : forall pre ids, groups_ok pre ids ->
  exists post trips, assemble_glue pre ids = Some (pre, post, trips) /\ glues pre post ids trips.
Proof. exact assemble_ok. Qed.
Example glue_case : groups_ok 7 [([2; 5; 3], 1%Z); ([0; 6], (-1)%Z)] /\
  assemble_glue 7 [([2; 5; 3], 1%Z); ([0; 6], (-1)%Z)] =
    Some (7, 4, [(0, 0, 1%Z); (6, 0, (-1)%Z); (1, 1, 1%Z); (2, 2, 1%Z); (5, 2, 1%Z); (3, 2, 1%Z); (4, 3, 1%Z)]).
Proof.
  split; [|reflexivity]. split.
  - intros g [<-|[<-|[]]]; simpl; lia.
  - intros g d [<-|[<-|[]]]; simpl; lia.
  - simpl. repeat constructor; simpl; lia.
  - intros g d [<-|[<-|[]]]; simpl; lia.
Qed.
(** needed: a group whose first dof is not the smallest is rejected by an assert *)
Theorem C21_order_refuted : assemble_glue 4 [([3; 1], 1%Z)] = None.
Proof. reflexivity. Qed.

(** ** C22 *)
Theorem C22_groups : forall n P edges, 1 <= n -> edges_ok P edges ->
  exists groups stored, cont_groups n (P * (n * n)) edges = Some (groups, stored) /\
    NoDup (concat (map fst groups)) /\
    (forall g d, In g groups -> In d (fst g) -> d < P * (n * n)) /\
    (forall g, In g groups -> fst g = [] \/ (2 <= length (fst g) /\ snd g = 1%Z)) /\
    (forall x y, x <> y -> (same_group groups x y <-> identified n edges x y)).
Proof.
  intros n P edges Hn Ok. destruct (cont_ids_ok n P _ edges Hn eq_refl Ok) as [[groups stored] [E [N [Sh [Lt [Same _]]]]]].
  exists groups, stored. cbn [fst] in *. repeat (split; [assumption|]). intros x y Hne. rewrite <- Same. tauto.
Qed.

(** on meshes with consistently oriented patches: the identifications of the interfaces found by the element
    tree are passed on to a correct glue matrix whenever the clean-up finds no gap *)
Theorem C22_mesh : forall verts npts t p rep M, mesh_ok verts -> oriented verts -> numbered verts npts -> reachable_over verts npts t ->
  1 <= p ->
  let n := one_d_dim p rep M in let D := length verts * (n * n) in
  exists edges groups stored, patch_topology_info t = Some edges /\
    (forall a b i j, In (a, Some b, i, Some j) edges <-> a < b /\ b < length verts /\ i < 4 /\ j < 4 /\ opposed verts a i b j) /\
    cont_groups n D edges = Some (groups, stored) /\
    (no_gap groups -> exists ids post trips, cont_identification p rep M D edges = Some ids /\
       (forall x y, x <> y -> (same_group ids x y <-> identified n edges x y)) /\
       assemble_glue D ids = Some (D, post, trips) /\ glues D post ids trips /\ (forall r c v, In (r, c, v) trips -> v = 1%Z)).
Proof.
  intros verts npts t p rep M HM HO HN HR Hp n D. destruct (over_wf verts npts t HM HN HR) as [Ov [l W]].
  destruct (reach_edges verts t l HM HO W Ov) as [edges [E [Ok [Sd [Iff Once]]]]].
  assert (Hn : 2 <= n) by (unfold n, one_d_dim; generalize (rep * (2 ^ M - 1)); intros; lia).
  destruct (cont_ids_ok n (length verts) D edges ltac:(lia) eq_refl Ok) as [[groups stored] [Eg [N [Sh [Lt [Same Mi]]]]]].
  exists edges, groups, stored. split; [assumption|]. split; [exact Iff|]. split; [assumption|]. intros G. cbn [fst] in *.
  destruct (groups_after_cleanup D groups N Sh Lt (Mi Sd (Once n Hn)) G) as [ids [Ec [Gk [One SG]]]].
  destruct (assemble_ok D ids Gk) as [post [trips [Ea Gl]]].
  exists ids, post, trips. split; [|split; [|split; [assumption|split; [assumption|]]]].
  - unfold cont_identification. rewrite (proj2 (Nat.leb_le 1 p)) by assumption. cbn [assert bind]. fold n. rewrite Eg. cbn [bind fst]. assumption.
  - intros x y Hne. rewrite SG, <- Same. tauto.
  - intros r c v Hin. destruct (in_dec Nat.eq_dec r (concat (map (fun g : group => tl (fst g)) ids))) as [Hs|Hs].
    + apply in_concat in Hs. destruct Hs as [x [Hx Hr]]. apply in_map_iff in Hx. destruct Hx as [g [<- Hg]].
      rewrite (gl_coef _ _ _ _ Gl r c v g Hin Hg Hr). apply One. assumption.
    + apply (gl_one _ _ _ _ Gl r c v Hin). intros [g [Hg Hr]]. apply Hs. apply in_concat. exists (tl (fst g)). split; [|assumption].
      apply in_map_iff. eauto.
Qed.

(** non-vacuity: the cube is consistently oriented; quadratic splines on the cube, groups without gap *)
Definition opposed_b verts p i q j : bool :=
  (pvert verts p i =? pvert verts q ((j+1) mod 4)) && (pvert verts p ((i+1) mod 4) =? pvert verts q j).
Definition oriented_b (verts : list (list nat)) : bool :=
  forallb (fun x => forallb (fun y => ((fst x =? fst y) && (snd x =? snd y)) || negb (glued_b verts (fst x) (snd x) (fst y) (snd y))
     || opposed_b verts (fst x) (snd x) (fst y) (snd y)) (slots verts)) (slots verts).
Lemma oriented_b_ok : forall verts, oriented_b verts = true -> oriented verts.
Proof.
  intros verts H p i q j Hp Hq Hi Hj Ne G. unfold oriented_b in H. rewrite forallb_forall in H.
  specialize (H (p, i) (slots_in _ _ _ Hp Hi)). rewrite forallb_forall in H. specialize (H (q, j) (slots_in _ _ _ Hq Hj)). cbn [fst snd] in H.
  rewrite (proj2 (glued_b_iff _ _ _ _ _) G) in H. cbn [negb] in H. rewrite orb_false_r in H. apply orb_true_iff in H. destruct H as [H|H].
  - apply andb_true_iff in H. rewrite !Nat.eqb_eq in H. exfalso. apply Ne. destruct H. congruence.
  - unfold opposed_b in H. apply andb_true_iff in H. rewrite !Nat.eqb_eq in H. exact H.
Qed.
Example cube_oriented : oriented cube.
Proof. apply oriented_b_ok. vm_compute. reflexivity. Qed.
(** p = 2, level 1: n = 4, 96 dofs, 32 groups (24 edge dofs and 8 corners), 56 remaining dofs *)
Definition glue_of (verts : list (list nat)) (npts p rep M : nat) : option (list group * option (list group) * option nat) :=
  t <- init_patches verts npts 0 ;; edges <- patch_topology_info t ;;
  let n := one_d_dim p rep M in let D := length verts * (n * n) in
  st <- cont_groups n D edges ;;
  Some (fst st, cont_identification p rep M D edges,
    match cont_identification p rep M D edges with Some ids => option_map (fun r => snd (fst r)) (assemble_glue D ids) | None => None end).
Fixpoint no_gap_b (out : list group) : bool :=
  match out with
  | [] => true
  | g :: r => match r with [] => nonempty g | h :: _ => (nonempty g || nonempty h) && no_gap_b r end
  end.
Lemma no_gap_b_iff : forall out, no_gap_b out = true <-> no_gap out.
Proof.
  induction out as [|g [|h r] IH]; cbn [no_gap_b no_gap]; [tauto|tauto|]. rewrite andb_true_iff, orb_true_iff.
  split; intros [A B]; split; auto; apply IH; assumption.
Qed.
Example cube_glue : match glue_of cube 8 2 1 1 with
  | Some (g, Some ids, Some post) => (no_gap_b g, length ids, post) = (true, 32, 56)
  | _ => False end.
Proof. vm_compute. reflexivity. Qed.

(** ** C23 *)
(** the clean-up loop removes exactly the empty groups if and only if no two empty groups are consecutive and
    the last group is not empty *)
Theorem C23_cleanup : forall out,
  (no_gap out -> cleanup out = Some (filter nonempty out)) /\
  (forall ids, cleanup out = Some ids -> (forall g, In g ids -> fst g <> []) -> no_gap out).
Proof. intros out. split; [apply cleanup_ok|apply cleanup_only]. Qed.
(** it is not correct for all meshes: ten quadrilaterals of a pentagonal trapezohedron (closed, consistently
    oriented), bilinear ansatz functions on the unrefined mesh.  In the first numbering of the patches the last group
    is empty and the iterator runs past the end; in the second one an empty group survives and the
    assembly of the glue matrix reads dofs[0] of an empty vector *)
Definition trapezo1 : list (list nat) :=
  [[4;0;2;3];[8;9;10;0];[11;10;9;1];[6;7;8;0];[7;6;5;1];[3;1;5;4];[0;10;11;2];[11;1;3;2];[6;0;4;5];[9;8;7;1]].
Definition trapezo2 : list (list nat) :=
  [[8;0;6;7];[3;2;11;1];[9;8;7;1];[2;0;10;11];[3;4;0;2];[5;6;0;4];[10;0;8;9];[11;10;9;1];[4;3;1;5];[5;1;7;6]].
Theorem C23_past_the_end_refuted : mesh_ok trapezo1 /\ oriented trapezo1 /\
  exists t edges, init_patches trapezo1 12 0 = Some t /\ patch_topology_info t = Some edges /\
    cont_identification 1 1 0 40 edges = None.
Proof.
  split; [apply mesh_ok_b; vm_compute; reflexivity|]. split; [apply oriented_b_ok; vm_compute; reflexivity|].
  destruct (init_patches trapezo1 12 0) as [t|] eqn:E; [|vm_compute in E; discriminate]. exists t.
  assert (X : (t <- init_patches trapezo1 12 0 ;; e <- patch_topology_info t ;; Some (cont_identification 1 1 0 40 e)) = Some None) by (vm_compute; reflexivity).
  rewrite E in X. cbn [bind] in X. destruct (patch_topology_info t) as [edges|]; [|discriminate]. exists edges. cbn [bind] in X.
  split; [reflexivity|]. split; [reflexivity|]. injection X. auto.
Qed.
Theorem C23_empty_group_refuted : mesh_ok trapezo2 /\ oriented trapezo2 /\
  exists t edges ids, init_patches trapezo2 12 0 = Some t /\ patch_topology_info t = Some edges /\
    cont_identification 1 1 0 40 edges = Some ids /\ In ([], 0%Z) ids /\ assemble_glue 40 ids = None.
Proof.
  split; [apply mesh_ok_b; vm_compute; reflexivity|]. split; [apply oriented_b_ok; vm_compute; reflexivity|].
  destruct (init_patches trapezo2 12 0) as [t|] eqn:E; [|vm_compute in E; discriminate]. exists t.
  assert (X : (t <- init_patches trapezo2 12 0 ;; e <- patch_topology_info t ;; ids <- cont_identification 1 1 0 40 e ;;
     Some (existsb (fun g => match g with ([], 0%Z) => true | _ => false end) ids, assemble_glue 40 ids)) = Some (true, None)) by (vm_compute; reflexivity).
  rewrite E in X. cbn [bind] in X. destruct (patch_topology_info t) as [edges|]; [|discriminate]. cbn [bind] in X.
  exists edges. destruct (cont_identification 1 1 0 40 edges) as [ids|]; [|discriminate]. exists ids. cbn [bind] in X. injection X as X1 X2.
  repeat (split; [reflexivity|]). split; [|assumption]. apply existsb_exists in X1. destruct X1 as [[[|d r] [|z|z]] [H1 H2]]; try discriminate. assumption.
Qed.

(** ** C24 *)
Theorem C24_div_identification : forall p rep M P edges, 1 <= p -> 1 <= P -> edges_ok P edges -> NoDup (flat_map sides edges) ->
  let S := p + rep * (2 ^ M - 1) in let L := S + 1 in let D := 2 * P * (S * L) in
  exists ids, div_identification p rep M P D edges = Some ids /\ groups_ok D ids /\
    (forall g, In g ids <-> exists x y v, flux_ident S L P edges x y v /\ g = ([Nat.min x y; Nat.max x y], v)) /\
    (exists post trips, assemble_glue D ids = Some (D, post, trips) /\ glues D post ids trips).
Proof.
  intros p rep M P edges Hp HP Ok Nd S L D.
  assert (HS : 1 <= S) by (unfold S; generalize (rep * (2 ^ M - 1)); intros; lia).
  exists (flat_map (dgroups S L P) edges).
  assert (G : groups_ok D (flat_map (dgroups S L P) edges)) by (apply div_groups_ok; auto; reflexivity).
  split; [|split; [assumption|split]].
  - unfold div_identification. replace (p + 1 + rep * (2 ^ M - 1)) with L by (unfold L, S; lia). fold S.
    replace (S * L =? D / (P * 2)) with true.
    + cbn [assert bind]. rewrite (div_fold S L P HS eq_refl) by assumption. reflexivity.
    + symmetry. apply Nat.eqb_eq. unfold D. replace (2 * P * (S * L)) with (S * L * (P * 2)) by lia. rewrite Nat.div_mul by lia. reflexivity.
  - intros g. apply div_group_iff; auto.
  - apply assemble_ok. assumption.
Qed.
(** the interfaces of a mesh list every side of a patch at most once *)
Theorem C24_mesh_sides : forall verts npts t, mesh_ok verts -> numbered verts npts -> reachable_over verts npts t ->
  exists edges, patch_topology_info t = Some edges /\ edges_ok (length verts) edges /\ NoDup (flat_map sides edges).
Proof.
  intros verts npts t HM HN HR. destruct (C17_interfaces verts npts t HM HN HR) as [edges [E [Nd [I1 [I2 I3]]]]].
  exists edges. split; [assumption|]. split.
  - intros p q i j H. destruct q as [q|], j as [j|].
    + apply I1 in H. destruct H as [H1 [H2 [H3 [H4 H5]]]]. split; [lia|]. split; [assumption|]. split; intros z Ez; injection Ez as <-; [split; assumption|assumption].
    + apply I3 in H. destruct H as [_ H]. discriminate (H eq_refl).
    + apply I3 in H. destruct H as [H _]. discriminate (H eq_refl).
    + apply I2 in H. destruct H as [H1 [H2 _]]. split; [assumption|]. split; [assumption|]. split; intros z Ez; discriminate.
  - assert (Two : forall p i q j r k, p < length verts -> q < length verts -> r < length verts -> i < 4 -> j < 4 -> k < 4 -> q <> p -> r <> p ->
       glued verts p i q j -> glued verts p i r k -> (q, j) = (r, k)).
    { intros p i q j r k Hp Hq Hr Hi Hj Hk N1 N2 G1 G2. destruct (mo_two verts HM p i q j r k Hp Hq Hr Hi Hj Hk G1 G2) as [F|[F|F]]; [injection F; congruence|injection F; congruence|assumption]. }
    apply nodup_flat_map; [assumption| |].
    + intros [[[p [q|]] i] [j|]] Hin; cbn [sides]; [|constructor|constructor|constructor].
      apply I1 in Hin. constructor; [|constructor; [intros []|constructor]]. intros [F|[]]. injection F. lia.
    + intros [[[p [q|]] i] [j|]] [[[p' [q'|]] i'] [j'|]] [a m] Ha Hb Hx Hy; cbn [sides] in Hx, Hy; try (destruct Hx; fail); try (destruct Hy; fail).
      apply I1 in Ha, Hb. destruct Ha as [A1 [A2 [A3 [A4 A5]]]], Hb as [B1 [B2 [B3 [B4 B5]]]].
      destruct Hx as [Hx|[Hx|[]]], Hy as [Hy|[Hy|[]]]; injection Hx as <- <-; injection Hy as E1 E2; subst.
      * pose proof (Two p i q j q' j' ltac:(lia) ltac:(lia) ltac:(lia) A3 A4 B4 ltac:(lia) ltac:(lia) A5 B5) as F. injection F as -> ->. reflexivity.
      * apply glued_sym in B5. pose proof (Two p i q j p' i' ltac:(lia) ltac:(lia) ltac:(lia) A3 A4 B3 ltac:(lia) ltac:(lia) A5 B5) as F. injection F. lia.
      * apply glued_sym in A5. pose proof (Two q j p i q' j' ltac:(lia) ltac:(lia) ltac:(lia) A4 A3 B4 ltac:(lia) ltac:(lia) A5 B5) as F. injection F. lia.
      * apply glued_sym in A5, B5. pose proof (Two q j p i p' i' ltac:(lia) ltac:(lia) ltac:(lia) A4 A3 B3 ltac:(lia) ltac:(lia) A5 B5) as F. injection F as -> ->. reflexivity.
Qed.
Example div_cube : (t <- init_patches cube 8 0 ;; edges <- patch_topology_info t ;; ids <- div_identification 2 1 1 6 144 edges ;;
   r <- assemble_glue 144 ids ;; Some (length ids, snd (fst r))) = Some (36, 108).
Proof. vm_compute. reflexivity. Qed.

(* BEGIN ASSUMPTIONS *)
Print Assumptions C19_edge_list.
Print Assumptions C19_edge_dofs.
Print Assumptions C20_pairing.
Print Assumptions C20_sign.
Print Assumptions C20_aligned_refuted.
Print Assumptions C21_glue_matrix.
Print Assumptions C21_order_refuted.
Print Assumptions C22_groups.
Print Assumptions C22_mesh.
Print Assumptions C23_cleanup.
Print Assumptions C23_past_the_end_refuted.
Print Assumptions C23_empty_group_refuted.
Print Assumptions C24_div_identification.
Print Assumptions C24_mesh_sides.
