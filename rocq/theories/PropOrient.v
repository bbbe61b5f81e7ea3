(** C81: ClusterTree::checkOrientation. *)
From Coq Require Import List Arith Reals Lra Lia.
From Verif Require Import ModelBase ModelTree SpecTree SpecMesh ModelBall ModelOrient PropTopo ProofTopoInfo.
Import ListNotations.
Local Open Scope nat_scope.

(** the middle of local edge i on the reference square: the point halfway between its two corners *)
Definition corner (k : nat) : R * R := nth (k mod 4) [(0, 0); (1, 0); (1, 1); (0, 1)]%R (0, 0)%R.
Definition middle (i : nat) : R * R := ((fst (corner i) + fst (corner (i + 1))) / 2, (snd (corner i) + snd (corner (i + 1))) / 2)%R.
Lemma edge_middle : forall i, i < 4 -> edge_midpoint i = Some (middle i).
Proof.
  intros i H. destruct i as [|[|[|[|i]]]]; [| | | |lia]; unfold edge_midpoint, middle, get; cbn [nth_error corner nth Nat.modulo Nat.divmod fst snd Nat.add Nat.sub]; apply f_equal; apply f_equal2; cbn; lra.
Qed.
(** what the assertions demand of two points *)
Definition agree (a b : vec3) : Prop := (vnorm (vsub a b) < / 1000000000)%R /\ (0 < vdot a b)%R.
Lemma check_edge_iff : forall geo p q j k, j < 4 -> k < 4 ->
  check_edge geo (p, Some q, j, Some k) = Some tt <-> (0 < j -> 0 < k -> agree (p_eval (geo p) (middle j)) (p_eval (geo q) (middle k))).
Proof.
  intros geo p q j k Hj Hk. unfold check_edge. rewrite (edge_middle j Hj), (edge_middle k Hk). cbn [bind]. destruct (Nat.ltb_spec 0 j) as [J|J]; [|cbn [andb]; split; [lia|reflexivity]].
  destruct (Nat.ltb_spec 0 k) as [K|K]; [|cbn [andb]; split; [lia|reflexivity]]. cbn [andb]. unfold agree, pt_tol.
  destruct (Rlt_dec (vnorm _) _) as [A|A]; [|split; [discriminate|intros G; exfalso; apply A, (G J K)]]. destruct (Rlt_dec 0 _) as [B|B]; [|split; [discriminate|intros G; exfalso; apply B, (G J K)]].
  split; [intros _ _ _; split; assumption|reflexivity].
Qed.
Lemma fold_none : forall geo es, fold_left (fun r e => u <- r ;; check_edge geo e) es None = None.
Proof. intros geo. induction es as [|e es IH]; [reflexivity|exact IH]. Qed.
Lemma fold_check : forall geo es, fold_left (fun r e => u <- r ;; check_edge geo e) es (Some tt) = Some tt <-> forall e, In e es -> check_edge geo e = Some tt.
Proof.
  intros geo. induction es as [|e es IH]; cbn [fold_left]; [split; [intros _ e []|reflexivity]|]. cbn [bind]. split.
  - intros E. destruct (check_edge geo e) as [[]|] eqn:Ee; [|rewrite fold_none in E; discriminate]. intros e' [<-|H]; [exact Ee|]. apply IH; assumption.
  - intros H. rewrite (H e (or_introl eq_refl)). apply IH. intros e' He. apply H. right. exact He.
Qed.
(** checkOrientation returns, on the tree of a mesh after any refinement history, exactly if at every edge shared by two patches whose local numbers are both 1, 2 or 3,
    the two middles are closer than 1e-9 and their position vectors enclose an acute angle; otherwise an assertion fails *)
Theorem C81_check : forall verts npts t geo, mesh_ok verts -> numbered verts npts -> reachable_over verts npts t ->
  (check_orientation geo t = Some tt <->
   forall p i q j, p < q -> q < length verts -> i < 4 -> j < 4 -> glued verts p i q j -> 0 < i -> 0 < j ->
     (vnorm (vsub (p_eval (geo p) (middle i)) (p_eval (geo q) (middle j))) < / 1000000000)%R /\ (0 < vdot (p_eval (geo p) (middle i)) (p_eval (geo q) (middle j)))%R).
Proof.
  intros verts npts t geo M Nm Re. destruct (C17_interfaces verts npts t M Nm Re) as [out [E [_ [In1 [In2 In3]]]]]. unfold check_orientation. rewrite E. cbn [bind]. rewrite fold_check. split.
  - intros G p i q j H1 H2 H3 H4 H5 H6 H7. assert (I : In (p, Some q, i, Some j) out) by (apply In1; auto). apply (proj1 (check_edge_iff geo p q i j H3 H4) (G _ I) H6 H7).
  - intros G [[[p [q|]] i] [j|]] I; [|reflexivity..]. destruct (proj1 (In1 p q i j) I) as [H1 [H2 [H3 [H4 H5]]]]. apply check_edge_iff; [assumption..|]. intros J K. apply (G p i q j); assumption.
Qed.
(** no assertion depends on a normal vector *)
Theorem C81_normals_ignored : forall t geo normals, check_orientation (fun p => mkPatch (p_eval (geo p)) (normals p)) t = check_orientation geo t.
Proof.
  intros t geo normals. unfold check_orientation. destruct (patch_topology_info t) as [es|]; [|reflexivity]. cbn [bind]. generalize (Some tt). induction es as [|e es IH]; intros r; [reflexivity|]. cbn [fold_left]. rewrite IH. reflexivity.
Qed.
(** a geometry whose shared edges have the same middles up to less than 1e-9 passes if no middle is within 1e-9 of the origin *)
Lemma agree_far : forall a b, (vnorm (vsub a b) < / 1000000000)%R -> (/ 1000000000 <= vnorm a)%R -> (0 < vdot a b)%R.
Proof.
  intros a b H1 H2. assert (H3 : (vnorm (vsub a b) < vnorm a)%R) by lra. unfold vnorm in H3. apply sqrt_lt_0_alt in H3. unfold vdot, vsub, vx, vy, vz in *. destruct a as [[a1 a2] a3], b as [[b1 b2] b3]; cbn [fst snd] in *.
  pose proof (Rle_0_sqr b1). pose proof (Rle_0_sqr b2). pose proof (Rle_0_sqr b3). unfold Rsqr in *. nra.
Qed.
Theorem C81_accepts : forall verts npts t geo, mesh_ok verts -> numbered verts npts -> reachable_over verts npts t ->
  (forall p i q j, p < q -> q < length verts -> i < 4 -> j < 4 -> glued verts p i q j -> (vnorm (vsub (p_eval (geo p) (middle i)) (p_eval (geo q) (middle j))) < / 1000000000)%R) ->
  (forall p i, p < length verts -> i < 4 -> (/ 1000000000 <= vnorm (p_eval (geo p) (middle i)))%R) ->
  check_orientation geo t = Some tt.
Proof.
  intros verts npts t geo M Nm Re Hc Ho. apply (C81_check verts npts t geo M Nm Re). intros p i q j H1 H2 H3 H4 H5 _ _. pose proof (Hc p i q j H1 H2 H3 H4 H5) as D. split; [exact D|].
  apply agree_far; [exact D|apply Ho; [lia|assumption]].
Qed.

(** two squares side by side; the geometry gives the position of every corner *)
Definition strip : list (list nat) := [[0; 1; 2; 3]; [1; 4; 5; 2]].
Definition strip_flipped : list (list nat) := [[0; 1; 2; 3]; [4; 1; 2; 5]].
Definition strip_rotated : list (list nat) := [[0; 1; 2; 3]; [2; 1; 4; 5]].
Definition place (z : R) (v : nat) : vec3 := nth v [(-1, - / 2, z); (0, - / 2, z); (0, / 2, z); (-1, / 2, z); (1, - / 2, z); (1, / 2, z)]%R (0, 0, 0)%R.
(** the corners of the patches are the points of the mesh *)
Definition corners_at (z : R) (verts : list (list nat)) (geo : nat -> patch_fn) : Prop := forall p k, p < 2 -> k < 4 -> p_eval (geo p) (corner k) = place z (pvert verts p k).
Definition left_square (z : R) : patch_fn := mkPatch (fun s => (fst s - 1, snd s - / 2, z)%R) (fun _ => (0, 0, 1)%R).
Definition right_square (z : R) : patch_fn := mkPatch (fun s => (fst s, snd s - / 2, z)%R) (fun _ => (0, 0, 1)%R).
Definition flipped_square (z : R) : patch_fn := mkPatch (fun s => (1 - fst s, snd s - / 2, z)%R) (fun _ => (0, 0, -1)%R).
Definition bent_square (z : R) : patch_fn := mkPatch (fun s => (snd s - (1 - snd s) * (2 * fst s * (1 - fst s)), / 2 - fst s, z)%R) (fun _ => (0, 0, 1)%R).
Definition pair_of (a b : patch_fn) (p : nat) : patch_fn := match p with 0 => a | _ => b end.
Ltac corners := intros p k Hp Hk; destruct p as [|[|p]]; [| |lia]; destruct k as [|[|[|[|k]]]]; try lia; cbn; (apply f_equal2; [apply f_equal2|]; lra).
Lemma strip_tree : forall verts, verts = strip \/ verts = strip_flipped \/ verts = strip_rotated -> mesh_ok verts /\ numbered verts 6.
Proof.
  intros verts Hv. split; [apply mesh_ok_b; destruct Hv as [-> | [-> | ->]]; vm_compute; reflexivity|]. intros v. split.
  - intros Hlt. destruct Hv as [-> | [-> | ->]]; do 6 (destruct v as [|v]; [eexists; split; [first [left; reflexivity|right; left; reflexivity]|simpl; tauto] || (eexists; split; [right; left; reflexivity|simpl; tauto])|]); lia.
  - intros [vs [H1 H2]]. destruct Hv as [-> | [-> | ->]]; simpl in H1; repeat destruct H1 as [<-|H1]; simpl in H2; lia.
Qed.
Lemma strip_reachable : forall verts, verts = strip \/ verts = strip_flipped \/ verts = strip_rotated -> exists t, init_tree Nat.eqb verts 0 = Some t /\ reachable_over verts 6 t.
Proof.
  intros verts Hv. destruct (init_tree Nat.eqb verts 0) as [t|] eqn:E; [|destruct Hv as [-> | [-> | ->]]; vm_compute in E; discriminate]. exists t. split; [reflexivity|].
  exists 0, [], t. split; [|split; [exact I|reflexivity]]. destruct Hv as [-> | [-> | ->]]; unfold init_tree in E; cbn in E |- *; exact E.
Qed.
Lemma corner_ok : forall z, corners_at z strip (pair_of (left_square z) (right_square z)) /\ corners_at z strip_flipped (pair_of (left_square z) (flipped_square z)) /\ corners_at z strip_rotated (pair_of (left_square z) (bent_square z)).
Proof. intros z. split; [|split]; corners. Qed.
Ltac edges G := intros p i q j H1 H2 H3 H4 G; cbn in H2; assert (p = 0 /\ q = 1) as [-> ->] by lia; apply glued_b_iff in G;
  destruct i as [|[|[|[|i]]]]; try lia; destruct j as [|[|[|[|j]]]]; try lia; try discriminate G.
Lemma vnorm_zero : forall a b, a = b -> vnorm (vsub a b) = 0%R.
Proof. intros a b <-. unfold vnorm, vdot, vsub, vx, vy, vz. cbn [fst snd]. replace ((_ + _ + _)%R) with 0%R by ring. apply sqrt_0. Qed.
(** a geometry that satisfies the hypotheses of C81_accepts *)
Example C81_accepts_applies : exists t, mesh_ok strip /\ numbered strip 6 /\ reachable_over strip 6 t /\ check_orientation (pair_of (left_square 1) (right_square 1)) t = Some tt.
Proof.
  destruct (strip_tree strip (or_introl eq_refl)) as [M Nm]. destruct (strip_reachable strip (or_introl eq_refl)) as [t [_ Re]]. exists t. split; [exact M|]. split; [exact Nm|]. split; [exact Re|].
  apply (C81_accepts strip 6 t _ M Nm Re).
  - edges G. rewrite vnorm_zero; [lra|]. cbn. apply f_equal2; [apply f_equal2|]; lra.
  - intros p i Hp Hi. apply Rle_trans with (sqrt 1); [rewrite sqrt_1; lra|]. apply sqrt_le_1_alt. cbn in Hp. destruct p as [|[|p]]; [| |lia]; destruct i as [|[|[|[|i]]]]; try lia; unfold vdot, vx, vy, vz; cbn; lra.
Qed.
(** a valid strip of two squares is rejected when the middle of the common edge is the origin *)
Theorem C81_origin_refuted : exists t, init_tree Nat.eqb strip 0 = Some t /\ corners_at 0 strip (pair_of (left_square 0) (right_square 0)) /\
  (forall s, p_eval (left_square 0) (1, s)%R = p_eval (right_square 0) (0, s)%R /\ p_normal (left_square 0) (1, s)%R = p_normal (right_square 0) (0, s)%R) /\
  check_orientation (pair_of (left_square 0) (right_square 0)) t = None.
Proof.
  destruct (strip_tree strip (or_introl eq_refl)) as [M Nm]. destruct (strip_reachable strip (or_introl eq_refl)) as [t [E Re]]. exists t. split; [exact E|]. split; [apply corner_ok|].
  split; [intros s; split; [cbn; apply f_equal2; [apply f_equal2|]; lra|reflexivity]|].
  destruct (check_orientation _ t) as [[]|] eqn:Ec; [|reflexivity]. exfalso. pose proof (proj1 (C81_check strip 6 t _ M Nm Re) Ec 0 1 1 3 ltac:(lia) ltac:(cbn; lia) ltac:(lia) ltac:(lia) ltac:(apply glued_b_iff; reflexivity) ltac:(lia) ltac:(lia)) as [_ Z].
  unfold vdot, vx, vy, vz in Z. cbn in Z. lra.
Qed.
(** patches with opposite normals along their common edge are accepted *)
Theorem C81_orientation_refuted : exists t, init_tree Nat.eqb strip_flipped 0 = Some t /\ corners_at 1 strip_flipped (pair_of (left_square 1) (flipped_square 1)) /\
  (forall s, p_eval (left_square 1) (1, s)%R = p_eval (flipped_square 1) (1, s)%R /\ vdot (p_normal (left_square 1) (1, s)%R) (p_normal (flipped_square 1) (1, s)%R) = (-1)%R) /\
  check_orientation (pair_of (left_square 1) (flipped_square 1)) t = Some tt.
Proof.
  destruct (strip_tree strip_flipped (or_intror (or_introl eq_refl))) as [M Nm]. destruct (strip_reachable strip_flipped (or_intror (or_introl eq_refl))) as [t [E Re]]. exists t. split; [exact E|]. split; [apply corner_ok|].
  split; [intros s; split; [cbn; apply f_equal2; [apply f_equal2|]; lra|unfold vdot, vx, vy, vz; cbn; lra]|].
  apply (C81_check strip_flipped 6 t _ M Nm Re). edges G. intros _ _. split; [rewrite vnorm_zero; [lra|]; cbn; apply f_equal2; [apply f_equal2|]; lra|]. unfold vdot, vx, vy, vz. cbn. lra.
Qed.
(** a gap at an edge that is number 0 of one of the two patches is not noticed: here the middles of the common edge are 1/2 apart *)
Theorem C81_gap_refuted : exists t, init_tree Nat.eqb strip_rotated 0 = Some t /\ corners_at 1 strip_rotated (pair_of (left_square 1) (bent_square 1)) /\
  vnorm (vsub (p_eval (left_square 1) (middle 1)) (p_eval (bent_square 1) (middle 0))) = (/ 2)%R /\ glued strip_rotated 0 1 1 0 /\
  check_orientation (pair_of (left_square 1) (bent_square 1)) t = Some tt.
Proof.
  destruct (strip_tree strip_rotated (or_intror (or_intror eq_refl))) as [M Nm]. destruct (strip_reachable strip_rotated (or_intror (or_intror eq_refl))) as [t [E Re]]. exists t. split; [exact E|]. split; [apply corner_ok|].
  split; [|split; [apply glued_b_iff; reflexivity|]].
  - unfold vnorm. rewrite <- (sqrt_square (/ 2)) by lra. apply f_equal. unfold vdot, vsub, vx, vy, vz. cbn. field.
  - apply (C81_check strip_rotated 6 t _ M Nm Re). edges G.
Qed.

(* BEGIN ASSUMPTIONS *)
Print Assumptions C81_check.
Print Assumptions C81_normals_ignored.
Print Assumptions C81_accepts.
Print Assumptions C81_origin_refuted.
Print Assumptions C81_orientation_refuted.
Print Assumptions C81_gap_refuted.
