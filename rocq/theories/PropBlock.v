(** C26, C27: block cluster tree. *)
From Coq Require Import List Arith Bool Lia QArith ZArith Reals Lra.
From Verif Require Import ModelBase ModelTree ModelBlock SpecTree SpecBlock
  ProofTree ProofTreeWF ProofTreeHist ProofTreeGeo ProofTreeLook ProofBlock PropTree.
Import ListNotations.
Local Close Scope Q_scope.
Local Close Scope R_scope.
Local Open Scope nat_scope.

(** the matrix entry (r, c) lies in the block B, which spans
    [row_start, row_end) x [col_start, col_end); k degrees of freedom per element *)
Definition in_block (t : tree) (k r c : nat) (B : btree) : Prop :=
  exists rs re cs ce, start_index t k (b_c1 B) = Some rs /\ end_index t k (b_c1 B) = Some re /\
    start_index t k (b_c2 B) = Some cs /\ end_index t k (b_c2 B) = Some ce /\
    rs <= r < re /\ cs <= c < ce.

Lemma block_tree_ok : forall t l near mincl, WF t l -> 0 < t_patches t -> 
  exists bt, block_tree t near mincl = Some bt /\ forall B, In B (leaves bt) -> leaf_ok t near mincl B.
Proof.
  intros t l near mincl W HP.
  destruct (append_ok t l W HP near mincl (t_maxlevel t + 2) [] [] (t_elements t) (t_elements t)) as [bt [E H]];
    auto; try (left; reflexivity); try congruence; try (simpl; lia).
  exists bt. split; [exact E|]. intros B HB. apply H. assumption.
Qed.

Lemma in_block_under : forall t l k r c B e f, WF t l -> 0 < t_patches t -> 0 < k -> cl t (b_c1 B) -> cl t (b_c2 B) ->
  nth_error l (r / k) = Some e -> nth_error l (c / k) = Some f ->
  (in_block t k r c B <-> under (b_c1 B) e /\ under (b_c2 B) f).
Proof.
  intros t l k r c B e f W HP Hk H1 H2 He Hf.
  rewrite (range_under t l W HP k _ r e Hk H1 He), (range_under t l W HP k _ c f Hk H2 Hf). unfold in_block. split.
  - intros [rs [re [cs [ce H]]]]. split; [exists rs, re|exists cs, ce]; tauto.
  - intros [[rs [re H]] [cs [ce H']]]. exists rs, re, cs, ce. tauto.
Qed.

(** every entry of the matrix belongs to exactly one leaf block *)
Theorem C26_leaves_partition : forall t near mincl, reachable t -> graded t mincl ->
  exists bt, block_tree t near mincl = Some bt /\
    forall k r c, 0 < k -> r < k * t_elements t -> c < k * t_elements t ->
      exactly_one (in_block t k r c) (leaves bt).
Proof.
  intros t near mincl R G. destruct (reachable_wf t R) as [[l W] HP].
  destruct (block_tree_ok t l near mincl W HP) as [bt [E H]]. exists bt. split; [assumption|].
  intros k r c Hk Hr Hc. apply one_exactly. rewrite <- (wf_count t l W) in Hr, Hc.
  assert (Hr' : r / k < length l) by (apply Nat.div_lt_upper_bound; lia).
  assert (Hc' : c / k < length l) by (apply Nat.div_lt_upper_bound; lia).
  destruct (nth_error l (r / k)) as [e|] eqn:Ee; [|apply nth_error_None in Ee; lia].
  destruct (nth_error l (c / k)) as [f|] eqn:Ef; [|apply nth_error_None in Ef; lia].
  destruct (append_one t l W HP near mincl G (t_maxlevel t + 2) [] [] (t_elements t) (t_elements t) bt e f) as [O _];
    auto; try (left; reflexivity).
  - apply (wf_leaf t l W). eapply nth_error_In; eauto.
  - apply (wf_leaf t l W). eapply nth_error_In; eauto.
  - destruct O as [l1 [B [l2 [El [[U1 U2] Hn]]]]].
    { split; [exists e|exists f]; rewrite app_nil_r; reflexivity. }
    assert (K : forall B', In B' (leaves bt) -> (in_block t k r c B' <-> under (b_c1 B') e /\ under (b_c2 B') f)).
    { intros B' HB. destruct (H B' HB) as [L1 [L2 _]]. eapply in_block_under; eauto. }
    exists l1, B, l2. split; [assumption|]. split; [apply K; [rewrite El; apply in_or_app; simpl; auto|auto]|].
    intros y Hy. rewrite K; [apply Hn; assumption|]. rewrite El, in_app_iff. apply in_app_or in Hy. simpl. tauto.
Qed.

(** for uniformly refined meshes and a non-negative minimal level the hypothesis holds *)
Theorem C26_uniform_meshes : forall (Pt : Type) (close : Pt -> Pt -> bool) corners M t near mincl,
  corners <> [] -> (forall c, In c corners -> length c = 4) -> init_tree close corners M = Some t -> (0 <= mincl)%Z ->
  exists bt, block_tree t near mincl = Some bt /\
    forall k r c, 0 < k -> r < k * (length corners * 4 ^ M) -> c < k * (length corners * 4 ^ M) ->
      exactly_one (in_block t k r c) (leaves bt).
Proof.
  intros Pt close corners M t near mincl Hc H4 E H0.
  destruct (init_tree_ok close corners M H4) as [t' [l [E' [W [P [A ML]]]]]]. assert (t' = t) by congruence. subst t'.
  destruct (C26_leaves_partition t near mincl) as [bt [Eb H]].
  - exists Pt, close, corners, M, [], t. split; [assumption|]. split; [assumption|]. split; [assumption|]. split; [exact I|reflexivity].
  - intros a n En Er. rewrite ML, (nk_level _ _ (wf_node t l W a n En)).
    rewrite (A a); [|exists n; auto]. lia.
  - exists bt. split; [assumption|]. intros k r c Hk Hr Hcc.
    destruct (uniform_list t l M W A) as [HL _]. rewrite P in HL.
    apply H; auto; rewrite <- (wf_count t l W), HL; assumption.
Qed.

(** the condition cannot be dropped: where it fails, diagonal entries of the matrix belong to no block *)
Theorem C26_ungraded_diagonal_lost : forall t near mincl bt a n, reachable t ->
  (forall c, near c c = true) -> block_tree t near mincl = Some bt ->
  t_store t a = Some n -> n_ref n = false -> (mincl < Z.of_nat (t_maxlevel t) - Z.of_nat (n_level n))%Z ->
  exists r, r < t_elements t /\ forall B, In B (leaves bt) -> ~ in_block t 1 r r B.
Proof.
  intros t near mincl bt a n R Hn Eb En Er Hlev. destruct (reachable_wf t R) as [[l W] HP].
  assert (Ia : In a l) by (apply (wf_leaf t l W); exists n; auto).
  apply In_nth_error in Ia. destruct Ia as [r Hr]. exists r.
  assert (r < length l) by (apply nth_error_Some; congruence). split; [rewrite <- (wf_count t l W); assumption|].
  destruct (block_tree_ok t l near mincl W HP) as [bt' [E H']]. assert (bt' = bt) by congruence. subst bt'.
  intros B HB I. destruct (H' B HB) as [L1 [L2 [Len [Cc [Nr _]]]]].
  apply (in_block_under t l 1 r r B a a W HP) in I; auto; try (rewrite Nat.div_1_r; assumption).
  destruct I as [[x Ex] [y Ey]].
  assert (Ec : b_c1 B = b_c2 B).
  { rewrite Ex in Ey. apply app_inj_len in Ey; [tauto|assumption]. }
  unfold compare_cluster in Cc. rewrite <- Ec, Hn in Cc. destruct (Z.leb_spec (Z.of_nat (t_maxlevel t) - level_of t (b_c1 B)) mincl) as [K|K]; [|congruence].
  rewrite (level_len t l W) in K by assumption. rewrite (nk_level _ _ (wf_node t l W a n En)) in Hlev. unfold pos_level in Hlev.
  assert (La : length a = length x + length (b_c1 B)) by (rewrite Ex at 1; apply app_length).
  assert (Ha : a <> []) by (eapply wf_nonroot; [exact W|congruence]). destruct a; [congruence|]. simpl length in *. lia.
Qed.

(** rows() and cols() of a leaf are the lengths of its index ranges *)
Theorem C26_block_dimensions : forall t near mincl bt B k, reachable t -> block_tree t near mincl = Some bt ->
  In B (leaves bt) ->
  exists rs cs, start_index t k (b_c1 B) = Some rs /\ end_index t k (b_c1 B) = Some (rs + k * b_rows B) /\
    start_index t k (b_c2 B) = Some cs /\ end_index t k (b_c2 B) = Some (cs + k * b_cols B) /\
    rs + k * b_rows B <= k * t_elements t /\ cs + k * b_cols B <= k * t_elements t /\ 0 < b_rows B /\ 0 < b_cols B.
Proof.
  intros t near mincl bt B k R E HB. destruct (reachable_wf t R) as [[l W] HP].
  destruct (block_tree_ok t l near mincl W HP) as [bt' [E' H']]. assert (bt' = bt) by congruence. subst bt'.
  destruct (H' B HB) as [L1 [L2 [Len [Cc [Nr [R1 [R2 [R3 R4]]]]]]]].
  assert (G : forall a sz, cl t a -> (a = [] -> sz = t_elements t) -> (a <> [] -> exists m, cluster_elements t a = Some m /\ sz = length m) ->
     exists rs, start_index t k a = Some rs /\ end_index t k a = Some (rs + k * sz) /\ rs + k * sz <= k * t_elements t /\ 0 < sz).
  { intros a sz Ha S1 S2. destruct (cl_range t l W HP k a Ha) as [l1 [m [l2 [El [Hm [_ [Es [Ee [C Ro]]]]]]]]].
    assert (Hs : sz = length m).
    { destruct (list_eq_dec Nat.eq_dec a []) as [Ea|Ea].
      - destruct (Ro Ea) as [-> ->]. rewrite (S1 Ea), <- (wf_count t l W), El, app_nil_r. reflexivity.
      - destruct (S2 Ea) as [m' [Em' ->]]. rewrite (C Ea) in Em'. congruence. }
    exists (k * length l1). rewrite Hs, <- Nat.mul_add_distr_l. split; [assumption|]. split; [assumption|].
    rewrite <- (wf_count t l W), El, !app_length. split; [apply Nat.mul_le_mono_l; lia|]. destruct m; [congruence|simpl; lia]. }
  destruct (G _ _ L1 R1 R3) as [rs [A1 [A2 [A3 A4]]]]. destruct (G _ _ L2 R2 R4) as [cs [B1 [B2 [B3 B4]]]].
  exists rs, cs. repeat (split; [assumption|]). assumption.
Qed.

(** ** C27: the admissibility condition *)
(** balls given by mid and rad (None: infinite radius, the root); all radii non-negative *)
Definition admissible (m1 m2 : R * R * R) (r1 r2 eta : R) : Prop :=
  (r1 + r2 < dist3 m1 m2 /\ Rmax r1 r2 < eta * (dist3 m1 m2 - r1 - r2))%R.

Lemma near_spec : forall mid rad eta a b,
  (forall c r, rad c = Some r -> (0 <= r)%R) ->
  (near_of mid rad eta a b = false <->
    exists r1 r2, rad a = Some r1 /\ rad b = Some r2 /\ admissible (mid a) (mid b) r1 r2 eta).
Proof.
  intros mid rad eta a b Hr. unfold near_of, admissible.
  assert (N : norm3 (mid a) (mid b) = dist3 (mid a) (mid b)).
  { unfold norm3, dist3. destruct (mid a) as [[x y] z], (mid b) as [[x' y'] z']. reflexivity. }
  destruct (rad a) as [r1|] eqn:E1; [|split; [discriminate|intros [? [? [? _]]]; discriminate]].
  destruct (rad b) as [r2|] eqn:E2; [|split; [discriminate|intros [? [? [_ [? _]]]]; discriminate]].
  pose proof (Hr a r1 E1). pose proof (Hr b r2 E2). rewrite N. set (D := dist3 (mid a) (mid b)).
  assert (Mx : (if Rlt_dec r2 r1 then r1 else r2) = Rmax r1 r2).
  { destruct (Rlt_dec r2 r1); [rewrite Rmax_left; lra|rewrite Rmax_right; lra]. }
  rewrite Mx. destruct (Rlt_dec 0 (D - r1 - r2)) as [Hd|Hd].
  - destruct (Rle_dec (eta * (D - r1 - r2)) (Rmax r1 r2)) as [H1|H1]; split; try discriminate.
    + intros [x [y [Ex [Ey [K1 K2]]]]]. injection Ex as <-. injection Ey as <-. lra.
    + intros _. exists r1, r2. split; [reflexivity|]. split; [reflexivity|]. split; lra.
    + reflexivity.
  - destruct (Rle_dec (eta * 0) (Rmax r1 r2)) as [H1|H1]; split; try discriminate.
    + intros [x [y [Ex [Ey [K1 K2]]]]]. injection Ex as <-. injection Ey as <-. lra.
    + intros _. exfalso. apply H1. rewrite Rmult_0_r. pose proof (Rmax_l r1 r2). lra.
    + reflexivity.
Qed.

(** C26 applies to the condition of the code: every cluster is near itself *)
Theorem C26_cluster_near_itself : forall mid rad eta a, (forall c r, rad c = Some r -> (0 <= r)%R) ->
  near_of mid rad eta a a = true.
Proof.
  intros mid rad eta a Hr. destruct (near_of mid rad eta a a) eqn:E; [reflexivity|].
  apply near_spec in E; [|assumption]. destruct E as [r1 [r2 [E1 [E2 [K _]]]]].
  pose proof (Hr a r1 E1). pose proof (Hr a r2 E2). unfold dist3 in K. rewrite !Rminus_diag_eq in K by reflexivity.
  unfold Rsqr in K. rewrite Rmult_0_l, !Rplus_0_l, sqrt_0 in K. lra.
Qed.

Theorem C27_leaf_classification : forall t mid rad eta mincl bt B, reachable t ->
  (forall c r, rad c = Some r -> (0 <= r)%R) ->
  block_tree t (near_of mid rad eta) mincl = Some bt -> In B (leaves bt) ->
  (b_cc B = LowRank /\ exists r1 r2, rad (b_c1 B) = Some r1 /\ rad (b_c2 B) = Some r2 /\
       admissible (mid (b_c1 B)) (mid (b_c2 B)) r1 r2 eta)
  \/
  (b_cc B = Dense /\ (Z.of_nat (t_maxlevel t) - level_of t (b_c1 B) <= mincl)%Z /\
     level_of t (b_c1 B) = level_of t (b_c2 B) /\
     ~ exists r1 r2, rad (b_c1 B) = Some r1 /\ rad (b_c2 B) = Some r2 /\
         admissible (mid (b_c1 B)) (mid (b_c2 B)) r1 r2 eta).
Proof.
  intros t mid rad eta mincl bt B R Hr E HB. destruct (reachable_wf t R) as [[l W] HP].
  destruct (block_tree_ok t l (near_of mid rad eta) mincl W HP) as [bt' [E' H']]. assert (bt' = bt) by congruence. subst bt'.
  destruct (H' B HB) as [L1 [L2 [Len [Cc [Nr _]]]]]. pose proof (near_spec mid rad eta (b_c1 B) (b_c2 B) Hr) as N.
  rewrite Cc in *. unfold compare_cluster in *. destruct (near_of mid rad eta (b_c1 B) (b_c2 B)) eqn:En.
  - right. destruct (Z.leb_spec (Z.of_nat (t_maxlevel t) - level_of t (b_c1 B)) mincl) as [K|K]; [|congruence].
    split; [reflexivity|]. split; [assumption|]. split.
    + rewrite !(level_len t l W) by assumption. rewrite Len. reflexivity.
    + intros H. apply N in H. discriminate.
  - left. split; [reflexivity|]. apply N. reflexivity.
Qed.

(** dense blocks below the root have at most 4^min_cluster_level rows and columns of elements *)
Theorem C27_dense_blocks_small : forall t near mincl bt B, reachable t -> (0 <= mincl)%Z ->
  block_tree t near mincl = Some bt -> In B (leaves bt) -> b_cc B = Dense -> b_c1 B <> [] ->
  b_rows B <= 4 ^ Z.to_nat mincl /\ b_cols B <= 4 ^ Z.to_nat mincl.
Proof.
  intros t near mincl bt B R H0 E HB D Ne. destruct (reachable_wf t R) as [[l W] HP].
  destruct (block_tree_ok t l near mincl W HP) as [bt' [E' H']]. assert (bt' = bt) by congruence. subst bt'.
  destruct (H' B HB) as [L1 [L2 [Len [Cc [Nr [R1 [R2 [R3 R4]]]]]]]].
  rewrite D in Cc. unfold compare_cluster in Cc. destruct (near (b_c1 B) (b_c2 B)); [|discriminate].
  destruct (Z.leb_spec (Z.of_nat (t_maxlevel t) - level_of t (b_c1 B)) mincl) as [K|K]; [|discriminate].
  rewrite (level_len t l W) in K by assumption.
  assert (Ne2 : b_c2 B <> []) by (intros Z; rewrite Z in Len; destruct (b_c1 B); [congruence|discriminate]).
  destruct (R3 Ne) as [m1 [M1 ->]]. destruct (R4 Ne2) as [m2 [M2 ->]].
  destruct L1 as [L1|L1]; [congruence|]. destruct L2 as [L2|L2]; [congruence|].
  pose proof (cluster_size t l _ _ W HP L1 M1) as S1. pose proof (cluster_size t l _ _ W HP L2 M2) as S2.
  assert (length (b_c1 B) <> 0) by (destruct (b_c1 B); [congruence|discriminate]).
  unfold pos_level in *. rewrite <- Len in S2.
  assert (4 ^ (t_maxlevel t - (length (b_c1 B) - 1)) <= 4 ^ Z.to_nat mincl) by (apply Nat.pow_le_mono_r; lia). lia.
Qed.

(** ** concrete cases *)
(** three patches in a row, level 2: near iff the patches touch or are equal *)
Definition strip_near (a b : addr) : bool :=
  match a, b with
  | [], _ => true
  | _, [] => true
  | _, _ => (pos_patch a <=? S (pos_patch b)) && (pos_patch b <=? S (pos_patch a))
  end.
Example strip_blocks : option_map (fun bt => map (fun B => (b_cc B, b_rows B, b_cols B)) (leaves bt))
    (t <- init_tree Nat.eqb strip 1 ;; block_tree t strip_near 1)
  = Some [(Dense, 4, 4); (Dense, 4, 4); (LowRank, 4, 4); (Dense, 4, 4); (Dense, 4, 4); (Dense, 4, 4);
          (LowRank, 4, 4); (Dense, 4, 4); (Dense, 4, 4)].
Proof. vm_compute. reflexivity. Qed.
(** the locally refined tree of PropTree with the default parameters loses entries *)
Example hist_blocks : exists t bt, (t0 <- init_tree Nat.eqb strip 1 ;; run t0 hist) = Some t /\
  block_tree t (fun _ _ => true) 1 = Some bt /\ t_elements t = 39 /\
  fold_right (fun B s => b_rows B * b_cols B + s) 0 (leaves bt) = 1024 /\ 39 * 39 = 1521.
Proof. eexists _, _. split; [vm_compute; reflexivity|]. split; [vm_compute; reflexivity|]. repeat split; vm_compute; reflexivity. Qed.
Example admissible_example : admissible (0, 0, 0)%R (10, 0, 0)%R 1%R 2%R 1.6%R.
Proof.
  unfold admissible, dist3. simpl. replace (Rsqr (0 - 10) + Rsqr (0 - 0) + Rsqr (0 - 0))%R with (Rsqr 10) by (unfold Rsqr; ring).
  rewrite sqrt_Rsqr by lra. rewrite Rmax_right by lra. lra.
Qed.

(* BEGIN ASSUMPTIONS *)
Print Assumptions C26_leaves_partition.
Print Assumptions C26_uniform_meshes.
Print Assumptions C26_ungraded_diagonal_lost.
Print Assumptions C26_block_dimensions.
Print Assumptions C26_cluster_near_itself.
Print Assumptions C27_leaf_classification.
Print Assumptions C27_dense_blocks_small.
