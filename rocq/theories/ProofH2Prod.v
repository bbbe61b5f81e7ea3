From Coq Require Import List Arith Bool Lia ZArith Reals Lra Permutation QArith.
From Verif Require Import ModelBase ModelBernstein RSum ModelTree ModelBlock ModelPar ModelH2 SpecTree SpecBlock SpecH2
  ProofTree ProofTreeWF ProofTreeHist ProofTreeGeo ProofTreeLook ProofBlock ProofPar ProofH2.
Import ListNotations.
Local Close Scope Q_scope.
Local Open Scope nat_scope.

(** ** index ranges in uniformly refined trees *)
Lemma nth_map_idlev : forall m i, i < length m -> nth i (map fst (map idlev m)) 0 = pos_id (nth i m []).
Proof.
  intros m i Hi. rewrite map_map. rewrite (nth_indep _ 0 (fst (idlev []))) by (rewrite map_length; lia).
  rewrite (map_nth (fun x => fst (idlev x))). reflexivity.
Qed.
Lemma uniform_range : forall t l M k a, WF t l -> 0 < t_patches t -> all_level t M -> t_maxlevel t = M -> t_store t a <> None ->
  start_index t k a = Some (pos_id a * (k * 4 ^ (M - pos_level a))) /\
  end_index t k a = Some ((pos_id a + 1) * (k * 4 ^ (M - pos_level a))) /\
  (pos_id a + 1) * (k * 4 ^ (M - pos_level a)) <= k * (t_patches t * 4 ^ M).
Proof.
  intros t l M k a W HP A ML Ha.
  destruct (cl_range t l W HP k a (or_intror Ha)) as [l1 [m [l2 [E [Hm [_ [S [U [C _]]]]]]]]].
  destruct (cluster_split t l a W Ha HP) as [l1' [m' [l2' [E' [C' [_ [H' Ct]]]]]]].
  assert (Hne : a <> []) by (eapply wf_nonroot; eauto).
  rewrite (C Hne) in C'. injection C' as <-. rewrite ML in Ct.
  destruct (uniform_list t l M W A) as [HL HN].
  assert (Hlv : forall x, In x (map idlev m) -> snd x = M).
  { intros x Hx. apply in_map_iff in Hx. destruct Hx as [b [<- Hb]]. apply H' in Hb. apply A. tauto. }
  destruct (contiguous_uniform M (map idlev m) _ _ Hlv Ct) as [K1 K2].
  rewrite map_length in K1, K2. assert (Lm : 0 < length m) by (destruct m; [congruence|simpl; lia]).
  specialize (K2 0 Lm). rewrite nth_map_idlev in K2 by assumption.
  assert (Ll : length l = length l1 + length m + length l2) by (rewrite E, !app_length; lia).
  destruct (HN (length l1)) as [I0 _]; [lia|].
  assert (X : nth (length l1) l [] = nth 0 m []).
  { rewrite E, app_nth2, Nat.sub_diag, app_nth1 by lia. reflexivity. }
  rewrite X, K2 in I0. rewrite S, U. unfold lo, hi in *.
  set (z := 4 ^ (M - pos_level a)) in *. rewrite <- HL.
  split; [f_equal; nia|]. split; [f_equal; nia|]. nia.
Qed.
Lemma root_range : forall t l M k, WF t l -> 0 < t_patches t -> all_level t M ->
  start_index t k [] = Some 0 /\ end_index t k [] = Some (k * (t_patches t * 4 ^ M)).
Proof.
  intros t l M k W HP A. destruct (cl_range t l W HP k [] (or_introl eq_refl)) as [l1 [m [l2 [E [Hm [_ [S [U [_ R]]]]]]]]].
  destruct (R eq_refl) as [-> ->]. rewrite S, U. destruct (uniform_list t l M W A) as [HL _].
  rewrite app_nil_r in E. simpl in E. rewrite <- E, HL. simpl length. split; f_equal; lia.
Qed.

(** ** leaves below the first level were reached by refinement *)
Lemma append_level : forall f t l near mincl a b rows cols bt B, WF t l -> 0 < t_patches t -> cl t a -> cl t b ->
  append_subtree f t near mincl a b rows cols = Some bt -> In B (leaves bt) ->
  (b_c1 B = a /\ b_c2 B = b) \/ (mincl < Z.of_nat (t_maxlevel t) - (Z.of_nat (length (b_c1 B)) - 2))%Z.
Proof.
  induction f as [|f IH]; intros t l near mincl a b rows cols bt B W HP Ca Cb E HB; cbn [append_subtree] in E.
  - destruct (compare_cluster t near mincl a b); try discriminate; injection E as <-; simpl in HB; destruct HB as [<-|[]]; left; auto.
  - destruct (compare_cluster t near mincl a b) eqn:Ec; try (injection E as <-; simpl in HB; destruct HB as [<-|[]]; left; auto; fail).
    apply bind_some in E. destruct E as [sons [Es E]]. injection E as <-. cbn [leaves] in HB.
    right. apply in_flat_map in HB. destruct HB as [bt' [Hb' HB]].
    assert (X : exists ij, In ij (flat_map (fun j => map (fun i => (i, j)) (sons_of t a)) (sons_of t b)) /\
      (r <- cluster_elements t (fst ij);; c <- cluster_elements t (snd ij);;
       append_subtree f t near mincl (fst ij) (snd ij) (length r) (length c)) = Some bt').
    { clear - Es Hb'. revert sons Es Hb'. generalize (flat_map (fun j => map (fun i => (i, j)) (sons_of t a)) (sons_of t b)).
      induction l as [|x l IHl]; intros sons Es Hb'; cbn [map_opt] in Es.
      - injection Es as <-. destruct Hb'.
      - apply bind_some in Es. destruct Es as [y [Ey Es]]. apply bind_some in Es. destruct Es as [r [Er Es]]. injection Es as <-.
        destruct Hb' as [<-|Hb']; [exists x; split; [left; reflexivity|exact Ey]|].
        destruct (IHl r Er Hb') as [ij [Hi Hj]]. exists ij. split; [right; assumption|assumption]. }
    destruct X as [[i j] [Hij E']]. cbn [fst snd] in E'.
    apply in_flat_map in Hij. destruct Hij as [j' [Hj' Hij]]. apply in_map_iff in Hij. destruct Hij as [i' [Ei Hi']]. injection Ei as -> ->.
    apply bind_some in E'. destruct E' as [r [Er E']]. apply bind_some in E'. destruct E' as [c [Er' E']].
    destruct (sons_cl t l W HP a i Ca Hi') as [Si Li]. destruct (sons_cl t l W HP b j Cb Hj') as [Sj Lj].
    destruct (IH t l near mincl i j _ _ bt' B W HP (or_intror Si) (or_intror Sj) E' HB) as [[E1 _]|G]; [|exact G].
    rewrite E1, Li. unfold compare_cluster in Ec. destruct (near a b); [|discriminate].
    destruct (Z.leb_spec (Z.of_nat (t_maxlevel t) - level_of t a) mincl) as [K|K]; [discriminate|].
    rewrite (level_len t l W) in K by assumption. lia.
Qed.

(** ** sums over a subrange *)
Lemma rsum_range : forall (g : nat -> R) cs ce n, cs <= ce -> ce <= n ->
  rsum (fun j => if ((cs <=? j) && (j <? ce))%bool then g j else 0%R) n = rsum (fun j => g (cs + j)) (ce - cs).
Proof.
  intros g cs ce n H1 H2. replace n with (cs + ((ce - cs) + (n - ce))) by lia. rewrite !rsum_split.
  rewrite (rsum_zero _ cs), (rsum_zero _ (n - ce)).
  - rewrite Rplus_0_l, Rplus_0_r. apply rsum_ext. intros j Hj.
    destruct (Nat.leb_spec cs (cs + j)); [|lia]. destruct (Nat.ltb_spec (cs + j) ce); [|lia]. reflexivity.
  - intros i Hi. destruct (Nat.ltb_spec (cs + (ce - cs + i)) ce); [lia|]. rewrite andb_false_r. reflexivity.
  - intros i Hi. destruct (Nat.leb_spec cs i); [lia|]. reflexivity.
Qed.

Lemma one_lsum : forall {A} (Q : A -> Prop) (f : A -> R) l c, one Q l ->
  (forall x, In x l -> Q x -> f x = c) -> (forall x, In x l -> ~ Q x -> f x = 0%R) -> lsum f l = c.
Proof.
  intros A Q f l c [l1 [x [l2 [-> [Hx Hn]]]]] H1 H2. rewrite lsum_app. simpl.
  assert (K : forall y, In y (l1 ++ l2) -> In y (l1 ++ x :: l2)) by (intros y; rewrite !in_app_iff; simpl; tauto).
  assert (Kx : In x (l1 ++ x :: l2)) by (rewrite in_app_iff; simpl; tauto).
  rewrite (lsum_zero f l1), (lsum_zero f l2), (H1 x Kx Hx); [lra| |];
    intros y Hy; (apply H2; [apply K; rewrite in_app_iff; tauto|apply Hn; rewrite in_app_iff; tauto]).
Qed.

Lemma rsum_get : forall {A} (l : list A) (f : A -> R), rsum (fun i => match get l i with Some x => f x | None => 0%R end) (length l) = lsum f l.
Proof.
  intros A l f. induction l as [|a l IH]; [reflexivity|]. cbn [length]. rewrite rsum_shift. cbn [lsum]. f_equal.
  rewrite <- IH. apply rsum_ext. reflexivity.
Qed.

(** ** the product *)
Section Product.
Variables (H : h2) (l : list addr) (M : nat) (near : addr -> addr -> bool).
Let t := h_tree H. Let k := h_k H. Let rows := h_nF H * h_np H.
Hypothesis W : WF t l. Hypothesis HP : 0 < t_patches t. Hypothesis A : all_level t M. Hypothesis ML : t_maxlevel t = M.
Hypothesis Hroot : near [] [] = true. Hypothesis Hm0 : (0 <= h_mincl H)%Z.
Hypothesis HB : block_tree t near (h_mincl H) = Some (h_blocks H).
Hypothesis Hk : 0 < k. Hypothesis Hnp : 0 < h_np H. Hypothesis HnF : 0 < h_nF H.
Hypothesis Hmc : h_mc H = k * 4 ^ (Nat.min (Z.to_nat (h_mincl H)) M).
Definition vsize : nat := k * (t_patches t * 4 ^ M).

Lemma mc_pos : 0 < h_mc H.
Proof. rewrite Hmc. pose proof (Nat.pow_nonzero 4 (Nat.min (Z.to_nat (h_mincl H)) M)). nia. Qed.

(** what is known about a leaf *)
Lemma leaf_facts : forall B, In B (leaves (h_blocks H)) ->
  exists rs re cs ce, start_index t k (b_c1 B) = Some rs /\ end_index t k (b_c1 B) = Some re /\
    start_index t k (b_c2 B) = Some cs /\ end_index t k (b_c2 B) = Some ce /\
    rs <= re /\ cs <= ce /\ re <= vsize /\ ce <= vsize /\
    (b_cc B = Dense \/
     b_cc B = LowRank /\ exists f, fmm_level H (b_c1 B) = Z.of_nat f /\ f <= h_steps H /\
       t_store t (b_c1 B) <> None /\ t_store t (b_c2 B) <> None /\ 
       id_of t (b_c1 B) < t_patches t * 4 ^ (h_steps H - f) /\ id_of t (b_c2 B) < t_patches t * 4 ^ (h_steps H - f) /\
       rs = id_of t (b_c1 B) * (h_mc H * 4 ^ f) /\ re = (id_of t (b_c1 B) + 1) * (h_mc H * 4 ^ f) /\
       cs = id_of t (b_c2 B) * (h_mc H * 4 ^ f) /\ ce = (id_of t (b_c2 B) + 1) * (h_mc H * 4 ^ f)).
Proof.
  intros B Hin. unfold block_tree in HB.
  assert (Lok : leaf_ok t near (h_mincl H) B).
  { destruct (append_ok t l W HP near (h_mincl H) (t_maxlevel t + 2) [] [] (t_elements t) (t_elements t)) as [bt [E G]];
      auto; try (left; reflexivity); try congruence; try (simpl; lia).
    rewrite HB in E. injection E as <-. apply G. assumption. }
  destruct Lok as [L1 [L2 [Len [Cc [Nr _]]]]].
  pose proof (append_level _ t l near _ [] [] _ _ _ B W HP (or_introl eq_refl) (or_introl eq_refl) HB Hin) as Lv.
  assert (Root : forall a, cl t a -> a = [] \/ t_store t a <> None) by (intros a [->|Ha]; auto).
  destruct (list_eq_dec Nat.eq_dec (b_c1 B) []) as [E1|N1].
  - assert (E2 : b_c2 B = []) by (rewrite E1 in Len; destruct (b_c2 B); [reflexivity|discriminate]).
    destruct (root_range t l M k W HP A) as [S U]. rewrite E1, E2.
    exists 0, vsize, 0, vsize. unfold vsize. repeat (split; [assumption || lia|]). left.
    rewrite E1, E2 in Cc. unfold compare_cluster in Cc. rewrite Hroot in Cc.
    destruct (Z.of_nat (t_maxlevel t) - level_of t [] <=? h_mincl H)%Z; [assumption|congruence].
  - assert (N2 : b_c2 B <> []) by (intros Z; rewrite Z in Len; destruct (b_c1 B); [congruence|discriminate]).
    destruct (Root _ L1) as [?|S1]; [congruence|]. destruct (Root _ L2) as [?|S2]; [congruence|].
    destruct (uniform_range t l M k _ W HP A ML S1) as [A1 [A2 A3]].
    destruct (uniform_range t l M k _ W HP A ML S2) as [B1 [B2 B3]].
    do 4 eexists. split; [exact A1|]. split; [exact A2|]. split; [exact B1|]. split; [exact B2|].
    split; [nia|]. split; [nia|]. split; [exact A3|]. split; [exact B3|].
    destruct (b_cc B) eqn:Ecc; [congruence| |left; reflexivity]. right. split; [reflexivity|].
    destruct Lv as [[E _]|Lv]; [congruence|]. rewrite ML in Lv.
    assert (Len1 : 0 < length (b_c1 B)) by (destruct (b_c1 B); [congruence|simpl; lia]).
    assert (Ids : forall a, t_store t a <> None -> id_of t a = pos_id a /\ pos_id a < t_patches t * 4 ^ pos_level a).
    { intros a Ha. unfold id_of. destruct (t_store t a) as [n|] eqn:En; [|congruence].
      rewrite (nk_id _ _ (wf_node t l W a n En)). split; [reflexivity|].
      assert (Ha' : t_store t a <> None) by congruence.
      destruct (uniform_range t l M 1 a W HP A ML Ha') as [_ [_ R]].
      pose proof (wf_ml t l W a Ha') as Hl. rewrite ML in Hl.
      replace M with (pos_level a + (M - pos_level a)) in R at 2 by lia. rewrite Nat.pow_add_r in R.
      pose proof (Nat.pow_nonzero 4 (M - pos_level a) ltac:(lia)). nia. }
    destruct (Ids _ S1) as [I1 J1]. destruct (Ids _ S2) as [I2 J2].
    pose proof (wf_ml t l W _ S1) as Hl1. rewrite ML in Hl1.
    assert (Pl : pos_level (b_c2 B) = pos_level (b_c1 B)) by (unfold pos_level; rewrite Len; reflexivity).
    exists (M - Z.to_nat (h_mincl H) - pos_level (b_c1 B)).
    assert (Hlev : level_of t (b_c1 B) = Z.of_nat (pos_level (b_c1 B))).
    { rewrite (level_len t l W) by (first [assumption | right; assumption]). unfold pos_level. lia. }
    assert (Hst : h_steps H = M - Z.to_nat (h_mincl H)) by (unfold h_steps; fold t; rewrite ML; lia).
    assert (Hpl : pos_level (b_c1 B) + Z.to_nat (h_mincl H) <= M) by (unfold pos_level in *; lia).
    split; [unfold fmm_level; fold t; rewrite ML, Hlev; lia|]. split; [lia|]. split; [assumption|]. split; [assumption|].
    replace (h_steps H - (M - Z.to_nat (h_mincl H) - pos_level (b_c1 B))) with (pos_level (b_c1 B)) by lia.
    rewrite I1, I2. split; [assumption|]. split; [rewrite <- Pl; assumption|].
    assert (Hsz : h_mc H * 4 ^ (M - Z.to_nat (h_mincl H) - pos_level (b_c1 B)) = k * 4 ^ (M - pos_level (b_c1 B))).
    { rewrite Hmc. replace (Nat.min (Z.to_nat (h_mincl H)) M) with (Z.to_nat (h_mincl H)) by lia.
      rewrite <- Nat.mul_assoc, <- Nat.pow_add_r. f_equal. f_equal. lia. }
    rewrite Hsz, Pl. auto.
Qed.

(** position e, j lies in the block *)
Definition inb (B : btree) (e j : nat) : bool :=
  match start_index t k (b_c1 B), end_index t k (b_c1 B), start_index t k (b_c2 B), end_index t k (b_c2 B) with
  | Some rs, Some re, Some cs, Some ce => ((rs <=? e) && (e <? re)) && ((cs <=? j) && (j <? ce))
  | _, _, _, _ => false
  end.
Definition base (a : addr) : nat := match start_index t k a with Some s => s | None => 0 end.
Definition acc_val (rc e : nat) (acc : h2_acc) : R :=
  (fst acc e + backward (h_np H) (h_nF H) (h_mc H) (h_mom H rc) (h_T H) (h_steps H) (snd acc) e)%R.
Lemma range_div : forall e id s, 0 < s -> (e / s =? id) = ((id * s <=? e) && (e <? (id + 1) * s)).
Proof.
  intros e id s Hs. pose proof (Nat.div_mod e s ltac:(lia)) as D. pose proof (Nat.mod_upper_bound e s ltac:(lia)) as U.
  destruct (Nat.eqb_spec (e / s) id), (Nat.leb_spec (id * s) e), (Nat.ltb_spec e ((id + 1) * s)); simpl; try reflexivity; nia.
Qed.
Lemma leaf_contribution : forall rc cc x B acc e, In B (leaves (h_blocks H)) ->
  acc_val rc e (leaf_body H rc cc x (forward (h_np H) (h_nF H) (h_mc H) (h_mom H cc) (h_T H) x) B acc) =
  (acc_val rc e acc + rsum (fun j => if inb B e j then block_entry H rc cc B (e - base (b_c1 B))%nat (j - base (b_c2 B))%nat * x j else 0) vsize)%R.
Proof.
  intros rc cc x B [dst back] e Hin. pose proof mc_pos as Hmcp.
  destruct (leaf_facts B Hin) as [rs [re [cs [ce [E1 [E2 [E3 [E4 [L1 [L2 [L3 [L4 Hcc]]]]]]]]]]]].
  unfold leaf_body, inb, base. fold t k. rewrite E1, E2, E3, E4. unfold acc_val.
  destruct ((rs <=? e) && (e <? re)) eqn:Er.
  2:{ (* outside the rows *)
      simpl andb. rewrite rsum_zero by reflexivity. rewrite Rplus_0_r.
      destruct Hcc as [Hd|[Hl [f [Hf [Hfs [_ [_ [_ [_ [Rs [Re [Cs Ce]]]]]]]]]]]].
      - rewrite Hd. cbn [fst snd]. rewrite Er. reflexivity.
      - rewrite Hl. cbn [fst snd]. rewrite Hf, Nat2Z.id. f_equal. rewrite backward_add by assumption.
        rewrite range_div, <- Rs, <- Re, Er by (pose proof (Nat.pow_nonzero 4 f ltac:(lia)); nia). lra. }
  cbn [andb]. destruct Hcc as [Hd|[Hl [f [Hf [Hfs [_ [_ [_ [_ [Rs [Re [Cs Ce]]]]]]]]]]]].
  - rewrite Hd. cbn [fst snd]. rewrite Er. unfold block_entry. rewrite Hd.
    rewrite (rsum_range (fun j => h_F H rc cc (b_c1 B) (b_c2 B) (e - rs)%nat (j - cs)%nat * x j)%R) by assumption.
    rewrite (rsum_ext (fun j => h_F H rc cc (b_c1 B) (b_c2 B) (e - rs)%nat (cs + j - cs)%nat * x (cs + j)%nat)%R
               (fun j => h_F H rc cc (b_c1 B) (b_c2 B) (e - rs)%nat j * x (cs + j)%nat)%R).
    + lra.
    + intros j _. replace (cs + j - cs) with j by lia. reflexivity.
  - rewrite Hl. cbn [fst snd]. unfold block_entry. rewrite Hl. fold (fmm_level H (b_c1 B)). rewrite Hf, Nat2Z.id.
    rewrite backward_add by assumption. rewrite range_div, <- Rs, <- Re, Er by (pose proof (Nat.pow_nonzero 4 f ltac:(lia)); nia).
    rewrite Rplus_assoc. f_equal. f_equal.
    rewrite (rsum_range (fun j => rsum (fun u => rsum (fun v => basis (h_np H) (h_mc H) (h_mom H rc) (h_T H) f u (e - rs)%nat *
       h_F H rc cc (b_c1 B) (b_c2 B) u v * basis (h_np H) (h_mc H) (h_mom H cc) (h_T H) f v (j - cs)%nat) (h_nF H * h_np H)%nat) (h_nF H * h_np H)%nat * x j)%R) by assumption.
    assert (Esz : ce - cs = h_mc H * 4 ^ f) by nia.
    assert (Em : e mod (h_mc H * 4 ^ f) = e - rs).
    { symmetry. apply andb_prop in Er. destruct Er as [X1 X2]. apply Nat.leb_le in X1. apply Nat.ltb_lt in X2.
      apply (Nat.mod_unique _ _ (id_of t (b_c1 B))); nia. }
    rewrite Em, Esz.
    rewrite (rsum_ext (fun j => (rsum (fun u => rsum _ _) _ * x (cs + j)%nat)%R) (fun j => rsum (fun u => rsum (fun v => basis (h_np H) (h_mc H) (h_mom H rc) (h_T H) f u (e - rs)%nat *
       h_F H rc cc (b_c1 B) (b_c2 B) u v * (basis (h_np H) (h_mc H) (h_mom H cc) (h_T H) f v j * x (cs + j)%nat)) (h_nF H * h_np H)%nat) (h_nF H * h_np H)%nat)%R).
    2:{ intros j _. replace (cs + j - cs) with j by lia. rewrite <- rsum_scal_r. apply rsum_ext. intros u _. rewrite <- rsum_scal_r. apply rsum_ext. intros v _. lra. }
    rewrite rsum_swap. apply rsum_ext. intros u Hu. rewrite rsum_swap, <- rsum_scal. apply rsum_ext. intros v Hv.
    rewrite rsum_scal, Rmult_assoc. f_equal. f_equal. rewrite forward_ok by assumption. rewrite Cs. reflexivity.
Qed.

Lemma region_ok : forall nthr rc cc x v e, 0 < nthr -> h2_region H nthr rc cc x v ->
  v e = lsum (fun B => rsum (fun j => if inb B e j then block_entry H rc cc B (e - base (b_c1 B))%nat (j - base (b_c2 B))%nat * x j else 0)%R vsize) (leaves (h_blocks H)).
Proof.
  intros nthr rc cc x v e Hn R. unfold h2_region in R. 
  eapply (region_value _ _ _ (acc_val rc e) (fun d => d e)) in R; try exact Hn.
  - rewrite R. unfold zero_arr at 1. rewrite Rplus_0_l. rewrite <- rsum_get. reflexivity.
  - intros i acc Hi. cbv beta. destruct (get (leaves (h_blocks H)) i) as [B|] eqn:G.
    + rewrite leaf_contribution; [reflexivity|]. eapply nth_error_In; exact G.
    + apply nth_error_None in G. lia.
  - intros acc d. cbv beta. unfold acc_val. reflexivity.
  - unfold acc_val, zero_arr. cbn [fst snd]. rewrite backward_zero by (assumption || apply mc_pos). lra.
Qed.
End Product.
