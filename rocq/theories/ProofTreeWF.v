(** Well-formedness of the element tree is preserved by refineLeaf. *)
From Coq Require Import List Arith Bool Lia QArith Lqa Permutation.
From Verif Require Import ModelBase ModelTree SpecTree ProofTree.
Import ListNotations.
Local Close Scope Q_scope.
Local Open Scope nat_scope.

Definition llc_ok (a : addr) (n : node) : Prop :=
  (fst (n_llc n) == inject_Z (Z.of_nat (pos_x a)) / pow2Q (pos_level a) /\
   snd (n_llc n) == inject_Z (Z.of_nat (pos_y a)) / pow2Q (pos_level a))%Q.

Record node_ok (a : addr) (n : node) : Prop := {
  nk_id : n_id n = pos_id a;
  nk_level : n_level n = pos_level a;
  nk_patch : n_patch n = pos_patch a;
  nk_llc : llc_ok a n;
  nk_verts : length (n_verts n) = 4;
  nk_adj : length (n_adj n) = 4 }.

Definition idlev (a : addr) : nat * nat := (pos_id a, pos_level a).

Record WF (t : tree) (l : list addr) : Prop := {
  wf_root : t_store t [] = None;
  wf_patch : forall p, t_store t [p] <> None <-> p < t_patches t;
  wf_son : forall i a, a <> [] ->
     (t_store t (i :: a) <> None <-> i < 4 /\ exists n, t_store t a = Some n /\ n_ref n = true);
  wf_node : forall a n, t_store t a = Some n -> node_ok a n;
  wf_ml : forall a, t_store t a <> None -> pos_level a <= t_maxlevel t;
  wf_adj : forall a n b, t_store t a = Some n -> In (Some b) (n_adj n) -> t_store t b <> None;
  wf_seg : seg (t_store t) None l None;
  wf_first : t_first t = hd_or l None;
  wf_last : t_last t = last_or l None;
  wf_leaf : forall a, In a l <-> is_leaf t a;
  wf_nodup : NoDup l;
  wf_order : forall L, (forall a, In a l -> pos_level a <= L) ->
     contiguous L 0 (map idlev l) (t_patches t * 4 ^ L);
  wf_count : length l = t_elements t }.

(** ** the new points *)
Lemma find_back_lt : forall l a js, length l = 4 -> (forall j, In j js -> j < 4) ->
  exists j, find_back l a js = Some j /\ j < 4.
Proof.
  intros l a js L. induction js as [|j js IH]; intros H; simpl.
  - exists 0. split; [reflexivity|lia].
  - rewrite (get_nth l j None) by (rewrite L; apply H; left; reflexivity). simpl.
    destruct (ptr_eqb _ _).
    + exists j. split; [reflexivity|apply H; left; reflexivity].
    + apply IH. intros; apply H; right; assumption.
Qed.

Lemma four_in : forall j, In j [0; 1; 2; 3] -> j < 4.
Proof. simpl. intros j H. repeat destruct H as [<-|H]; lia || tauto. Qed.

Definition rn_of (t : tree) (a : addr) (c : node) (i : nat) : option nat :=
  match nth i (n_adj c) None with
  | Some b => match t_store t b with
              | Some nb => find_back (n_adj nb) a [0; 1; 2; 3]
              | None => None
              end
  | None => None
  end.

Lemma ref_neighbour_ok : forall t l a c i, WF t l -> t_store t a = Some c -> i < 4 ->
  ref_neighbour (t_store t) a c i = Some (rn_of t a c i).
Proof.
  intros t l a c i W Ea Hi. unfold ref_neighbour, rn_of.
  pose proof (nk_adj _ _ (wf_node t l W a c Ea)) as La.
  rewrite (get_nth _ i None) by lia. cbn [bind].
  destruct (nth i (n_adj c) None) as [b|] eqn:Eb; [|reflexivity].
  assert (Hb : t_store t b <> None).
  { apply (wf_adj t l W a c); [assumption|]. rewrite <- Eb. apply nth_In. lia. }
  destruct (t_store t b) as [nb|] eqn:Enb; [|congruence]. cbn [bind].
  destruct (find_back_lt (n_adj nb) a [0;1;2;3]) as [j [Ej _]].
  - apply (nk_adj _ _ (wf_node t l W b nb Enb)).
  - apply four_in.
  - rewrite Ej. reflexivity.
Qed.

Lemma ref_neighbours_ok : forall t l a c, WF t l -> t_store t a = Some c ->
  map_opt (ref_neighbour (t_store t) a c) [0; 1; 2; 3] = Some (map (rn_of t a c) [0; 1; 2; 3]).
Proof.
  intros. apply map_opt_spec. intros i Hi. eapply ref_neighbour_ok; eauto using four_in.
Qed.

(** the shared or new point on edge i *)
Definition shared (t : tree) (a : addr) (c : node) (i : nat) : option (addr * nat) :=
  match nth i (n_adj c) None with
  | Some b => match t_store t b with
              | Some nb => if n_ref nb then
                             match find_back (n_adj nb) a [0; 1; 2; 3] with
                             | Some j => Some (b, j)
                             | None => None
                             end
                           else None
              | None => None
              end
  | None => None
  end.
Definition shared_els (t : tree) (a : addr) (c : node) (i : nat) : list addr :=
  match shared t a c i with Some (b, j) => [j :: b; ((j + 1) mod 4) :: b] | None => [] end.
Definition shared_pt (t : tree) (a : addr) (c : node) (np i : nat) : nat :=
  match shared t a c i with
  | Some (b, j) => match t_store t (j :: b) with
                   | Some sn => nth ((j + 1) mod 4) (n_verts sn) 0
                   | None => 0
                   end
  | None => np
  end.
Definition shared_np (t : tree) (a : addr) (c : node) (np i : nat) : nat :=
  match shared t a c i with Some _ => np | None => S np end.

Lemma shared_ok : forall t l a c i b j, WF t l -> t_store t a = Some c -> i < 4 ->
  shared t a c i = Some (b, j) ->
  j < 4 /\ nth i (n_adj c) None = Some b /\
  exists nb, t_store t b = Some nb /\ n_ref nb = true /\ find_back (n_adj nb) a [0;1;2;3] = Some j.
Proof.
  intros t l a c i b j W Ea Hi H. unfold shared in H.
  destruct (nth i (n_adj c) None) as [b'|] eqn:Eb; [|discriminate].
  destruct (t_store t b') as [nb|] eqn:Enb; [|discriminate].
  destruct (n_ref nb) eqn:Er; [|discriminate].
  destruct (find_back_lt (n_adj nb) a [0;1;2;3]) as [j' [Ej Hj]].
  { apply (nk_adj _ _ (wf_node t l W b' nb Enb)). } { apply four_in. }
  rewrite Ej in H. injection H as <- <-. split; [assumption|]. split; [reflexivity|].
  exists nb. auto.
Qed.

Lemma wf_nonroot : forall t l a, WF t l -> t_store t a <> None -> a <> [].
Proof. intros t l a W H ->. apply H. apply (wf_root t l W). Qed.

Lemma wf_refined_son : forall t l a n i, WF t l -> t_store t a = Some n -> n_ref n = true -> i < 4 ->
  t_store t (i :: a) <> None.
Proof.
  intros t l a n i W Ea Er Hi. apply (wf_son t l W i a).
  - eapply wf_nonroot; [exact W|congruence].
  - eauto.
Qed.

Lemma mod4_lt : forall j, (j + 1) mod 4 < 4.
Proof. intros. apply Nat.mod_upper_bound. lia. Qed.

Lemma new_point_ok : forall t l a c i ids np els, WF t l -> t_store t a = Some c -> i < 4 ->
  new_point (t_store t) c (map (rn_of t a c) [0; 1; 2; 3]) i (ids, np, els) =
  Some (ids ++ [shared_pt t a c np i], shared_np t a c np i, els ++ shared_els t a c i).
Proof.
  intros t l a c i ids np els W Ea Hi. unfold new_point.
  pose proof (nk_adj _ _ (wf_node t l W a c Ea)) as La.
  rewrite (get_nth _ i None) by lia. cbn [bind].
  assert (Er : get (map (rn_of t a c) [0;1;2;3]) i = Some (rn_of t a c i)).
  { destruct i as [|[|[|[|i]]]]; reflexivity || lia. }
  assert (Hnew : shared t a c i = None ->
    Some (ids ++ [np], S np, els) =
    Some (ids ++ [shared_pt t a c np i], shared_np t a c np i, els ++ shared_els t a c i)).
  { intros H. unfold shared_pt, shared_np, shared_els. rewrite H, app_nil_r. reflexivity. }
  destruct (nth i (n_adj c) None) as [b|] eqn:Eb.
  2:{ apply Hnew. unfold shared. rewrite Eb. reflexivity. }
  assert (Hb : t_store t b <> None).
  { apply (wf_adj t l W a c); [assumption|]. rewrite <- Eb. apply nth_In. lia. }
  destruct (t_store t b) as [nb|] eqn:Enb; [|congruence]. cbn [bind].
  destruct (n_ref nb) eqn:Ref.
  2:{ apply Hnew. unfold shared. rewrite Eb, Enb, Ref. reflexivity. }
  rewrite Er. cbn [bind].
  destruct (find_back_lt (n_adj nb) a [0;1;2;3]) as [j [Ej Hj]].
  { apply (nk_adj _ _ (wf_node t l W b nb Enb)). } { apply four_in. }
  assert (Hs : shared t a c i = Some (b, j)).
  { unfold shared. rewrite Eb, Enb, Ref, Ej. reflexivity. }
  assert (Hr : rn_of t a c i = Some j). { unfold rn_of. rewrite Eb, Enb. exact Ej. }
  rewrite Hr.
  pose proof (wf_refined_son t l b nb j W Enb Ref Hj) as Hson.
  unfold shared_pt, shared_np, shared_els. rewrite Hs.
  destruct (t_store t (j :: b)) as [sn|] eqn:Esn; [|congruence]. cbn [bind].
  rewrite (get_nth _ _ 0). 2:{ rewrite (nk_verts _ _ (wf_node t l W _ sn Esn)). apply mod4_lt. }
  reflexivity.
Qed.

Definition np_after (t : tree) (a : addr) (c : node) (k : nat) : nat :=
  fold_left (fun np i => shared_np t a c np i) (seq 0 k) (t_points t).
Definition pts_of (t : tree) (a : addr) (c : node) : list nat :=
  [shared_pt t a c (np_after t a c 0) 0; shared_pt t a c (np_after t a c 1) 1;
   shared_pt t a c (np_after t a c 2) 2; shared_pt t a c (np_after t a c 3) 3; np_after t a c 4].
Definition els_of (t : tree) (a : addr) (c : node) : list addr :=
  shared_els t a c 0 ++ shared_els t a c 1 ++ shared_els t a c 2 ++ shared_els t a c 3.

Lemma new_points_ok : forall t l a c, WF t l -> t_store t a = Some c ->
  for_opt 4 (new_point (t_store t) c (map (rn_of t a c) [0; 1; 2; 3])) ([], t_points t, []) =
  Some (firstn 4 (pts_of t a c), np_after t a c 4, els_of t a c).
Proof.
  intros t l a c W Ea. cbn [for_opt bind].
  rewrite (new_point_ok t l a c 0) by (auto; lia). cbn [bind].
  rewrite (new_point_ok t l a c 1) by (auto; lia). cbn [bind].
  rewrite (new_point_ok t l a c 2) by (auto; lia). cbn [bind].
  rewrite (new_point_ok t l a c 3) by (auto; lia).
  unfold els_of. rewrite <- !app_assoc. reflexivity.
Qed.

(** ** the sons *)
Definition son_node (t : tree) (a : addr) (c : node) (i : nat) : node :=
  mkNode (4 * n_id c + i) (S (n_level c)) (n_patch c) (son_llc c i)
    (let v k := nth k (n_verts c) 0 in let p k := nth k (pts_of t a c) 0 in
     nth i [ [v 0; p 0; p 4; p 3]; [p 0; v 1; p 1; p 4]; [p 4; p 1; v 2; p 2]; [p 3; p 4; p 2; v 3] ] [])
    [None; None; None; None]
    (if i =? 0 then n_prev c else Some ((i - 1) :: a))
    (if i =? 3 then n_next c else Some ((i + 1) :: a))
    false.

Lemma make_son_ok : forall t a c i, length (n_verts c) = 4 -> i < 4 ->
  make_son a c (pts_of t a c) i = Some (son_node t a c i).
Proof.
  intros t a c i L Hi. unfold make_son, son_verts, son_node.
  destruct (n_verts c) as [|v0 [|v1 [|v2 [|v3 [|]]]]]; simpl in L; try lia.
  unfold pts_of. destruct i as [|[|[|[|i]]]]; try lia; reflexivity.
Qed.

Definition store1 (t : tree) (a : addr) (c : node) : store :=
  sset (sset (sset (sset (sset (t_store t) a (with_sons c)) (0 :: a) (son_node t a c 0)) (1 :: a) (son_node t a c 1))
    (2 :: a) (son_node t a c 2)) (3 :: a) (son_node t a c 3).

Lemma store1_son : forall t a c i, i < 4 -> store1 t a c (i :: a) = Some (son_node t a c i).
Proof.
  intros t a c i Hi. unfold store1.
  destruct i as [|[|[|[|i]]]]; try lia;
  repeat first [rewrite sset_same; reflexivity | rewrite sset_other by (intros H; congruence)].
Qed.
Lemma store1_self : forall t a c, store1 t a c a = Some (with_sons c).
Proof.
  intros. unfold store1.
  repeat first [rewrite sset_same; reflexivity | rewrite sset_other by apply cons_neq'].
Qed.
Lemma store1_other : forall t a c b, b <> a -> (forall i, i < 4 -> b <> i :: a) ->
  store1 t a c b = t_store t b.
Proof.
  intros t a c b Hb H. unfold store1.
  rewrite !sset_other; auto; apply H; lia.
Qed.

(** what refineLeaf does to an unrefined node *)
Record refined_store (t : tree) (a : addr) (c : node) (s3 : store) : Prop := {
  rs_self : s3 a = Some (with_sons c);
  rs_son : forall i, i < 4 -> s3 (i :: a) = Some (son_node t a c i);
  rs_other : forall b, b <> a -> (forall i, i < 4 -> b <> i :: a) ->
    match t_store t b, s3 b with
    | Some n, Some n' => exists p q, n' = with_prev (with_next n q) p
    | None, None => True
    | _, _ => False
    end }.

Lemma with_next_id : forall n, with_next n (n_next n) = n.
Proof. destruct n; reflexivity. Qed.

Lemma leaf_sons_none : forall t l a c i, WF t l -> t_store t a = Some c -> n_ref c = false ->
  t_store t (i :: a) = None.
Proof.
  intros t l a c i W Ea Er. destruct (t_store t (i :: a)) eqn:E; [|reflexivity].
  assert (H : t_store t (i :: a) <> None) by congruence.
  apply (wf_son t l W) in H; [|eapply wf_nonroot; [exact W|congruence]].
  destruct H as [_ [n' [En Rn]]]. congruence.
Qed.

Lemma links_ok : forall t l1 a l2 c, WF t (l1 ++ a :: l2) -> t_store t a = Some c ->
  n_prev c = last_or l1 None /\ n_next c = hd_or l2 None.
Proof.
  intros t l1 a l2 c W Ea. pose proof (wf_seg t _ W) as H.
  apply seg_app in H. destruct H as [_ [[n [E [Hp Hn]]] _]]. rewrite E in Ea. injection Ea as ->. auto.
Qed.

Definition sons (a : addr) : list addr := [0 :: a; 1 :: a; 2 :: a; 3 :: a].

Lemma splice_ok : forall t l1 a l2 c, WF t (l1 ++ a :: l2) -> t_store t a = Some c -> n_ref c = false ->
  exists s2 s3, set_next (store1 t a c) (n_prev c) (0 :: a) = Some s2 /\
    set_prev s2 (n_next c) (3 :: a) = Some s3 /\
    refined_store t a c s3 /\ seg s3 None (l1 ++ sons a ++ l2) None.
Proof.
  intros t l1 a l2 c W Ea Er.
  destruct (links_ok t l1 a l2 c W Ea) as [Hp Hn]. rewrite Hp, Hn.
  pose proof (wf_seg t _ W) as Hs. apply seg_app in Hs. destruct Hs as [S1 S2].
  simpl in S1. destruct S2 as [_ S2].
  pose proof (wf_nodup t _ W) as D.
  assert (Da : ~ In a l1 /\ ~ In a l2).
  { apply NoDup_remove_2 in D. split; intros H; apply D; apply in_or_app; auto. }
  assert (D12 : NoDup (l1 ++ l2)) by (eapply NoDup_remove_1; exact D).
  assert (D1 : NoDup l1) by (clear -D12; induction l1; [constructor|]; inversion D12; subst; constructor;
    [intros H; apply H1; apply in_or_app; auto|auto]).
  assert (D2 : NoDup l2) by (clear -D12; induction l1; [assumption|inversion D12; auto]).
  assert (Dd : forall b, In b l1 -> In b l2 -> False).
  { clear -D12. induction l1 as [|x l1 IH]; intros b H1 H2; [destruct H1|].
    inversion D12; subst. destruct H1 as [->|H1]; [apply H3; apply in_or_app; auto|eauto]. }
  assert (Hex : forall b, In b l1 \/ In b l2 -> t_store t b <> None).
  { intros b Hb. destruct (proj1 (wf_leaf t _ W b)) as [n [E _]]; [|congruence].
    apply in_or_app. simpl. tauto. }
  assert (Hson : forall b i, In b l1 \/ In b l2 -> b <> i :: a).
  { intros b i Hb ->. apply (Hex _ Hb). eapply leaf_sons_none; eauto. }
  assert (Hsa : forall b, In b l1 \/ In b l2 -> b <> a) by (intros b [H|H] ->; tauto).
  assert (Hst : forall b, In b l1 \/ In b l2 -> store1 t a c b = t_store t b).
  { intros b Hb. apply store1_other; [apply Hsa; assumption|intros; apply Hson; assumption]. }
  assert (S1' : seg (store1 t a c) None l1 (Some a)).
  { eapply seg_frame; [|exact S1]. intros b n Hb En. exists n. rewrite Hst by auto.
    split; [assumption|split; reflexivity]. }
  destruct (set_next_seg _ l1 (0 :: a) _ S1' D1) as [s2 [E2 [T2 [O2 N2]]]].
  assert (S2' : seg s2 (Some a) l2 None).
  { eapply seg_frame; [|exact S2]. intros b n Hb En. exists n. rewrite O2.
    - rewrite Hst by auto. split; [assumption|split; reflexivity].
    - destruct (last_or_cases l1 None) as [[-> E]|[l' [b' [E' E]]]]; rewrite E; [discriminate|].
      intros H; injection H as ->. apply (Dd b); [rewrite E'; apply in_or_app; simpl; auto|assumption]. }
  destruct (set_prev_seg _ l2 (3 :: a) _ S2' D2) as [s3 [E3 [T3 [O3 N3]]]].
  exists s2, s3. split; [exact E2|]. split; [exact E3|].
  assert (Hlast : forall b, ~ In b l1 -> s2 b = store1 t a c b).
  { intros b Hb. apply O2. intros H. apply Hb.
    destruct (last_or_cases l1 None) as [[E0 E]|[l' [b' [E' E]]]]; rewrite E in H; [discriminate|].
    injection H as ->. rewrite E'. apply in_or_app; simpl; auto. }
  assert (Hhd : forall b, ~ In b l2 -> s3 b = s2 b).
  { intros b Hb. apply O3. intros H. apply Hb. destruct l2; simpl in H; [discriminate|].
    injection H as ->. left; reflexivity. }
  assert (Rs : refined_store t a c s3).
  { split.
    - rewrite Hhd, Hlast by tauto. apply store1_self.
    - intros i Hi. rewrite Hhd, Hlast.
      + apply store1_son; assumption.
      + intros H. apply (Hson (i :: a) i); auto.
      + intros H. apply (Hson (i :: a) i); auto.
    - intros b Hb Hbs. rewrite <- (store1_other t a c b Hb Hbs).
      destruct (store1 t a c b) as [n|] eqn:En.
      + destruct (N2 b n En) as [n2 [En2 [_ W2]]]. destruct (N3 b n2 En2) as [n3 [En3 [_ W3]]].
        rewrite En3. exists (n_prev n3), (n_next n2). rewrite <- W2. exact W3.
      + rewrite Hhd, Hlast. rewrite En; exact I.
        * intros H. apply (Hex b (or_introl H)). rewrite <- (Hst b) by auto. assumption.
        * intros H. apply (Hex b (or_intror H)). rewrite <- (Hst b) by auto. assumption. }
  split; [assumption|].
  apply seg_app. split.
  - simpl. eapply seg_frame; [|exact T2]. intros b n Hb En. exists n. rewrite Hhd.
    + split; [assumption|split; reflexivity].
    + intros H. apply (Dd b); assumption.
  - apply seg_app. split.
    + unfold sons. cbn [seg hd_or].
      repeat split; eexists; (split; [apply (rs_son _ _ _ _ Rs); lia|]); simpl; auto.
    + simpl last_or. exact T3.
Qed.

Lemma els_exist : forall t l a c b, WF t l -> t_store t a = Some c -> In b (els_of t a c) ->
  t_store t b <> None.
Proof.
  intros t l a c b W Ea Hb.
  assert (H : forall i, i < 4 -> In b (shared_els t a c i) -> t_store t b <> None).
  { intros i Hi H. unfold shared_els in H. destruct (shared t a c i) as [[b' j]|] eqn:E; [|destruct H].
    destruct (shared_ok t l a c i b' j W Ea Hi E) as [Hj [_ [nb [Enb [Rnb _]]]]].
    destruct H as [<-|[<-|[]]].
    - eapply wf_refined_son; eauto.
    - eapply wf_refined_son; eauto using mod4_lt. }
  unfold els_of in Hb. rewrite !in_app_iff in Hb.
  destruct Hb as [Hb|[Hb|[Hb|Hb]]]; (eapply H; [|exact Hb]; lia).
Qed.

(** the result of refineLeaf on a leaf *)
Definition refined_tree (t : tree) (a : addr) (c : node) (s4 : store) : tree :=
  mkTree s4
    (if ptr_eqb (Some a) (t_first t) then Some (0 :: a) else t_first t)
    (if ptr_eqb (Some a) (t_last t) then Some (3 :: a) else t_last t)
    (t_patches t)
    (if t_maxlevel t <? n_level c + 1 then n_level c + 1 else t_maxlevel t)
    (S (np_after t a c 4)) (t_elements t + 3).

Lemma refine_leaf_shape : forall t l1 a l2 c, WF t (l1 ++ a :: l2) -> t_store t a = Some c -> n_ref c = false ->
  exists s3 s4, refined_store t a c s3 /\ seg s3 None (l1 ++ sons a ++ l2) None /\
    update_topology s3 (els_of t a c ++ sons a) = Some s4 /\
    adjusted (els_of t a c ++ sons a) s3 s4 /\
    refine_leaf t a = Some (refined_tree t a c s4).
Proof.
  intros t l1 a l2 c W Ea Er.
  destruct (splice_ok t l1 a l2 c W Ea Er) as [s2 [s3 [E2 [E3 [Rs Sg]]]]].
  exists s3.
  destruct (update_topology_ok (els_of t a c ++ sons a) s3) as [s4 [E4 A4]].
  { intros b Hb. apply in_app_or in Hb.
    assert (Hs : forall i, i < 4 -> good_node s3 (i :: a)).
    { intros i Hi. exists (son_node t a c i). split; [apply (rs_son _ _ _ _ Rs); assumption|].
      split; [|reflexivity]. destruct i as [|[|[|[|i]]]]; try lia; reflexivity. }
    destruct Hb as [Hb|Hb].
    - pose proof (els_exist t _ a c b W Ea Hb) as Hex.
      destruct (list_eq_dec Nat.eq_dec b a) as [->|Hba].
      { exists (with_sons c). pose proof (wf_node t _ W a c Ea) as K.
        split; [apply (rs_self _ _ _ _ Rs)|]. split; [apply (nk_verts _ _ K)|apply (nk_adj _ _ K)]. }
      assert (Hbs : forall i, i < 4 -> b <> i :: a).
      { intros i Hi ->. apply Hex. eapply leaf_sons_none; eauto. }
      pose proof (rs_other _ _ _ _ Rs b Hba Hbs) as Ho.
      destruct (t_store t b) as [n|] eqn:En; [|congruence].
      destruct (s3 b) as [n'|] eqn:En'; [|tauto]. destruct Ho as [p [q ->]].
      pose proof (wf_node t _ W b n En) as K. eexists. split; [exact En'|].
      split; [apply (nk_verts _ _ K)|apply (nk_adj _ _ K)].
    - unfold sons in Hb. simpl in Hb. repeat destruct Hb as [<-|Hb]; try (apply Hs; lia). destruct Hb. }
  exists s4. split; [assumption|]. split; [assumption|]. split; [assumption|]. split; [assumption|].
  unfold refine_leaf. rewrite Ea. cbn [bind]. rewrite Er.
  rewrite (ref_neighbours_ok t _ a c W Ea). cbn [bind].
  rewrite (new_points_ok t _ a c W Ea). cbn [bind].
  change (firstn 4 (pts_of t a c) ++ [np_after t a c 4]) with (pts_of t a c).
  pose proof (nk_verts _ _ (wf_node t _ W a c Ea)) as Lv.
  rewrite !make_son_ok by (assumption || lia). cbn [bind].
  fold (store1 t a c). rewrite E2. cbn [bind]. rewrite E3. cbn [bind].
  fold (sons a). rewrite E4. reflexivity.
Qed.

(** ** order *)
Lemma contiguous_app : forall L l1 from l2 upto,
  contiguous L from (l1 ++ l2) upto <-> exists m, contiguous L from l1 m /\ contiguous L m l2 upto.
Proof.
  intros L l1. induction l1 as [|[id lev] l1 IH]; intros from l2 upto; simpl.
  - split; [intros H; exists from; auto|intros [m [-> H]]; assumption].
  - rewrite IH. split.
    + intros [H1 [H2 [m [H3 H4]]]]. exists m. auto.
    + intros [m [[H1 [H2 H3]] H4]]. eauto.
Qed.

Lemma pos_level_cons : forall i a, a <> [] -> pos_level (i :: a) = S (pos_level a).
Proof. intros i a H. unfold pos_level. destruct a; [congruence|]. simpl. lia. Qed.

Lemma contiguous_split : forall L a from upto, a <> [] -> S (pos_level a) <= L ->
  contiguous L from [idlev a] upto -> contiguous L from (map idlev (sons a)) upto.
Proof.
  intros L a from upto Ha HL H. unfold sons, idlev in *. cbn [map contiguous] in *.
  rewrite !pos_level_cons by assumption. cbn [pos_id].
  destruct H as [_ [Hf Hu]].
  replace (L - pos_level a) with (S (L - S (pos_level a))) in * by lia.
  rewrite Nat.pow_succ_r' in Hf, Hu. set (w := 4 ^ (L - S (pos_level a))) in *.
  repeat split; try lia; nia.
Qed.

Lemma last_or_some : forall l d, l <> [] -> exists b, last_or l d = Some b /\ In b l.
Proof.
  intros l d H. destruct (last_or_cases l d) as [[-> _]|[l' [b [-> E]]]]; [congruence|].
  exists b. split; [assumption|]. apply in_or_app; simpl; auto.
Qed.

Lemma pos_patch_cons : forall i a, a <> [] -> pos_patch (i :: a) = pos_patch a.
Proof. intros i a H. unfold pos_patch. destruct a; [congruence|reflexivity]. Qed.

Lemma pos_x_cons : forall i a, a <> [] -> pos_x (i :: a) = 2 * pos_x a + quad_x i.
Proof. intros i [|b a] H; [congruence|reflexivity]. Qed.
Lemma pos_y_cons : forall i a, a <> [] -> pos_y (i :: a) = 2 * pos_y a + quad_y i.
Proof. intros i [|b a] H; [congruence|reflexivity]. Qed.

Lemma pow2Q_S : forall n, (pow2Q (S n) == 2 * pow2Q n)%Q.
Proof.
  intros. unfold pow2Q. rewrite Nat.pow_succ_r', Nat2Z.inj_mul, inject_Z_mult. reflexivity.
Qed.
Lemma pow2Q_pos : forall n, (0 < pow2Q n)%Q.
Proof.
  intros. unfold pow2Q. change 0%Q with (inject_Z 0). rewrite <- Zlt_Qlt.
  pose proof (Nat.pow_nonzero 2 n). lia.
Qed.

Lemma son_llc_ok : forall a c i, a <> [] -> llc_ok a c -> n_level c = pos_level a -> i < 4 ->
  forall n, n_llc n = son_llc c i -> llc_ok (i :: a) n.
Proof.
  intros a c i Ha [Hx Hy] Hl Hi n En. unfold llc_ok. rewrite En. unfold son_llc. cbn [fst snd].
  rewrite Hx, Hy, Hl, pos_level_cons by assumption. rewrite pow2Q_S.
  pose proof (pow2Q_pos (pos_level a)) as Hp.
  assert (Hp' : ~ (pow2Q (pos_level a) == 0)%Q) by (intros H; rewrite H in Hp; discriminate Hp).
  rewrite pos_x_cons, pos_y_cons by assumption.
  rewrite !Nat2Z.inj_add, !Nat2Z.inj_mul, !inject_Z_plus, !inject_Z_mult.
  set (X := inject_Z (Z.of_nat (pos_x a))). set (Y := inject_Z (Z.of_nat (pos_y a))).
  destruct i as [|[|[|[|i]]]]; try lia; cbn [nth llcs_x llcs_y quad_x quad_y];
    split; cbn [Z.of_nat Pos.of_succ_nat Pos.succ inject_Z]; field; assumption.
Qed.

Lemma son_node_ok : forall t l a c i, WF t l -> t_store t a = Some c -> i < 4 ->
  node_ok (i :: a) (son_node t a c i).
Proof.
  intros t l a c i W Ea Hi. pose proof (wf_node t l W a c Ea) as K.
  assert (Ha : a <> []) by (eapply wf_nonroot; [exact W|congruence]).
  split.
  - simpl. rewrite (nk_id _ _ K). reflexivity.
  - simpl. rewrite (nk_level _ _ K), pos_level_cons by assumption. reflexivity.
  - simpl. rewrite (nk_patch _ _ K), pos_patch_cons by assumption. reflexivity.
  - eapply son_llc_ok; [assumption|apply (nk_llc _ _ K)|apply (nk_level _ _ K)|assumption|reflexivity].
  - destruct i as [|[|[|[|i]]]]; try lia; reflexivity.
  - reflexivity.
Qed.

Lemma node_ok_with : forall a n p q l', node_ok a n -> length l' = 4 ->
  node_ok a (with_adj (with_prev (with_next n q) p) l').
Proof. intros a n p q l' K L. destruct K. split; try assumption. Qed.

(** description of the store after refineLeaf, field by field *)
Definition same_data (n n' : node) : Prop :=
  n_id n' = n_id n /\ n_level n' = n_level n /\ n_patch n' = n_patch n /\ n_llc n' = n_llc n /\ n_verts n' = n_verts n.

Lemma node_ok_same : forall a n n', node_ok a n -> same_data n n' -> length (n_adj n') = 4 -> node_ok a n'.
Proof.
  intros a n n' K [H1 [H2 [H3 [H4 H5]]]] L. destruct K as [K1 K2 K3 K4 K5 K6].
  split; try congruence. unfold llc_ok in *. rewrite H4. assumption.
Qed.

Record step_ok (t : tree) (a : addr) (c : node) (t' : tree) : Prop := {
  so_self : exists n', t_store t' a = Some n' /\ same_data c n' /\ n_ref n' = true;
  so_son : forall i, i < 4 -> exists n', t_store t' (i :: a) = Some n' /\ same_data (son_node t a c i) n' /\ n_ref n' = false;
  so_other : forall b, b <> a -> (forall i, i < 4 -> b <> i :: a) ->
    match t_store t b, t_store t' b with
    | Some n, Some n' => same_data n n' /\ n_ref n' = n_ref n
    | None, None => True
    | _, _ => False
    end;
  so_patches : t_patches t' = t_patches t;
  so_elements : t_elements t' = t_elements t + 3;
  so_maxlevel : t_maxlevel t' = Nat.max (t_maxlevel t) (S (pos_level a));
  so_points : t_points t' = S (np_after t a c 4) }.

Lemma refine_leaf_ok : forall t l1 a l2 c, WF t (l1 ++ a :: l2) -> t_store t a = Some c -> n_ref c = false ->
  exists t', refine_leaf t a = Some t' /\ WF t' (l1 ++ sons a ++ l2) /\ step_ok t a c t'.
Proof.
  intros t l1 a l2 c W Ea Er.
  destruct (refine_leaf_shape t l1 a l2 c W Ea Er) as [s3 [s4 [Rs [Sg [E4 [A4 R]]]]]].
  exists (refined_tree t a c s4). split; [assumption|].
  assert (Ha : a <> []) by (eapply wf_nonroot; [exact W|congruence]).
  pose proof (wf_node t _ W a c Ea) as Kc.
  (* cases for an address *)
  assert (Cases : forall b, b = a \/ (exists i, i < 4 /\ b = i :: a) \/ (b <> a /\ forall i, i < 4 -> b <> i :: a)).
  { intros b. destruct (list_eq_dec Nat.eq_dec b a) as [->|Hb]; [left; reflexivity|right].
    destruct b as [|i b]; [right; split; [assumption|intros; discriminate]|].
    destruct (list_eq_dec Nat.eq_dec b a) as [->|Hb2].
    - destruct (lt_dec i 4); [left; eauto|right]. split; [assumption|]. intros j Hj H. injection H. lia.
    - right. split; [assumption|]. intros j Hj H. congruence. }
  assert (Old : forall i, t_store t (i :: a) = None) by (intros; eapply leaf_sons_none; eauto).
  assert (So : step_ok t a c (refined_tree t a c s4)).
  { split; cbn [refined_tree t_store t_patches t_elements t_maxlevel t_points]; try reflexivity.
    - pose proof (A4 a) as H. rewrite (rs_self _ _ _ _ Rs) in H.
      destruct (s4 a) as [n'|]; [|tauto]. destruct H as [l' [-> _]]. eexists. split; [reflexivity|].
      split; [repeat split|reflexivity].
    - intros i Hi. pose proof (A4 (i :: a)) as H. rewrite (rs_son _ _ _ _ Rs i Hi) in H.
      destruct (s4 (i :: a)) as [n'|]; [|tauto]. destruct H as [l' [-> _]]. eexists. split; [reflexivity|].
      split; [repeat split|reflexivity].
    - intros b Hb Hbs. pose proof (rs_other _ _ _ _ Rs b Hb Hbs) as H. pose proof (A4 b) as H'.
      destruct (t_store t b) as [n|], (s3 b) as [n3|], (s4 b) as [n4|]; try tauto.
      destruct H as [p [q ->]]. destruct H' as [l' [-> _]]. split; [repeat split|reflexivity].
    - rewrite (nk_level _ _ Kc). destruct (Nat.ltb_spec (t_maxlevel t) (pos_level a + 1)); lia. }
  split; [|assumption].
  pose proof (so_self _ _ _ _ So) as Sself. pose proof (so_son _ _ _ _ So) as Sson.
  pose proof (so_other _ _ _ _ So) as Sother.
  assert (Hin : forall b, In b (sons a) <-> exists i, i < 4 /\ b = i :: a).
  { intros b. unfold sons. simpl. split.
    - intros H. repeat destruct H as [<-|H]; try (eexists; split; [|reflexivity]; lia). destruct H.
    - intros [i [Hi ->]]. destruct i as [|[|[|[|i]]]]; try lia; tauto. }
  set (t' := refined_tree t a c s4) in *.
  assert (Hleaf : forall b, In b (l1 ++ sons a ++ l2) <-> is_leaf t' b).
  { intros b. pose proof (wf_leaf t _ W b) as Wl. rewrite !in_app_iff in *. simpl in Wl. rewrite Hin.
    pose proof (wf_nodup t _ W) as D. apply NoDup_remove_2 in D. rewrite in_app_iff in D.
    destruct (Cases b) as [->|[[i [Hi ->]]|[Hb Hbs]]].
    - split.
      + intros [H|[[i [_ H]]|H]]; [tauto|symmetry in H; apply cons_neq in H; tauto|tauto].
      + intros [n [En Rn]]. destruct Sself as [n' [En' [_ Rn']]]. congruence.
    - split; [|intros _; right; left; eauto].
      intros _. destruct (Sson i Hi) as [n' [En' [_ Rn']]]. exists n'. auto.
    - specialize (Sother b Hb Hbs). unfold is_leaf in *.
      assert (Hiff : (exists n, t_store t b = Some n /\ n_ref n = false) <-> (exists n, t_store t' b = Some n /\ n_ref n = false)).
      { destruct (t_store t b) as [n|], (t_store t' b) as [n'|]; try tauto.
        destruct Sother as [_ Hr]. split; intros [m [Em Rm]]; injection Em as <-; eexists; split; eauto; congruence. }
      rewrite <- Hiff, <- Wl. split.
      + intros [H|[[i [Hi H]]|H]]; [tauto|subst b; destruct (Hbs i Hi eq_refl)|tauto].
      + intros [H|[H|H]]; [tauto|congruence|tauto]. }
  assert (Adjlen : forall b n', t_store t' b = Some n' -> length (n_adj n') = 4 /\ forall d, In (Some d) (n_adj n') -> t_store t d <> None \/ In d (sons a)).
  { intros b n' En'. cbn [t' refined_tree t_store] in En'. pose proof (A4 b) as H. rewrite En' in H.
    destruct (s3 b) as [n3|] eqn:E3; [|tauto]. destruct H as [l' [-> [Ll Il]]]. cbn [n_adj with_adj].
    assert (G : length (n_adj n3) = 4 /\ forall d, In (Some d) (n_adj n3) -> t_store t d <> None).
    { destruct (Cases b) as [->|[[i [Hi ->]]|[Hb Hbs]]].
      - rewrite (rs_self _ _ _ _ Rs) in E3. injection E3 as <-. cbn [n_adj with_sons]. split; [apply (nk_adj _ _ Kc)|].
        intros d Hd. eapply (wf_adj t _ W a c); eassumption.
      - rewrite (rs_son _ _ _ _ Rs i Hi) in E3. injection E3 as <-. simpl. split; [reflexivity|].
        intros d Hd. repeat destruct Hd as [Hd|Hd]; try discriminate. destruct Hd.
      - pose proof (rs_other _ _ _ _ Rs b Hb Hbs) as H. rewrite E3 in H.
        destruct (t_store t b) as [n|] eqn:En; [|tauto]. destruct H as [p [q ->]]. cbn [n_adj with_prev with_next].
        split; [apply (nk_adj _ _ (wf_node t _ W b n En))|].
        intros d Hd. eapply (wf_adj t _ W b n); eassumption. }
    destruct G as [G1 G2]. split; [lia|]. intros d Hd. destruct (Il d Hd) as [H|H].
    - left. apply G2; assumption.
    - apply in_app_or in H. destruct H as [H|H]; [left; eapply els_exist; eauto|right; assumption]. }
  assert (Ex : forall b, t_store t' b <> None <-> t_store t b <> None \/ In b (sons a)).
  { intros b. rewrite Hin. destruct (Cases b) as [->|[[i [Hi ->]]|[Hb Hbs]]].
    - destruct Sself as [n' [En' _]]. rewrite En', Ea. split; [left|]; discriminate.
    - destruct (Sson i Hi) as [n' [En' _]]. rewrite En'. split; [|discriminate]. right; eauto.
    - specialize (Sother b Hb Hbs). destruct (t_store t b), (t_store t' b); try tauto.
      + split; [left|]; discriminate.
      + split; [intros H; congruence|]. intros [H|[i [Hi H]]]; [congruence|destruct (Hbs i Hi H)]. }
  split.
  - assert (H : ~ t_store t' [] <> None).
    { rewrite Ex. intros [H|H]; [apply H, (wf_root t _ W)|apply Hin in H; destruct H as [i [_ H]]; discriminate]. }
    destruct (t_store t' []); [exfalso; apply H; discriminate|reflexivity].
  - intros p. rewrite Ex, (wf_patch t _ W p). cbn [t' refined_tree t_patches]. split; [|tauto].
    intros [H|H]; [assumption|]. apply Hin in H. destruct H as [i [_ H]]. injection H as _ H. congruence.
  - intros i b Hb. rewrite Ex, (wf_son t _ W i b Hb).
    destruct (Cases b) as [->|[[j [Hj ->]]|[Hba Hbs]]].
    + destruct Sself as [n' [En' [_ Rn']]]. rewrite Hin. split.
      * intros [[Hi _]|[k [Hk E]]]; (split; [|eauto]); [assumption|]. injection E as ->. assumption.
      * intros [Hi _]. right. eauto.
    + destruct (Sson j Hj) as [n' [En' [_ Rn']]]. rewrite Hin. split.
      * intros [[_ [n [En _]]]|[k [_ E]]]; [rewrite Old in En; discriminate|]. injection E as _ E. apply cons_neq in E. destruct E.
      * intros [_ [n [En Rn]]]. congruence.
    + specialize (Sother b Hba Hbs). rewrite Hin.
      assert (Hno : ~ exists k, k < 4 /\ i :: b = k :: a) by (intros [k [_ E]]; injection E as _ E; congruence).
      destruct (t_store t b) as [n|], (t_store t' b) as [n'|]; try tauto.
      destruct Sother as [_ Hr]. split; [intros [[Hi [m [Em Rm]]]|H]; [|tauto]|intros [Hi [m [Em Rm]]]; left];
          (split; [assumption|]); injection Em as <-; eexists; split; eauto; congruence.
  - intros b n' En'. destruct (Adjlen b n' En') as [L _]. destruct (Cases b) as [->|[[i [Hi ->]]|[Hb Hbs]]].
    + destruct Sself as [m [Em [Sm _]]]. assert (m = n') by congruence. subst m.
      eapply node_ok_same; [exact Kc|assumption|assumption].
    + destruct (Sson i Hi) as [m [Em [Sm _]]]. assert (m = n') by congruence. subst m.
      eapply node_ok_same; [eapply son_node_ok; eauto|assumption|assumption].
    + specialize (Sother b Hb Hbs). rewrite En' in Sother. destruct (t_store t b) as [n|] eqn:En; [|tauto].
      eapply node_ok_same; [apply (wf_node t _ W b n En)|apply Sother|assumption].
  - intros b Hb. apply Ex in Hb. rewrite (so_maxlevel _ _ _ _ So). destruct Hb as [Hb|Hb].
    + pose proof (wf_ml t _ W b Hb). lia.
    + apply Hin in Hb. destruct Hb as [i [Hi ->]]. rewrite pos_level_cons by assumption. lia.
  - intros b n' d En' Hd. apply Ex. destruct (Adjlen b n' En') as [_ H]. apply H; assumption.
  - cbn [t' refined_tree t_store]. eapply seg_frame; [|exact Sg]. intros b n Hb En. pose proof (A4 b) as H.
    rewrite En in H. destruct (s4 b) as [n'|]; [|tauto]. destruct H as [l' [-> _]].
    eexists. split; [reflexivity|split; reflexivity].
  - cbn [t' refined_tree t_first]. rewrite (wf_first t _ W). destruct l1 as [|b l1]; simpl.
    + rewrite addr_eqb_refl. reflexivity.
    + rewrite addr_eqb_neq; [reflexivity|]. intros ->. pose proof (wf_nodup t _ W) as D. inversion D; subst.
      apply H1. apply in_or_app; simpl; auto.
  - cbn [t' refined_tree t_last]. rewrite (wf_last t _ W), !last_or_app. simpl last_or.
    destruct (last_or_cases l2 (Some a)) as [[-> E]|[l' [b [-> E]]]].
    + simpl. rewrite addr_eqb_refl. reflexivity.
    + rewrite E, last_or_app. simpl. rewrite addr_eqb_neq; [reflexivity|]. intros ->.
      pose proof (wf_nodup t _ W) as D. apply NoDup_remove_2 in D. apply D. rewrite !in_app_iff. simpl; auto.
  - exact Hleaf.
  - pose proof (wf_nodup t _ W) as D.
    assert (Hns : forall b, In b (sons a) -> ~ In b (l1 ++ a :: l2)).
    { intros b Hb Hl. apply Hin in Hb. destruct Hb as [i [Hi ->]].
      apply (wf_leaf t _ W) in Hl. destruct Hl as [n [En _]]. rewrite Old in En. discriminate. }
    assert (Dp : NoDup (sons a ++ l1 ++ l2)).
    { assert (D' : NoDup (l1 ++ l2)) by (eapply NoDup_remove_1; exact D).
      assert (Ds : NoDup (sons a)).
      { unfold sons. repeat constructor; simpl; intros H; repeat destruct H as [H|H]; try congruence; tauto. }
      revert D' Hns Ds. generalize (sons a) as ss. clear -Ha. intros ss D' Hns Ds. induction ss as [|x ss IH]; [assumption|].
      inversion Ds; subst. simpl. constructor.
      - rewrite in_app_iff. intros [H|H]; [tauto|]. apply (Hns x (or_introl eq_refl)).
        rewrite in_app_iff in *. simpl. tauto.
      - apply IH; [intros; apply Hns; right; assumption|assumption]. }
    eapply Permutation_NoDup; [|exact Dp].
    rewrite !app_assoc. apply Permutation_app_tail. apply Permutation_app_comm.
  - intros L HL. pose proof (wf_order t _ W L) as Wo. cbn [t' refined_tree t_patches].
    assert (Hla : S (pos_level a) <= L).
    { rewrite <- (pos_level_cons 0 a Ha). apply HL. rewrite !in_app_iff. right; left. unfold sons; simpl; auto. }
    assert (Wo' : contiguous L 0 (map idlev (l1 ++ a :: l2)) (t_patches t * 4 ^ L)).
    { apply Wo. intros b Hb. rewrite in_app_iff in Hb. simpl in Hb. destruct Hb as [Hb|[<-|Hb]]; [|lia|];
        apply HL; rewrite !in_app_iff; auto. }
    rewrite map_app in Wo'. apply contiguous_app in Wo'. destruct Wo' as [m [H1 H2]].
    change (a :: l2) with ([a] ++ l2) in H2. rewrite map_app in H2. apply contiguous_app in H2.
    destruct H2 as [m2 [H2 H3]]. rewrite !map_app. apply contiguous_app. exists m. split; [assumption|].
    apply contiguous_app. exists m2. split; [|assumption]. apply contiguous_split; assumption.
  - cbn [t' refined_tree t_elements]. rewrite <- (wf_count t _ W), !app_length. simpl. lia.
Qed.
