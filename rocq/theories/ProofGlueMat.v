(** assembleGlueMatrix (C21). *)
From Coq Require Import List Arith Bool ZArith Lia Permutation Sorted.
From Verif Require Import ModelBase ModelTree ModelGlue SpecGlue.
Import ListNotations.
Local Open Scope nat_scope.

(** ** sorting *)
Section Sort.
Context {A : Type}.
Variable key : A -> nat.
Lemma insert_perm : forall x l, Permutation (insert_by key x l) (x :: l).
Proof.
  intros x l. induction l as [|y l IH]; simpl; [reflexivity|]. destruct (key x <=? key y); [reflexivity|].
  rewrite IH. apply perm_swap.
Qed.
Lemma sort_perm : forall l, Permutation (sort_by key l) l.
Proof. intros l. induction l as [|x l IH]; simpl; [reflexivity|]. unfold sort_by in *. rewrite insert_perm, IH. reflexivity. Qed.
Lemma insert_sorted : forall x l, StronglySorted (fun a b => key a <= key b) l -> StronglySorted (fun a b => key a <= key b) (insert_by key x l).
Proof.
  intros x l H. induction H as [|y l H IH F]; simpl; [repeat constructor|]. destruct (key x <=? key y) eqn:E.
  - apply Nat.leb_le in E. constructor; [constructor; assumption|]. constructor; [assumption|].
    eapply Forall_impl; [|exact F]. intros; simpl in *; lia.
  - apply Nat.leb_gt in E. constructor; [assumption|]. rewrite Forall_forall in *. intros z Hz.
    apply (Permutation_in _ (insert_perm x l)) in Hz. destruct Hz as [<-|Hz]; [lia|auto].
Qed.
Lemma sort_sorted : forall l, StronglySorted (fun a b => key a <= key b) (sort_by key l).
Proof. intros l. induction l as [|x l IH]; simpl; [constructor|]. apply insert_sorted. assumption. Qed.
Lemma sort_min : forall x l, (forall y, In y l -> key x <= key y) -> sort_by key (x :: l) = x :: sort_by key l.
Proof.
  intros x l H. change (sort_by key (x :: l)) with (insert_by key x (sort_by key l)).
  destruct (sort_by key l) as [|y r] eqn:E; [reflexivity|]. simpl.
  assert (Hy : In y l) by (apply (Permutation_in _ (sort_perm l)); rewrite E; left; reflexivity).
  rewrite (proj2 (Nat.leb_le _ _) (H y Hy)). reflexivity.
Qed.
End Sort.

(** ** boolean vectors *)
Lemma set_get : forall {A} (v : list A) i x, i < length v -> exists v', set v i x = Some v' /\ length v' = length v /\
  forall j, get v' j = if j =? i then Some x else get v j.
Proof.
  intros A v i x Hi. destruct (set_spec v i x Hi) as [v' [E [L H]]]. exists v'. split; [assumption|]. split; [assumption|].
  intros j. unfold get. destruct (lt_dec j (length v)) as [Hj|Hj].
  - rewrite (nth_error_nth' v' x) by lia. rewrite H. destruct (j =? i); [reflexivity|]. symmetry. apply nth_error_nth'. assumption.
  - rewrite (proj2 (nth_error_None v' j)) by lia. rewrite (proj2 (nth_error_None v j)) by lia.
    destruct (j =? i) eqn:Ej; [apply Nat.eqb_eq in Ej; lia|reflexivity].
Qed.
Definition on (v : list bool) (i : nat) : Prop := get v i = Some true.

Lemma set_all : forall r (v : list bool), (forall x, In x r -> x < length v) ->
  exists v', fold_opt (fun x s => set s x true) r v = Some v' /\ length v' = length v /\ forall j, on v' j <-> on v j \/ In j r.
Proof.
  induction r as [|x r IH]; intros v H; cbn [fold_opt].
  - exists v. split; [reflexivity|]. split; [reflexivity|]. simpl. tauto.
  - destruct (set_get v x true) as [v1 [E1 [L1 G1]]]; [apply H; left; reflexivity|]. rewrite E1. cbn [bind].
    destruct (IH v1) as [v2 [E2 [L2 G2]]]; [intros y Hy; rewrite L1; apply H; right; assumption|].
    exists v2. split; [assumption|]. split; [congruence|]. intros j. rewrite G2. unfold on. rewrite G1. simpl.
    destruct (j =? x) eqn:E.
    + apply Nat.eqb_eq in E. subst. tauto.
    + apply Nat.eqb_neq in E. split; intros [?|?]; auto. destruct H0 as [->|?]; [congruence|auto].
Qed.

(** ** the assumptions on the identification groups *)
Definition master (ids : list group) (r : nat) : Prop := exists g, In g ids /\ key0 g = r.

Lemma nodup_app_inv : forall {A} (l1 l2 : list A), NoDup (l1 ++ l2) -> NoDup l1 /\ NoDup l2 /\ forall x, In x l1 -> ~ In x l2.
Proof.
  intros A l1 l2 H. induction l1 as [|x l1 IH]; simpl in *; [split; [constructor|]; split; [assumption|]; intros ? []|].
  inversion H; subst. destruct (IH H3) as [N1 [N2 D]]. rewrite in_app_iff in H2. split; [constructor; tauto|]. split; [assumption|].
  intros y [<-|Hy]; [tauto|auto].
Qed.

Lemma group_unique : forall (ids : list group) g h d, NoDup (concat (map fst ids)) -> In g ids -> In h ids -> In d (fst g) -> In d (fst h) -> g = h.
Proof.
  induction ids as [|x ids IH]; intros g h d N Hg Hh Dg Dh; [destruct Hg|]. simpl in N. destruct (nodup_app_inv _ _ N) as [N1 [N2 D]].
  assert (T : forall k, In k ids -> In d (fst k) -> In d (concat (map fst ids))).
  { intros k Hk Dk. apply in_concat. exists (fst k). split; [apply in_map; assumption|assumption]. }
  destruct Hg as [->|Hg], Hh as [->|Hh].
  - reflexivity.
  - exfalso. apply (D d Dg). eauto.
  - exfalso. apply (D d Dh). eauto.
  - eapply IH; eauto.
Qed.
Lemma group_nodup : forall (ids : list group) g, NoDup (concat (map fst ids)) -> In g ids -> NoDup (fst g).
Proof.
  induction ids as [|x ids IH]; intros g N Hg; [destruct Hg|]. simpl in N. destruct (nodup_app_inv _ _ N) as [N1 [N2 D]].
  destruct Hg as [->|Hg]; auto.
Qed.

Section Mat.
Variable pre : nat.
Variable ids : list group.
Hypothesis K : groups_ok pre ids.

Lemma group_shape : forall g, In g ids -> exists d x r, fst g = d :: x :: r /\ key0 g = d.
Proof.
  intros g Hg. pose proof (gk_two _ _ K g Hg). unfold key0. destruct (fst g) as [|d [|x r]]; simpl in *; try lia. eauto.
Qed.
Lemma key0_in : forall g, In g ids -> In (key0 g) (fst g).
Proof. intros g Hg. destruct (group_shape g Hg) as [d [x [r [E ->]]]]. rewrite E. left; reflexivity. Qed.
Lemma tl_in : forall (g : group) d, In d (tl (fst g)) -> In d (fst g).
Proof. intros g d. destruct (fst g); simpl; auto. Qed.
Lemma key0_inj : forall g h, In g ids -> In h ids -> key0 g = key0 h -> g = h.
Proof.
  intros g h Hg Hh E. apply (group_unique ids g h (key0 g) (gk_disjoint _ _ K)); auto using key0_in. rewrite E. auto using key0_in.
Qed.
Lemma slave_not_master : forall r, slave ids r -> master ids r -> False.
Proof.
  intros r [g [Hg Tg]] [h [Hh <-]]. assert (g = h) by (apply (group_unique ids g h (key0 h) (gk_disjoint _ _ K)); auto using key0_in, tl_in). subst h.
  pose proof (group_nodup ids g (gk_disjoint _ _ K) Hg) as N. destruct (group_shape g Hg) as [d [x [r [E E2]]]]. rewrite E2 in Tg. rewrite E in *.
  simpl in Tg. inversion N; subst. simpl in *. tauto.
Qed.
Lemma slave_lt : forall r, slave ids r -> r < pre.
Proof. intros r [g [Hg T]]. eapply (gk_lt _ _ K); eauto using tl_in. Qed.
Lemma master_lt : forall r, master ids r -> r < pre.
Proof. intros r [g [Hg <-]]. eapply (gk_lt _ _ K); eauto using key0_in. Qed.

(** ** marking *)
Lemma mark_all : forall l m, incl l ids -> length (fst (fst m)) = pre -> length (snd (fst m)) = pre ->
  exists m', fold_opt mark_group l m = Some m' /\ length (fst (fst m')) = pre /\ length (snd (fst m')) = pre /\
    (forall r, on (fst (fst m')) r <-> on (fst (fst m)) r \/ slave l r) /\
    (forall r, on (snd (fst m')) r <-> on (snd (fst m)) r \/ master l r) /\
    snd m' = snd m + n_slaves l.
Proof.
  induction l as [|g l IH]; intros [[sl ma] k] Hin L1 L2; simpl in L1, L2; cbn [fold_opt].
  - eexists. split; [reflexivity|]. simpl. split; [assumption|]. split; [assumption|].
    split; [intros r; split; [auto|intros [?|[g [[] _]]]; assumption]|].
    split; [intros r; split; [auto|intros [?|[g [[] _]]]; assumption]|]. unfold n_slaves. simpl. lia.
  - assert (Hg : In g ids) by (apply Hin; left; reflexivity). unfold mark_group at 1.
    destruct (group_shape g Hg) as [d [x [r [E E2]]]].
    assert (Hs : sort_by (fun d => d) (fst g) = d :: sort_by (fun d => d) (x :: r)).
    { rewrite E. apply sort_min. intros y Hy. rewrite <- E2. replace (key0 g) with (hd 0 (fst g)) by (unfold key0; destruct (fst g); reflexivity). apply (gk_min _ _ K g y Hg). rewrite E. right. assumption. }
    rewrite Hs. destruct (set_get ma d true) as [ma1 [Em [Lm Gm]]].
    { rewrite L2. apply (gk_lt _ _ K g d Hg). rewrite E. left; reflexivity. }
    rewrite Em. cbn [bind]. pose proof (sort_perm (fun d : nat => d) (x :: r)) as P.
    destruct (set_all (sort_by (fun d => d) (x :: r)) sl) as [sl1 [Es [Ls Gs]]].
    { intros y Hy. rewrite L1. apply (gk_lt _ _ K g y Hg). rewrite E. right. apply (Permutation_in _ P). assumption. }
    rewrite Es. cbn [bind].
    destruct (IH (sl1, ma1, k + length (sort_by (fun d => d) (x :: r)))) as [m' [E' [L1' [L2' [S' [M' K']]]]]].
    { intros y Hy. apply Hin. right. assumption. } { simpl. congruence. } { simpl. congruence. }
    exists m'. split; [assumption|]. split; [assumption|]. split; [assumption|]. cbn [fst snd] in S', M', K'. split; [|split].
    + intros y. rewrite S', Gs. unfold slave. split.
      * intros [[?|Hy]|[h [Hh Ty]]]; [auto| |right; exists h; split; [right; assumption|assumption]].
        right. exists g. split; [left; reflexivity|]. rewrite E. simpl tl. apply (Permutation_in _ P). assumption.
      * intros [?|[h [[<-|Hh] Ty]]]; [auto| |right; eauto]. left. right. rewrite E in Ty.
        apply (Permutation_in _ (Permutation_sym P)). assumption.
    + intros y. rewrite M'. unfold on at 1. rewrite Gm. fold (on ma y). unfold master. destruct (y =? d) eqn:Ey.
      * apply Nat.eqb_eq in Ey. subst y. split; [|auto]. intros _. right. exists g. split; [left; reflexivity|assumption].
      * apply Nat.eqb_neq in Ey. split.
        -- intros [?|[h [Hh Kh]]]; [auto|]. right. exists h. split; [right; assumption|assumption].
        -- intros [?|[h [[<-|Hh] Kh]]]; [auto|congruence|right; eauto].
    + rewrite K', (Permutation_length P). unfold n_slaves. cbn [map list_sum fold_right]. rewrite E. simpl. unfold list_sum. lia.
Qed.

(** ** enumeration of the dofs that are not slaves *)
Variables sl ma : list bool.
Hypothesis Lsl : length sl = pre.
Hypothesis Lma : length ma = pre.
Hypothesis Hsl : forall r, on sl r <-> slave ids r.
Hypothesis Hma : forall r, on ma r <-> master ids r.

Definition free (r : nat) : bool := negb (nth r sl false).
Definition ns (k : nat) : list nat := filter free (seq 0 k).
Lemma sl_get : forall r, r < pre -> get sl r = Some (nth r sl false).
Proof. intros. apply get_nth. lia. Qed.
Lemma free_iff : forall r, r < pre -> free r = true <-> ~ slave ids r.
Proof.
  intros r Hr. unfold free. rewrite <- Hsl. unfold on. rewrite sl_get by assumption.
  destruct (nth r sl false); simpl; split; intros; try discriminate; try congruence; try (exfalso; auto; fail).
Qed.
Lemma ns_S : forall k, ns (S k) = ns k ++ (if free k then [k] else []).
Proof. intros k. unfold ns. rewrite seq_S, filter_app. simpl. destruct (free k); reflexivity. Qed.
Lemma ns_mono : forall k m, k <= m -> length (ns k) <= length (ns m).
Proof.
  intros k m H. induction H as [|m H IH]; [lia|]. rewrite ns_S, app_length. lia.
Qed.
Lemma ns_prefix : forall k m, k <= m -> exists r, ns m = ns k ++ r.
Proof.
  intros k m H. induction H as [|m H [r IH]]; [exists []; rewrite app_nil_r; reflexivity|].
  rewrite ns_S, IH, <- app_assoc. eauto.
Qed.
Lemma ns_nth : forall k, k < pre -> free k = true -> nth (length (ns k)) (ns pre) 0 = k.
Proof.
  intros k Hk F. destruct (ns_prefix (S k) pre) as [r E]; [lia|]. rewrite E, ns_S, F, <- app_assoc, app_nth2 by lia.
  rewrite Nat.sub_diag. reflexivity.
Qed.

Lemma skip_spec : forall fuel i skip, length (ns (i + skip)) = i -> i < length (ns pre) -> pre <= i + skip + fuel -> i + skip < pre ->
  exists skip', skip_slaves fuel sl i skip = Some skip' /\ i + skip' < pre /\ length (ns (i + skip')) = i /\ free (i + skip') = true.
Proof.
  induction fuel as [|f IH]; intros i skip H1 H2 H3 H4; [lia|]. cbn [skip_slaves]. rewrite sl_get by assumption. cbn [bind].
  destruct (nth (i + skip) sl false) eqn:E.
  - assert (N : length (ns (S (i + skip))) = i).
    { rewrite ns_S. unfold free. rewrite E. simpl. rewrite app_nil_r. assumption. }
    destruct (Nat.eq_dec (S (i + skip)) pre) as [Q|Q]; [rewrite Q in N; lia|].
    apply IH; try lia. replace (i + S skip) with (S (i + skip)) by lia. assumption.
  - exists skip. split; [reflexivity|]. split; [assumption|]. split; [assumption|]. unfold free. rewrite E. reflexivity.
Qed.

(** ** the masters in order *)
Let sorted := sort_by key0 ids.
Definition is_master (r : nat) : bool := nth r ma false.
Lemma master_iff : forall r, r < pre -> is_master r = true <-> master ids r.
Proof.
  intros r Hr. rewrite <- Hma. unfold on, is_master. rewrite (get_nth ma r false) by lia. split; congruence.
Qed.

Lemma sorted_lists_equal : forall l m : list nat, StronglySorted lt l -> StronglySorted lt m -> (forall x, In x l <-> In x m) -> l = m.
Proof.
  induction l as [|a l IH]; intros [|b m] Hl Hm H.
  - reflexivity.
  - exfalso. apply (proj2 (H b)). left; reflexivity.
  - exfalso. apply (proj1 (H a)). left; reflexivity.
  - inversion Hl as [|? ? Sl Fl]; inversion Hm as [|? ? Sm Fm]; subst. rewrite Forall_forall in Fl, Fm.
    assert (a = b).
    { destruct (proj1 (H a) (or_introl eq_refl)) as [E|E]; [auto|]. destruct (proj2 (H b) (or_introl eq_refl)) as [E'|E']; [auto|].
      specialize (Fl b E'). specialize (Fm a E). lia. }
    subst b. f_equal. apply IH; auto. intros x. split; intros Hx.
    + destruct (proj1 (H x) (or_intror Hx)) as [->|?]; [|assumption]. specialize (Fl x Hx). lia.
    + destruct (proj2 (H x) (or_intror Hx)) as [->|?]; [|assumption]. specialize (Fm x Hx). lia.
Qed.
Lemma seq_sorted : forall n a, StronglySorted lt (seq a n).
Proof.
  induction n as [|n IH]; intros a; simpl; constructor; [apply IH|]. rewrite Forall_forall. intros x Hx. apply in_seq in Hx. lia.
Qed.
Lemma filter_sorted : forall f (l : list nat), StronglySorted lt l -> StronglySorted lt (filter f l).
Proof.
  intros f l H. induction H as [|a l H IH F]; simpl; [constructor|]. destruct (f a); [|assumption]. constructor; [assumption|].
  rewrite Forall_forall in *. intros x Hx. apply filter_In in Hx. apply F. tauto.
Qed.
Lemma sorted_in : forall g, In g sorted <-> In g ids.
Proof.
  intros g. pose proof (sort_perm key0 ids) as P. split; intros; [apply (Permutation_in _ P)|apply (Permutation_in _ (Permutation_sym P))]; assumption.
Qed.
Lemma ids_nodup : NoDup ids.
Proof.
  pose proof (gk_disjoint _ _ K) as N. pose proof (gk_two _ _ K) as T. clear -N T.
  induction ids as [|g l IH]; [constructor|]. simpl in N. destruct (nodup_app_inv _ _ N) as [N1 [N2 D]]. constructor.
  - intros Hg. specialize (T g (or_introl eq_refl)). destruct (fst g) as [|d r] eqn:E; simpl in T; [lia|].
    apply (D d); [left; reflexivity|]. apply in_concat. exists (fst g). split; [apply in_map; assumption|rewrite E; left; reflexivity].
  - apply IH; [assumption|]. intros h Hh. apply T. right; assumption.
Qed.
Lemma strict_of_nodup : forall l : list group, StronglySorted (fun a b => key0 a <= key0 b) l -> NoDup (map key0 l) -> StronglySorted lt (map key0 l).
Proof.
  intros l H. induction H as [|g l H IH F]; intros N; simpl; [constructor|]. simpl in N. inversion N; subst. constructor; [auto|].
  rewrite Forall_forall in *. intros x Hx. pose proof Hx as Hx'. apply in_map_iff in Hx'. destruct Hx' as [h [<- Hh]]. specialize (F h Hh).
  destruct (Nat.eq_dec (key0 g) (key0 h)) as [E|E]; [|lia]. exfalso. apply H2. rewrite E. assumption.
Qed.
Lemma sorted_keys_nodup : NoDup (map key0 sorted).
Proof.
  assert (G : forall l, NoDup l -> incl l ids -> NoDup (map key0 l)).
  { induction l as [|g l IH]; intros N I; simpl; [constructor|]. apply NoDup_cons_iff in N. destruct N as [N1 N2]. constructor.
    - intros H. apply in_map_iff in H. destruct H as [h [E Hh]]. apply N1. replace g with h; [assumption|].
      apply key0_inj; auto; apply I; [right; assumption|left; reflexivity].
    - apply IH; [assumption|]. intros h Hh. apply I. right. assumption. }
  apply G.
  - apply (Permutation_NoDup (Permutation_sym (sort_perm key0 ids))). apply ids_nodup.
  - intros g Hg. apply sorted_in. assumption.
Qed.
Lemma masters_in_order : filter is_master (ns pre) = map key0 sorted.
Proof.
  apply sorted_lists_equal.
  - apply filter_sorted, filter_sorted, seq_sorted.
  - apply strict_of_nodup; [apply sort_sorted|apply sorted_keys_nodup].
  - intros x. rewrite filter_In. unfold ns. rewrite filter_In, in_seq, in_map_iff. split.
    + intros [[Hx _] Mx]. apply master_iff in Mx; [|lia]. destruct Mx as [g [Hg E]]. exists g. split; [assumption|apply sorted_in; assumption].
    + intros [g [E Hg]]. apply sorted_in in Hg. assert (Mx : master ids x) by (exists g; auto). pose proof (master_lt x Mx).
      split; [split; [lia|]|apply master_iff; assumption]. apply free_iff; [assumption|]. intros S. eapply slave_not_master; eauto.
Qed.

(** ** closed form of the triplets *)
Definition group_at (r : nat) : option group := find (fun g => key0 g =? r) ids.
Definition block (k : nat) : list triplet :=
  (nth k (ns pre) 0, k, 1%Z) :: match group_at (nth k (ns pre) 0) with Some g => partners k g | None => [] end.
Definition trips (i : nat) : list triplet := flat_map block (seq 0 i).

Lemma group_at_master : forall r, r < pre -> is_master r = true -> exists g, group_at r = Some g /\ In g ids /\ key0 g = r.
Proof.
  intros r Hr H. apply master_iff in H; [|assumption]. destruct H as [g [Hg E]]. unfold group_at.
  destruct (find (fun g => key0 g =? r) ids) as [h|] eqn:F.
  - apply find_some in F. destruct F as [Hh Eh]. apply Nat.eqb_eq in Eh. eauto.
  - apply (find_none _ _ F) in Hg. apply Nat.eqb_neq in Hg. congruence.
Qed.
Lemma group_at_none : forall r, r < pre -> is_master r = false -> group_at r = None.
Proof.
  intros r Hr H. unfold group_at. destruct (find (fun g => key0 g =? r) ids) as [h|] eqn:F; [|reflexivity].
  apply find_some in F. destruct F as [Hh Eh]. apply Nat.eqb_eq in Eh.
  assert (is_master r = true) by (apply master_iff; [assumption|]; exists h; auto). congruence.
Qed.

Lemma firstn_snoc : forall (l : list nat) i, i < length l -> firstn (S i) l = firstn i l ++ [nth i l 0].
Proof.
  induction l as [|x l IH]; intros i H; simpl in *; [lia|]. destruct i; simpl; [reflexivity|]. f_equal. apply IH. lia.
Qed.

Lemma glue_loop : forall i, i <= length (ns pre) -> exists skip,
  for_opt i (glue_step pre sl ma sorted) ([], 0, 0) = Some (trips i, skip, length (filter is_master (firstn i (ns pre)))) /\
  length (ns (i + skip)) = i /\ i + skip <= pre.
Proof.
  induction i as [|i IH]; intros Hi.
  - exists 0. split; [reflexivity|]. split; [reflexivity|lia].
  - destruct IH as [skip [E [N B]]]; [lia|]. cbn [for_opt]. rewrite E. cbn [bind]. unfold glue_step.
    assert (Hlt : i + skip < pre).
    { destruct (Nat.eq_dec (i + skip) pre) as [Q|Q]; [|lia]. rewrite Q in N. lia. }
    destruct (skip_spec pre i skip N ltac:(lia) ltac:(lia) Hlt) as [skip' [Es [B' [N' F']]]]. rewrite Es. cbn [bind].
    set (r := i + skip') in *.
    assert (Hr : nth i (ns pre) 0 = r) by (rewrite <- N' at 1; apply ns_nth; assumption).
    rewrite (get_nth ma r false) by lia. rewrite sl_get by assumption. cbn [bind].
    assert (Fs : nth r sl false = false) by (unfold free in F'; destruct (nth r sl false); [discriminate|reflexivity]).
    rewrite Fs, andb_false_r. cbn [negb ModelBase.assert bind].
    assert (T : trips (S i) = trips i ++ block i).
    { unfold trips. rewrite seq_S, flat_map_app. simpl. rewrite app_nil_r. reflexivity. }
    assert (NS : length (ns (S i + skip')) = S i).
    { replace (S i + skip') with (S r) by (unfold r; lia). rewrite ns_S, F', app_length, N'. simpl. lia. }
    rewrite firstn_snoc, filter_app, app_length, Hr by lia. cbn [filter]. fold (is_master r).
    destruct (is_master r) eqn:Em.
    + destruct (group_at_master r B' Em) as [g [Eg [Hg Kg]]].
      assert (Gm : get sorted (length (filter is_master (firstn i (ns pre)))) = Some g).
      { (* the sorted list at this position has key r *)
        assert (Sp : ns pre = firstn i (ns pre) ++ r :: skipn (S i) (ns pre)).
        { rewrite <- Hr. clear -Hi. revert i Hi. induction (ns pre) as [|x l IHl]; intros i Hi; simpl in *; [lia|].
          destruct i; simpl; [reflexivity|]. f_equal. apply IHl. lia. }
        pose proof masters_in_order as O. rewrite Sp, filter_app in O. cbn [filter] in O. rewrite Em in O.
        set (u := filter is_master (firstn i (ns pre))) in *.
        assert (Ku : nth_error (map key0 sorted) (length u) = Some r).
        { rewrite <- O, nth_error_app2, Nat.sub_diag by lia. reflexivity. }
        rewrite nth_error_map in Ku. unfold get. destruct (nth_error sorted (length u)) as [h|] eqn:Eh; [|discriminate].
        simpl in Ku. injection Ku as Kh. f_equal. apply key0_inj; auto; [|congruence]. apply sorted_in. eapply nth_error_In; eassumption. }
      rewrite Gm. cbn [bind]. destruct (group_shape g Hg) as [d [x [q [Ed Kd]]]]. unfold dofs0. rewrite Ed. cbn [get nth_error bind].
      replace d with r by congruence. rewrite Nat.eqb_refl. cbn [ModelBase.assert bind].
      exists skip'. split; [|split; [assumption|unfold r in *; lia]].
      rewrite T. unfold block. rewrite Hr, Eg. rewrite Nat.add_1_r. reflexivity.
    + exists skip'. split; [|split; [assumption|unfold r in *; lia]].
      rewrite T. unfold block. rewrite Hr, (group_at_none r B' Em). rewrite Nat.add_0_r. reflexivity.
Qed.

(** ** properties of the closed form *)
Let post := length (ns pre).
Lemma ns_in : forall r, In r (ns pre) <-> r < pre /\ ~ slave ids r.
Proof.
  intros r. unfold ns. rewrite filter_In, in_seq. split.
  - intros [H1 H2]. split; [lia|]. apply free_iff; [lia|assumption].
  - intros [H1 H2]. split; [lia|]. apply free_iff; assumption.
Qed.
Lemma ns_nodup : NoDup (ns pre).
Proof. apply NoDup_filter, seq_NoDup. Qed.
Lemma ns_nth_in : forall k, k < post -> In (nth k (ns pre) 0) (ns pre).
Proof. intros k Hk. apply nth_In. assumption. Qed.
Lemma ns_nth_inj : forall k m, k < post -> m < post -> nth k (ns pre) 0 = nth m (ns pre) 0 -> k = m.
Proof. intros k m Hk Hm E. apply (proj1 (NoDup_nth (ns pre) 0) ns_nodup); assumption. Qed.
Lemma ns_index : forall r, r < pre -> ~ slave ids r -> exists k, k < post /\ nth k (ns pre) 0 = r.
Proof.
  intros r H1 H2. assert (I : In r (ns pre)) by (apply ns_in; auto). apply (In_nth _ _ 0) in I. destruct I as [k [Hk E]]. exists k. auto.
Qed.
Lemma strict_nth : forall (l : list nat) i j, StronglySorted lt l -> i < j -> j < length l -> nth i l 0 < nth j l 0.
Proof.
  intros l i j H. revert i j. induction H as [|a l H IH F]; intros i j Hij Hj; simpl in Hj; [lia|].
  destruct j; [lia|]. destruct i; simpl.
  - rewrite Forall_forall in F. apply F. apply nth_In. lia.
  - apply IH; lia.
Qed.

Lemma trips_in : forall r c v, In (r, c, v) (trips post) <->
  c < post /\ ((r = nth c (ns pre) 0 /\ v = 1%Z) \/
               exists g, In g ids /\ key0 g = nth c (ns pre) 0 /\ In r (tl (fst g)) /\ v = snd g).
Proof.
  intros r c v. unfold trips. rewrite in_flat_map. split.
  - intros [k [Hk Hb]]. apply in_seq in Hk. unfold block in Hb. destruct Hb as [Hb|Hb].
    + injection Hb as <- <- <-. split; [lia|]. left. auto.
    + destruct (group_at (nth k (ns pre) 0)) as [g|] eqn:Eg; [|destruct Hb]. unfold partners in Hb.
      apply in_map_iff in Hb. destruct Hb as [d [Hd Td]]. injection Hd as <- <- <-. split; [lia|]. right. exists g.
      unfold group_at in Eg. apply find_some in Eg. destruct Eg as [Hg Kg]. apply Nat.eqb_eq in Kg. auto.
  - intros [Hc [[-> ->]|[g [Hg [Kg [Tg ->]]]]]]; exists c; (split; [apply in_seq; lia|]); unfold block.
    + left. reflexivity.
    + right. assert (Hlt : nth c (ns pre) 0 < pre) by (apply ns_in, ns_nth_in; assumption).
      destruct (group_at_master (nth c (ns pre) 0) Hlt) as [h [Eh [Hh Kh]]].
      { apply master_iff; [assumption|]. exists g. auto. }
      rewrite Eh. assert (h = g) by (apply key0_inj; auto; congruence). subst h. unfold partners. apply in_map_iff. exists r. auto.
Qed.

Lemma trip_exists : forall r, r < pre -> exists c v, In (r, c, v) (trips post).
Proof.
  intros r Hr. destruct (in_dec Nat.eq_dec r (ns pre)) as [I|I].
  - apply ns_in in I. destruct (ns_index r Hr (proj2 I)) as [k [Hk E]]. exists k, 1%Z. apply trips_in. split; [assumption|]. left. auto.
  - destruct (free r) eqn:F; [exfalso; apply I; apply ns_in; split; [assumption|apply free_iff; assumption]|].
    assert (S : slave ids r).
    { apply Hsl. unfold on. rewrite sl_get by assumption. unfold free in F. destruct (nth r sl false); [reflexivity|discriminate]. }
    destruct S as [g [Hg Tg]]. assert (Mg : master ids (key0 g)) by (exists g; auto).
    destruct (ns_index (key0 g) (master_lt _ Mg)) as [k [Hk E]]; [intros S; eapply slave_not_master; eauto|].
    exists k, (snd g). apply trips_in. split; [assumption|]. right. exists g. auto.
Qed.
Lemma trip_same : forall r c v r' c' v', In (r, c, v) (trips post) -> In (r', c', v') (trips post) ->
  (c = c' <-> r = r' \/ same_group ids r r').
Proof.
  assert (Tg_slave : forall g r, In g ids -> In r (tl (fst g)) -> slave ids r) by (intros g r; exists g; auto).
  assert (Free : forall c, c < post -> ~ slave ids (nth c (ns pre) 0)) by (intros c Hc; apply ns_in, ns_nth_in; assumption).
  intros r c v r' c' v' H H'. apply trips_in in H. apply trips_in in H'. destruct H as [Hc H], H' as [Hc' H']. split.
  - intros <-. destruct H as [[-> ->]|[g [Hg [Kg [Tg ->]]]]], H' as [[-> ->]|[g' [Hg' [Kg' [Tg' ->]]]]].
    + auto.
    + right. exists g'. split; [assumption|]. rewrite <- Kg'. auto using key0_in, tl_in.
    + right. exists g. split; [assumption|]. rewrite <- Kg. auto using key0_in, tl_in.
    + right. assert (g = g') by (apply key0_inj; auto; congruence). subst g'. exists g. auto using tl_in.
  - assert (G : forall r c, c < post ->
        (r = nth c (ns pre) 0 \/ exists g, In g ids /\ key0 g = nth c (ns pre) 0 /\ In r (tl (fst g))) ->
        forall g, In g ids -> In r (fst g) -> key0 g = nth c (ns pre) 0).
    { intros x k Hk [->|[g [Hg [Kg Tg]]]] h Hh Ih.
      - destruct (group_shape h Hh) as [d [y [q [E Kd]]]]. rewrite E in Ih. destruct Ih as [Ih|Ih]; [congruence|].
        exfalso. apply (Free k Hk). apply (Tg_slave h); [assumption|]. rewrite E. assumption.
      - assert (g = h) by (apply (group_unique ids g h x (gk_disjoint _ _ K)); auto using tl_in). subst h. assumption. }
    assert (A : r = nth c (ns pre) 0 \/ exists g, In g ids /\ key0 g = nth c (ns pre) 0 /\ In r (tl (fst g))).
    { destruct H as [[-> _]|[g [? [? [? _]]]]]; eauto. }
    assert (B : r' = nth c' (ns pre) 0 \/ exists g, In g ids /\ key0 g = nth c' (ns pre) 0 /\ In r' (tl (fst g))).
    { destruct H' as [[-> _]|[g [? [? [? _]]]]]; eauto. }
    clear H H'. intros [<-|[g [Hg [Ig Ig']]]].
    + destruct A as [A|[g [Hg [Kg Tg]]]].
      * destruct B as [B|[g [Hg [Kg Tg]]]]; [apply ns_nth_inj; auto; congruence|]. exfalso. rewrite A in Tg. apply (Free c Hc). eauto.
      * apply ns_nth_inj; auto. rewrite <- Kg. apply (G r c' Hc' B g Hg (tl_in g r Tg)).
    + apply ns_nth_inj; auto. rewrite <- (G r c Hc A g Hg Ig). apply (G r' c' Hc' B g Hg Ig').
Qed.

Lemma nodup_flat_map : forall {A B} (f : A -> list B) l, NoDup l -> (forall a, In a l -> NoDup (f a)) ->
  (forall a b x, In a l -> In b l -> In x (f a) -> In x (f b) -> a = b) -> NoDup (flat_map f l).
Proof.
  intros A B f l N. induction N as [|a l Ha N IH]; intros H1 H2; simpl; [constructor|].
  assert (App : forall u v : list B, NoDup u -> NoDup v -> (forall x, In x u -> ~ In x v) -> NoDup (u ++ v)).
  { induction u as [|x u IHu]; intros v Nu Nv D; simpl; [assumption|]. apply NoDup_cons_iff in Nu. destruct Nu as [N1 N2]. constructor.
    - rewrite in_app_iff. intros [?|?]; [contradiction|]. apply (D x); [left; reflexivity|assumption].
    - apply IHu; auto. intros y Hy. apply D. right. assumption. }
  apply App.
  - apply H1. left; reflexivity.
  - apply IH; [intros; apply H1; right; assumption|]. intros b c x Hb Hc. apply H2; right; assumption.
  - intros x Hx Hy. apply in_flat_map in Hy. destruct Hy as [b [Hb Hxb]].
    assert (a = b) by (apply (H2 a b x); auto; [left; reflexivity|right; assumption]). congruence.
Qed.
Lemma map_flat_map : forall {A B C} (g : B -> C) (f : A -> list B) l, map g (flat_map f l) = flat_map (fun a => map g (f a)) l.
Proof. intros. induction l as [|a l IH]; simpl; [reflexivity|]. rewrite map_app, IH. reflexivity. Qed.

Lemma trips_rows : Permutation (map (fun t : triplet => fst (fst t)) (trips post)) (seq 0 pre).
Proof.
  assert (Hb : forall k, k < post -> forall r c v, In (r, c, v) (block k) -> c = k /\ In (r, c, v) (trips post)).
  { intros k Hk r c v H. assert (In (r, c, v) (trips post)) by (unfold trips; apply in_flat_map; exists k; split; [apply in_seq; lia|assumption]).
    split; [|assumption]. unfold block in H. destruct H as [H|H]; [congruence|].
    destruct (group_at (nth k (ns pre) 0)); [|destruct H]. unfold partners in H. apply in_map_iff in H. destruct H as [d [E _]]. congruence. }
  apply NoDup_Permutation.
  - unfold trips. rewrite map_flat_map. apply nodup_flat_map; [apply seq_NoDup| |].
    + intros k Hk. apply in_seq in Hk. unfold block. simpl. destruct (group_at (nth k (ns pre) 0)) as [g|] eqn:Eg; simpl.
      * unfold group_at in Eg. apply find_some in Eg. destruct Eg as [Hg Kg]. apply Nat.eqb_eq in Kg. unfold partners. rewrite map_map. simpl.
        rewrite map_id. rewrite <- Kg. pose proof (group_nodup ids g (gk_disjoint _ _ K) Hg) as N.
        destruct (group_shape g Hg) as [d [x [q [E Kd]]]]. rewrite Kd, E in *. assumption.
      * constructor; [intros []|constructor].
    + intros k m x Hk Hm Ix Iy. apply in_seq in Hk. apply in_seq in Hm. apply in_map_iff in Ix. apply in_map_iff in Iy.
      destruct Ix as [[[r c] v] [Er Ir]], Iy as [[[r' c'] v'] [Er' Ir']]. simpl in Er, Er'. subst r r'.
      destruct (Hb k ltac:(lia) _ _ _ Ir) as [Ek Tk]. destruct (Hb m ltac:(lia) _ _ _ Ir') as [Em Tm]. subst c c'.
      apply (trip_same _ _ _ _ _ _ Tk Tm). left. reflexivity.
  - apply seq_NoDup.
  - intros r. rewrite in_map_iff, in_seq. split.
    + intros [[[r0 c] v] [E I]]. simpl in E. subst r0. apply trips_in in I. destruct I as [Hc [[-> _]|[g [Hg [_ [Tg _]]]]]].
      * apply ns_nth_in in Hc. apply ns_in in Hc. lia.
      * assert (r < pre) by (apply slave_lt; exists g; auto). lia.
    + intros [_ Hr]. destruct (trip_exists r Hr) as [c [v I]]. exists (r, c, v). auto.
Qed.

Lemma sum_tl : forall l : list group, length (flat_map (fun g => tl (fst g)) l) = n_slaves l.
Proof.
  induction l as [|g l IH]; [reflexivity|]. simpl. rewrite app_length, IH. unfold n_slaves. simpl. destruct (fst g); simpl; lia.
Qed.
Lemma post_dim : post + n_slaves ids = pre.
Proof.
  assert (P : Permutation (ns pre ++ flat_map (fun g => tl (fst g)) ids) (seq 0 pre)).
  { apply NoDup_Permutation.
    - assert (App : forall u v : list nat, NoDup u -> NoDup v -> (forall x, In x u -> ~ In x v) -> NoDup (u ++ v)).
      { induction u as [|x u IHu]; intros v Nu Nv D; simpl; [assumption|]. apply NoDup_cons_iff in Nu. destruct Nu as [N1 N2]. constructor.
        - rewrite in_app_iff. intros [?|?]; [contradiction|]. apply (D x); [left; reflexivity|assumption].
        - apply IHu; auto. intros y Hy. apply D. right. assumption. }
      apply App; [apply ns_nodup| |].
      + apply nodup_flat_map; [apply ids_nodup| |].
        * intros g Hg. pose proof (group_nodup ids g (gk_disjoint _ _ K) Hg) as N. destruct (fst g); [constructor|]. apply NoDup_cons_iff in N. apply N.
        * intros g h x Hg Hh Ix Iy. apply (group_unique ids g h x (gk_disjoint _ _ K)); auto using tl_in.
      + intros x Hx Hy. apply ns_in in Hx. apply (proj2 Hx). apply in_flat_map in Hy. destruct Hy as [g [Hg Tg]]. exists g. auto.
    - apply seq_NoDup.
    - intros r. rewrite in_app_iff, ns_in, in_flat_map, in_seq. split.
      + intros [[? _]|[g [Hg Tg]]]; [lia|]. assert (r < pre) by (apply slave_lt; exists g; auto). lia.
      + intros [_ Hr]. destruct (free r) eqn:F.
        * left. split; [assumption|]. apply free_iff; assumption.
        * right. assert (S : slave ids r).
          { apply Hsl. unfold on. rewrite sl_get by assumption. unfold free in F. destruct (nth r sl false); [reflexivity|discriminate]. }
          destruct S as [g Sg]. exists g. assumption. }
  apply Permutation_length in P. rewrite app_length, seq_length, sum_tl in P. unfold post. assumption.
Qed.

Lemma trips_glue : glues pre post ids (trips post).
Proof.
  assert (Free : forall c, c < post -> ~ slave ids (nth c (ns pre) 0)) by (intros c Hc; apply ns_in, ns_nth_in; assumption).
  split.
  - apply post_dim.
  - apply trips_rows.
  - intros c. split.
    + intros Hc. exists (nth c (ns pre) 0), 1%Z. apply trips_in. auto.
    + intros [r [v I]]. apply trips_in in I. apply I.
  - apply trip_same.
  - intros r c v I S. apply trips_in in I. destruct I as [_ [[_ ->]|[g [Hg [_ [Tg _]]]]]]; [reflexivity|]. exfalso. apply S. exists g. auto.
  - intros r c v g I Hg Tg. apply trips_in in I. destruct I as [Hc [[-> _]|[h [Hh [_ [Th ->]]]]]].
    + exfalso. apply (Free c Hc). exists g. auto.
    + f_equal. apply (group_unique ids h g r (gk_disjoint _ _ K)); auto using tl_in.
  - intros r c v r' c' v' I I' S S'. apply trips_in in I. apply trips_in in I'.
    destruct I as [Hc [[-> _]|[g [Hg [_ [Tg _]]]]]]; [|exfalso; apply S; exists g; auto].
    destruct I' as [Hc' [[-> _]|[g [Hg [_ [Tg _]]]]]]; [|exfalso; apply S'; exists g; auto].
    assert (So : StronglySorted lt (ns pre)) by (apply filter_sorted, seq_sorted).
    split; intros H.
    + apply strict_nth; auto.
    + destruct (lt_eq_lt_dec c c') as [[L|E]|L]; [assumption|subst; lia|].
      pose proof (strict_nth (ns pre) c' c So L Hc). lia.
Qed.
End Mat.

Lemma assemble_ok : forall pre ids, groups_ok pre ids ->
  exists post trips, assemble_glue pre ids = Some (pre, post, trips) /\ glues pre post ids trips.
Proof.
  intros pre ids K. unfold assemble_glue.
  destruct (mark_all pre ids K ids (repeat false pre, repeat false pre, 0)) as [m [E [L1 [L2 [S [M Ks]]]]]].
  { intros g Hg. assumption. } { apply repeat_length. } { apply repeat_length. }
  rewrite E. cbn [bind]. destruct m as [[sl ma] k]. cbn [fst snd] in *.
  assert (Z : forall r, ~ on (repeat false pre) r).
  { intros r H. unfold on, get in H. apply nth_error_In in H. apply repeat_spec in H. discriminate. }
  assert (Hsl : forall r, on sl r <-> slave ids r) by (intros r; rewrite S; specialize (Z r); tauto).
  assert (Hma : forall r, on ma r <-> master ids r) by (intros r; rewrite M; specialize (Z r); tauto).
  pose proof (trips_glue pre ids K sl ma L1 L2 Hsl Hma) as G. pose proof (gl_dim _ _ _ _ G) as D.
  assert (Hk : k = n_slaves ids) by lia. rewrite Hk. clear Hk Ks.
  rewrite (proj2 (Nat.leb_le (n_slaves ids) pre)) by lia. cbn [assert bind].
  replace (pre - n_slaves ids) with (length (ns sl pre)) by lia.
  destruct (glue_loop pre ids K sl ma L1 L2 Hsl Hma (length (ns sl pre)) ltac:(lia)) as [skip [Eg _]]. rewrite Eg. cbn [bind].
  pose proof (gl_rows _ _ _ _ G) as P. apply Permutation_length in P. rewrite map_length, seq_length in P.
  match goal with |- context [Nat.eqb ?a pre] => replace a with pre by (symmetry; exact P) end.
  rewrite Nat.eqb_refl. cbn [assert bind]. eauto.
Qed.
