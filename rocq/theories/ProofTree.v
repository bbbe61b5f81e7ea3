(** Structure of the element tree under arbitrary refinement histories. *)
From Coq Require Import List Arith Bool Lia QArith.
From Verif Require Import ModelBase ModelTree SpecTree.
Import ListNotations.
Local Close Scope Q_scope.
Local Open Scope nat_scope.

(** ** addresses and stores *)
Lemma addr_eqb_refl : forall a, addr_eqb a a = true.
Proof. intros. unfold addr_eqb. destruct (list_eq_dec Nat.eq_dec a a); congruence. Qed.
Lemma addr_eqb_eq : forall a b, addr_eqb a b = true <-> a = b.
Proof. intros. unfold addr_eqb. destruct (list_eq_dec Nat.eq_dec a b); split; congruence. Qed.
Lemma addr_eqb_neq : forall a b, a <> b -> addr_eqb a b = false.
Proof. intros. unfold addr_eqb. destruct (list_eq_dec Nat.eq_dec a b); congruence. Qed.
Lemma ptr_eqb_eq : forall p q, ptr_eqb p q = true <-> p = q.
Proof.
  intros [a|] [b|]; simpl; try (split; congruence).
  rewrite addr_eqb_eq. split; congruence.
Qed.
Lemma ptr_eqb_neq : forall p q, p <> q -> ptr_eqb p q = false.
Proof. intros p q H. destruct (ptr_eqb p q) eqn:E; [apply ptr_eqb_eq in E; congruence|reflexivity]. Qed.
Lemma sset_same : forall s a n, sset s a n a = Some n.
Proof. intros. unfold sset. rewrite addr_eqb_refl. reflexivity. Qed.
Lemma sset_other : forall s a n b, b <> a -> sset s a n b = s b.
Proof. intros. unfold sset. rewrite addr_eqb_neq by assumption. reflexivity. Qed.
Lemma cons_neq : forall (i : nat) (a : addr), i :: a <> a.
Proof. intros i a H. apply (f_equal (@length nat)) in H. simpl in H. lia. Qed.
Lemma cons_neq' : forall (i : nat) (a : addr), a <> i :: a.
Proof. intros i a H. symmetry in H. revert H. apply cons_neq. Qed.

(** ** updateTopology only changes neighbour pointers *)
Definition adjusted (els : list addr) (s s' : store) : Prop :=
  forall b, match s b, s' b with
            | Some n, Some n' => exists l', n' = with_adj n l' /\ length l' = length (n_adj n)
                /\ (forall c, In (Some c) l' -> In (Some c) (n_adj n) \/ In c els)
            | None, None => True
            | _, _ => False
            end.

Lemma adjusted_refl : forall els s, adjusted els s s.
Proof.
  intros els s b. destruct (s b) as [n|]; [|exact I]. exists (n_adj n).
  split; [destruct n; reflexivity|]. split; [reflexivity|]. intros c H; left; assumption.
Qed.

Lemma adjusted_trans : forall els s1 s2 s3, adjusted els s1 s2 -> adjusted els s2 s3 -> adjusted els s1 s3.
Proof.
  intros els s1 s2 s3 H1 H2 b. specialize (H1 b). specialize (H2 b).
  destruct (s1 b) as [n1|], (s2 b) as [n2|], (s3 b) as [n3|]; try tauto.
  destruct H1 as [l1 [E1 [L1 I1]]]. destruct H2 as [l2 [E2 [L2 I2]]].
  exists l2. subst n2. simpl in L2, I2. split; [rewrite E2; reflexivity|]. split; [lia|].
  intros c Hc. destruct (I2 c Hc) as [H|H]; [|right; assumption]. apply I1; assumption.
Qed.

Lemma In_nth_set : forall {A} (v : list A) i x v', set v i x = Some v' ->
  forall y, In y v' -> y = x \/ In y v.
Proof.
  intros A v. induction v as [|a v IH]; intros i x v' E y Hy; simpl in E; [discriminate|].
  destruct i as [|i].
  - injection E as <-. destruct Hy as [H|H]; [left; congruence|right; right; assumption].
  - destruct (set v i x) as [r|] eqn:Er; simpl in E; [|discriminate]. injection E as <-.
    destruct Hy as [H|H]; [right; left; assumption|].
    destruct (IH _ _ _ Er _ H); [left; assumption|right; right; assumption].
Qed.

Lemma set_adj_adjusted : forall els s a n j b, s a = Some n -> j < length (n_adj n) -> In b els ->
  exists s', set_adj s a j (Some b) = Some s' /\ adjusted els s s'.
Proof.
  intros els s a n j b Ea Hj Hb. unfold set_adj. rewrite Ea. simpl.
  destruct (set_spec (n_adj n) j (Some b) Hj) as [l [E [L N]]]. rewrite E. simpl.
  eexists. split; [reflexivity|]. intros c. unfold sset.
  destruct (addr_eqb c a) eqn:Ec.
  - apply addr_eqb_eq in Ec. subst c. rewrite Ea. exists l. split; [reflexivity|]. split; [assumption|].
    intros c Hc. destruct (In_nth_set _ _ _ _ E _ Hc) as [H|H]; [right; congruence|left; assumption].
  - apply adjusted_refl.
Qed.

Definition good_node (s : store) (a : addr) : Prop :=
  exists n, s a = Some n /\ length (n_verts n) = 4 /\ length (n_adj n) = 4.

Lemma good_adjusted : forall els s s' a, adjusted els s s' -> good_node s a -> good_node s' a.
Proof.
  intros els s s' a H [n [E [V L]]]. specialize (H a). rewrite E in H.
  destruct (s' a) as [n'|] eqn:E'; [|tauto]. destruct H as [l' [-> [L' _]]].
  eexists. split; [exact E'|]. simpl. split; [assumption|lia].
Qed.

Lemma edge_of_some : forall n j, length (n_verts n) = 4 -> j < 4 -> exists e, edge_of n j = Some e.
Proof.
  intros n j L Hj. unfold edge_of.
  rewrite (get_nth _ j 0) by lia. simpl.
  rewrite (get_nth _ ((j + 1) mod 4) 0) by (rewrite L; apply Nat.mod_upper_bound; lia). simpl.
  eexists; reflexivity.
Qed.

Lemma link_back_adjusted : forall els ks s b e a, good_node s b -> In a els ->
  (forall k, In k ks -> k < 4) ->
  exists s', link_back s b e a ks = Some s' /\ adjusted els s s'.
Proof.
  intros els ks. induction ks as [|k ks IH]; intros s b e a [n [E [V L]]] Ha Hk; simpl.
  - eexists. split; [reflexivity|]. apply adjusted_refl.
  - rewrite E. simpl. destruct (edge_of_some n k V (Hk k (or_introl eq_refl))) as [f Ef].
    rewrite Ef. simpl. destruct (edge_eqb e f).
    + apply (set_adj_adjusted els s b n k a E); [rewrite L; apply Hk; left; reflexivity|assumption].
    + apply IH; [exists n; auto|assumption|intros; apply Hk; right; assumption].
Qed.

Lemma find_edge_In : forall e edges b, find_edge e edges = Some b -> exists f, In (f, b) edges.
Proof.
  intros e edges. induction edges as [|[f a] r IH]; intros b H; simpl in H; [discriminate|].
  destruct (edge_eqb e f).
  - injection H as <-. exists f. left; reflexivity.
  - destruct (IH b H) as [g Hg]. exists g. right; assumption.
Qed.

Definition topo_ok (els : list addr) (s0 : store) (se : store * list ((nat * nat) * addr)) : Prop :=
  adjusted els s0 (fst se) /\ (forall f b, In (f, b) (snd se) -> In b els).

Lemma topo_step_ok : forall els s0 a j se, (forall b, In b els -> good_node s0 b) -> In a els -> j < 4 ->
  topo_ok els s0 se -> exists se', topo_step a j se = Some se' /\ topo_ok els s0 se'.
Proof.
  intros els s0 a j [s edges] G Ha Hj [A I]. simpl in A, I. unfold topo_step.
  destruct (good_adjusted _ _ _ a A (G a Ha)) as [n [E [V L]]]. rewrite E. cbn [bind].
  destruct (edge_of_some n j V Hj) as [e Ee]. rewrite Ee. cbn [bind].
  destruct (find_edge e edges) as [b|] eqn:Ef.
  - destruct (find_edge_In _ _ _ Ef) as [f Hf]. assert (Hb : In b els) by (eapply I; exact Hf).
    destruct (set_adj_adjusted els s a n j b E) as [s1 [E1 A1]]; [lia|assumption|].
    rewrite E1. cbn [bind].
    destruct (link_back_adjusted els [0;1;2;3] s1 b e a) as [s2 [E2 A2]].
    { apply (good_adjusted els s0); [eapply adjusted_trans; eassumption|apply G; assumption]. }
    { assumption. }
    { simpl. intros k Hk. repeat destruct Hk as [<-|Hk]; try lia; tauto. }
    rewrite E2. cbn [bind]. eexists. split; [reflexivity|]. split; simpl; [|assumption].
    eapply adjusted_trans; [|exact A2]. eapply adjusted_trans; eassumption.
  - eexists. split; [reflexivity|]. split; simpl; [assumption|].
    intros f b Hb. apply in_app_or in Hb. destruct Hb as [Hb|[Hb|[]]]; [eapply I; exact Hb|congruence].
Qed.

Lemma topo_elements_ok : forall els s0 l se, (forall b, In b els -> good_node s0 b) -> incl l els ->
  topo_ok els s0 se -> exists se', topo_elements l se = Some se' /\ topo_ok els s0 se'.
Proof.
  intros els s0 l. induction l as [|a l IH]; intros se G Hl K.
  - exists se; auto.
  - change (topo_elements (a :: l) se) with (se' <- topo_element a se ;; topo_elements l se').
    unfold topo_element.
    destruct (for_opt_inv (fun _ x => topo_ok els s0 x) 4 (topo_step a) se) as [se1 [E1 K1]].
    + assumption.
    + intros i x Hi Kx. apply topo_step_ok; auto. apply Hl. left; reflexivity.
    + rewrite E1. cbn [bind]. apply IH; auto. intros b Hb. apply Hl. right; assumption.
Qed.

Lemma update_topology_ok : forall els s, (forall b, In b els -> good_node s b) ->
  exists s', update_topology s els = Some s' /\ adjusted els s s'.
Proof.
  intros els s G. unfold update_topology.
  destruct (topo_elements_ok els s els (s, [])) as [se [E K]].
  - assumption.
  - apply incl_refl.
  - split; simpl; [apply adjusted_refl|tauto].
  - rewrite E. simpl. eexists. split; [reflexivity|]. apply K.
Qed.

(** ** doubly linked list segments *)
Definition hd_or (l : list addr) (d : option addr) : option addr :=
  match l with [] => d | a :: _ => Some a end.
Fixpoint last_or (l : list addr) (d : option addr) : option addr :=
  match l with [] => d | a :: r => last_or r (Some a) end.

Fixpoint seg (s : store) (pr : option addr) (l : list addr) (nx : option addr) : Prop :=
  match l with
  | [] => True
  | a :: r => (exists n, s a = Some n /\ n_prev n = pr /\ n_next n = hd_or r nx) /\ seg s (Some a) r nx
  end.

Lemma last_or_app : forall l1 l2 d, last_or (l1 ++ l2) d = last_or l2 (last_or l1 d).
Proof. induction l1; intros; simpl; auto. Qed.
Lemma hd_or_app : forall l1 l2 d, hd_or (l1 ++ l2) d = hd_or l1 (hd_or l2 d).
Proof. destruct l1; intros; simpl; auto. Qed.

Lemma seg_app : forall s l1 l2 pr nx,
  seg s pr (l1 ++ l2) nx <-> seg s pr l1 (hd_or l2 nx) /\ seg s (last_or l1 pr) l2 nx.
Proof.
  intros s l1. induction l1 as [|a l1 IH]; intros l2 pr nx; simpl; [tauto|].
  rewrite hd_or_app, IH. tauto.
Qed.

Definition same_links (n n' : node) : Prop := n_prev n' = n_prev n /\ n_next n' = n_next n.

Lemma seg_frame : forall s s' l pr nx,
  (forall a n, In a l -> s a = Some n -> exists n', s' a = Some n' /\ same_links n n') ->
  seg s pr l nx -> seg s' pr l nx.
Proof.
  intros s s' l. induction l as [|a l IH]; intros pr nx H Hs; simpl in *; [exact I|].
  destruct Hs as [[n [E [Hp Hn]]] Hs]. split.
  - destruct (H a n (or_introl eq_refl) E) as [n' [E' [A B]]]. exists n'. repeat split; congruence.
  - apply IH; [|assumption]. intros; eapply H; [right|]; eassumption.
Qed.

Lemma seg_in : forall s l pr nx a, seg s pr l nx -> In a l -> exists n, s a = Some n.
Proof.
  intros s l. induction l as [|b l IH]; intros pr nx a Hs Ha; simpl in *; [tauto|].
  destruct Hs as [[n [E _]] Hs]. destruct Ha as [<-|Ha]; [eauto|eapply IH; eassumption].
Qed.

Lemma last_or_cases : forall l d, (l = [] /\ last_or l d = d) \/
  exists l' b, l = l' ++ [b] /\ last_or l d = Some b.
Proof.
  intros l d. destruct l as [|a l] using rev_ind; [left; auto|].
  right. exists l, a. split; [reflexivity|]. rewrite last_or_app. reflexivity.
Qed.

(** setting next_ of the last element *)
Lemma set_next_seg : forall s l x nx, seg s None l nx -> NoDup l ->
  exists s', set_next s (last_or l None) x = Some s'
    /\ seg s' None l (Some x)
    /\ (forall b, last_or l None <> Some b -> s' b = s b)
    /\ (forall b n, s b = Some n -> exists n', s' b = Some n' /\ n_prev n' = n_prev n /\
          n' = with_next n (n_next n')).
Proof.
  intros s l x nx Hs Hd. destruct (last_or_cases l None) as [[-> E]|[l' [b [-> E]]]]; rewrite E.
  - exists s. simpl. repeat split; auto. intros b n H. exists n. split; [assumption|].
    split; [reflexivity|]. destruct n; reflexivity.
  - simpl. apply seg_app in Hs. destruct Hs as [H1 H2]. simpl in H2.
    destruct H2 as [[n [Eb [Hp Hn]]] _]. rewrite Eb. simpl. eexists. split; [reflexivity|].
    assert (Hb : ~ In b l') by (apply NoDup_remove_2 in Hd; rewrite app_nil_r in Hd; assumption).
    split; [|split].
    + apply seg_app. simpl. split.
      * eapply seg_frame; [|exact H1]. intros a m Ha Em. exists m.
        rewrite sset_other by congruence. split; [assumption|split; reflexivity].
      * split; [|exact I]. exists (with_next n (Some x)). rewrite sset_same. auto.
    + intros c Hc. apply sset_other. congruence.
    + intros c m Ec. destruct (list_eq_dec Nat.eq_dec c b) as [->|Hne].
      * rewrite Eb in Ec. injection Ec as <-. eexists. rewrite sset_same. split; [reflexivity|].
        split; reflexivity.
      * rewrite sset_other by assumption. exists m. split; [assumption|]. split; [reflexivity|].
        destruct m; reflexivity.
Qed.

(** setting prev_ of the first element *)
Lemma set_prev_seg : forall s l x pr, seg s pr l None -> NoDup l ->
  exists s', set_prev s (hd_or l None) x = Some s'
    /\ seg s' (Some x) l None
    /\ (forall b, hd_or l None <> Some b -> s' b = s b)
    /\ (forall b n, s b = Some n -> exists n', s' b = Some n' /\ n_next n' = n_next n /\
          n' = with_prev n (n_prev n')).
Proof.
  intros s l x pr Hs Hd. destruct l as [|b l]; simpl.
  - exists s. repeat split; auto. intros b n H. exists n. split; [assumption|].
    split; [reflexivity|]. destruct n; reflexivity.
  - simpl in Hs. destruct Hs as [[n [Eb [Hp Hn]]] Hs]. rewrite Eb. simpl.
    eexists. split; [reflexivity|]. apply NoDup_cons_iff in Hd. destruct Hd as [Hb Hd].
    split; [|split].
    + split; [exists (with_prev n (Some x)); rewrite sset_same; auto|].
      eapply seg_frame; [|exact Hs]. intros a m Ha Em. exists m.
      rewrite sset_other by congruence. split; [assumption|split; reflexivity].
    + intros c Hc. apply sset_other. congruence.
    + intros c m Ec. destruct (list_eq_dec Nat.eq_dec c b) as [->|Hne].
      * rewrite Eb in Ec. injection Ec as <-. eexists. rewrite sset_same. split; [reflexivity|].
        split; reflexivity.
      * rewrite sset_other by assumption. exists m. split; [assumption|]. split; [reflexivity|].
        destruct m; reflexivity.
Qed.
