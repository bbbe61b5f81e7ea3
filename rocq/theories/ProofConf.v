(** Conformity of the refined mesh: the combinatorial invariant (C18). *)
From Coq Require Import List Arith Bool Lia.
From Verif Require Import ModelBase ModelTree SpecTree ProofTree.
Import ListNotations.

Lemma lt4 : forall i, i < 4 -> i = 0 \/ i = 1 \/ i = 2 \/ i = 3.
Proof. intros. lia. Qed.
Ltac four H := let K := fresh in pose proof (lt4 _ H) as K; clear H; destruct K as [->|[->|[->| ->]]].

Definition nx (k : nat) : nat := (k + 1) mod 4.
Lemma nx_lt : forall k, nx k < 4.
Proof. intros. apply Nat.mod_upper_bound. lia. Qed.

(** vertices and refinement state of a tree, abstractly *)
Section Static.
Variable vx : addr -> nat -> nat.
Variables ex rf : addr -> Prop.

Definition same_edge (a : addr) (i : nat) (b : addr) (j : nat) : Prop :=
  (vx a i = vx b j /\ vx a (nx i) = vx b (nx j)) \/ (vx a i = vx b (nx j) /\ vx a (nx i) = vx b j).
Definition mid (d : addr) (k : nat) : nat := vx (k :: d) (nx k).
Definition ctr (d : addr) : nat := vx (0 :: d) 2.

Lemma same_edge_refl : forall a i, same_edge a i a i.
Proof. intros. left. auto. Qed.
Lemma same_edge_sym : forall a i b j, same_edge a i b j -> same_edge b j a i.
Proof. unfold same_edge. intros. destruct H as [[-> ->]|[-> ->]]; auto. Qed.
Lemma same_edge_trans : forall a i b j c k, same_edge a i b j -> same_edge b j c k -> same_edge a i c k.
Proof. unfold same_edge. intros a i b j c k [[-> ->]|[-> ->]] [[-> ->]|[-> ->]]; auto. Qed.

Definition distinct4 (a : addr) : Prop := forall i j, i < 4 -> j < 4 -> vx a i = vx a j -> i = j.
Definition two_slots (l : nat) : Prop := forall a i b j c k,
  ex a -> ex b -> ex c -> length a = l -> length b = l -> length c = l -> i < 4 -> j < 4 -> k < 4 ->
  same_edge a i b j -> same_edge a i c k -> (a, i) = (b, j) \/ (a, i) = (c, k) \/ (b, j) = (c, k).
Definition one_edge (l : nat) : Prop := forall a i j b i' j',
  ex a -> ex b -> length a = l -> length b = l -> a <> b -> i < 4 -> j < 4 -> i' < 4 -> j' < 4 ->
  same_edge a i b j -> same_edge a i' b j' -> i = i'.
Definition good_level (l : nat) : Prop :=
  (forall a, ex a -> length a = l -> distinct4 a) /\ two_slots l /\ one_edge l.

Record conf (N : nat) : Prop := {
  cf_root : ~ ex [];
  cf_son : forall i d, d <> [] -> (ex (i :: d) <-> i < 4 /\ rf d);
  cf_ref : forall d, rf d -> ex d;
  cf_v : forall d i, rf d -> i < 4 -> vx (i :: d) i = vx d i /\ vx (i :: d) (nx (nx i)) = ctr d /\
         vx (i :: d) (nx (nx (nx i))) = mid d (nx (nx (nx i)));
  cf_lt : forall a k, ex a -> k < 4 -> vx a k < N;
  cf_m1 : forall d k d' k', rf d -> rf d' -> length d = length d' -> k < 4 -> k' < 4 ->
          (mid d k = mid d' k' <-> same_edge d k d' k');
  cf_m2 : forall d c k m, rf d -> ex c -> length c <= length d -> k < 4 -> m < 4 ->
          vx c m <> mid d k /\ vx c m <> ctr d;
  cf_m3 : forall d d', rf d -> rf d' -> length d = length d' ->
          (ctr d = ctr d' -> d = d') /\ (forall k, k < 4 -> ctr d <> mid d' k);
  cf_patch : good_level 1 }.

Variable N : nat.
Hypothesis C : conf N.

(** the edge numbers of the sons *)
Definition outer (k i m : nat) : Prop := m = k /\ (i = k \/ i = nx k).
Definition inner (k i m : nat) : Prop := (i = k /\ m = nx k) \/ (i = nx k /\ m = nx (nx (nx k))).

Lemma son_slot : forall d i m, rf d -> i < 4 -> m < 4 ->
  exists k x, k < 4 /\
    ((outer k i m /\ x = vx d i /\ ((vx (i :: d) m = x /\ vx (i :: d) (nx m) = mid d k) \/ (vx (i :: d) m = mid d k /\ vx (i :: d) (nx m) = x))) \/
     (inner k i m /\ x = ctr d /\ ((vx (i :: d) m = x /\ vx (i :: d) (nx m) = mid d k) \/ (vx (i :: d) m = mid d k /\ vx (i :: d) (nx m) = x)))).
Proof.
  intros d i m R Hi Hm.
  assert (V : forall i, i < 4 -> vx (i :: d) i = vx d i /\ vx (i :: d) (nx (nx i)) = ctr d /\
         vx (i :: d) (nx (nx (nx i))) = mid d (nx (nx (nx i)))) by (intros; apply (cf_v N C); assumption).
  pose proof (V 0 ltac:(lia)) as V0. pose proof (V 1 ltac:(lia)) as V1. pose proof (V 2 ltac:(lia)) as V2.
  pose proof (V 3 ltac:(lia)) as V3. clear V.
  cbn [nx Nat.add Nat.modulo Nat.divmod snd fst Nat.sub] in V0, V1, V2, V3. unfold nx in V0, V1, V2, V3. simpl in V0, V1, V2, V3.
  destruct V0 as [A0 [B0 D0]], V1 as [A1 [B1 D1]], V2 as [A2 [B2 D2]], V3 as [A3 [B3 D3]].
  four Hi; four Hm; unfold outer, inner, nx; simpl.
  - exists 0, (vx d 0). split; [lia|]. left. auto 10.
  - exists 0, (ctr d). split; [lia|]. right. unfold mid, nx; simpl. auto 10.
  - exists 3, (ctr d). split; [lia|]. right. auto 10.
  - exists 3, (vx d 0). split; [lia|]. left. auto 10.
  - exists 0, (vx d 1). split; [lia|]. left. auto 10.
  - exists 1, (vx d 1). split; [lia|]. left. auto 10.
  - exists 1, (ctr d). split; [lia|]. right. auto 10.
  - exists 0, (ctr d). split; [lia|]. right. auto 10.
  - exists 1, (ctr d). split; [lia|]. right. auto 10.
  - exists 1, (vx d 2). split; [lia|]. left. auto 10.
  - exists 2, (vx d 2). split; [lia|]. left. auto 10.
  - exists 2, (ctr d). split; [lia|]. right. auto 10.
  - exists 3, (ctr d). split; [lia|]. right. auto 10.
  - exists 2, (ctr d). split; [lia|]. right. auto 10.
  - exists 2, (vx d 3). split; [lia|]. left. auto 10.
  - exists 3, (vx d 3). split; [lia|]. left. auto 10.
Qed.

Lemma outer_inner : forall k k' i m, k < 4 -> k' < 4 -> i < 4 -> m < 4 -> outer k i m -> inner k' i m -> False.
Proof.
  intros k k' i m Hk Hk' Hi Hm. unfold outer, inner, nx.
  four Hk; four Hk'; simpl; intros [-> [->| ->]] [[A B]|[A B]]; lia.
Qed.
Lemma inner_fun : forall k k' i m, k < 4 -> k' < 4 -> inner k i m -> inner k' i m -> k = k'.
Proof. intros k k' i m Hk Hk'. unfold inner, nx. four Hk; four Hk'; simpl; lia. Qed.
Lemma inner_slot : forall k i m m', k < 4 -> inner k i m -> inner k i m' -> m = m'.
Proof. intros k i m m' Hk. unfold inner, nx. four Hk; simpl; lia. Qed.
Lemma inner_two : forall k i m i' m' i'' m'', k < 4 -> inner k i m -> inner k i' m' -> inner k i'' m'' ->
  (i = i' /\ m = m') \/ (i = i'' /\ m = m'') \/ (i' = i'' /\ m' = m'').
Proof. intros k i m i' m' i'' m'' Hk. unfold inner, nx. four Hk; simpl; lia. Qed.
Lemma inner_pair : forall k k' i i' m n m' n', k < 4 -> k' < 4 -> i <> i' ->
  inner k i m -> inner k i' n -> inner k' i m' -> inner k' i' n' -> k = k'.
Proof. intros k k' i i' m n m' n' Hk Hk' Hne. unfold inner, nx. four Hk; four Hk'; simpl; lia. Qed.

Lemma distinct_edges : forall d k k', distinct4 d -> k < 4 -> k' < 4 -> same_edge d k d k' -> k = k'.
Proof.
  intros d k k' D Hk Hk' [[A _]|[A B]]; [apply D; assumption|].
  apply D in A; [|assumption|apply nx_lt]. apply D in B; [|apply nx_lt|assumption].
  revert A B. unfold nx. four Hk; four Hk'; simpl; lia.
Qed.

(** two sons of refined nodes of the same level share an edge only where the fathers do, or inside *)
Lemma son_same : forall d i m d' i' m', rf d -> rf d' -> length d = length d' -> i < 4 -> m < 4 -> i' < 4 -> m' < 4 ->
  distinct4 d ->
  same_edge (i :: d) m (i' :: d') m' ->
  (outer m i m /\ outer m' i' m' /\ same_edge d m d' m' /\ vx d i = vx d' i') \/
  (d = d' /\ exists k, k < 4 /\ inner k i m /\ inner k i' m').
Proof.
  intros d i m d' i' m' R R' L Hi Hm Hi' Hm' D S.
  destruct (son_slot d i m R Hi Hm) as [k [x [Hk K]]].
  destruct (son_slot d' i' m' R' Hi' Hm') as [k' [x' [Hk' K']]].
  pose proof (cf_ref N C d R) as Xd. pose proof (cf_ref N C d' R') as Xd'.
  (* x is not a mid point of d', nor x' of d *)
  assert (Hx : x <> mid d' k' /\ x' <> mid d k).
  { split.
    - destruct K as [[_ [-> _]]|[_ [-> _]]].
      + apply (cf_m2 N C d' d k' i); auto; lia.
      + apply (cf_m3 N C d d'); auto.
    - destruct K' as [[_ [-> _]]|[_ [-> _]]].
      + apply (cf_m2 N C d d' k i'); auto; lia.
      + apply (cf_m3 N C d' d); auto. }
  assert (E : x = x' /\ mid d k = mid d' k').
  { unfold same_edge in S. destruct Hx as [Hx1 Hx2].
    destruct K as [[_ [_ [[A B]|[A B]]]]|[_ [_ [[A B]|[A B]]]]]; destruct K' as [[_ [_ [[A' B']|[A' B']]]]|[_ [_ [[A' B']|[A' B']]]]];
      rewrite A, B, A', B' in S; destruct S as [[S1 S2]|[S1 S2]]; split; congruence. }
  destruct E as [Ex Em].
  apply (cf_m1 N C d k d' k') in Em; auto.
  destruct K as [[O [E1 _]]|[I [E1 _]]]; destruct K' as [[O' [E1' _]]|[I' [E1' _]]].
  - left. destruct O as [-> O], O' as [-> O']. repeat split; auto; congruence.
  - exfalso. rewrite E1, E1' in Ex. apply (cf_m2 N C d' d k' i) in Ex; auto; lia.
  - exfalso. rewrite E1, E1' in Ex. symmetry in Ex. apply (cf_m2 N C d d' k i') in Ex; auto; lia.
  - right. rewrite E1, E1' in Ex. assert (d = d') by (apply (cf_m3 N C d d'); auto). subst d'.
    split; [reflexivity|]. apply distinct_edges in Em; auto. subst k'. exists k. auto.
Qed.

Lemma ex_son : forall a l, ex a -> length a = S (S l) -> exists i d, a = i :: d /\ i < 4 /\ rf d /\ length d = S l.
Proof.
  intros a l X L. destruct a as [|i d]; [discriminate|]. simpl in L. exists i, d.
  assert (Hd : d <> []) by (intros ->; discriminate).
  apply (cf_son N C i d Hd) in X. destruct X. auto.
Qed.

Lemma good_step : forall l, good_level (S l) -> good_level (S (S l)).
Proof.
  intros l [G1 [G2 G3]].
  assert (Hd : forall d, rf d -> length d = S l -> distinct4 d).
  { intros d R L. apply G1; [apply (cf_ref N C); assumption|assumption]. }
  assert (Hv : forall d i i', distinct4 d -> i < 4 -> i' < 4 -> vx d i = vx d i' -> i = i').
  { intros. apply H; auto. }
  split; [|split].
  - intros a X L. destruct (ex_son a l X L) as [i [d [-> [Hi [R Ld]]]]].
    pose proof (Hd d R Ld) as D. pose proof (cf_ref N C d R) as Xd.
    destruct (cf_v N C d i R Hi) as [A [B B']].
    assert (M : mid d i <> mid d (nx (nx (nx i)))).
    { intros E. apply (cf_m1 N C) in E; auto using nx_lt. apply distinct_edges in E; auto using nx_lt.
      revert E. unfold nx. four Hi; simpl; lia. }
    pose proof (fun k => cf_m2 N C d d k i R Xd (le_n _)) as M2.
    pose proof (fun k Hk => proj2 (cf_m3 N C d d R R eq_refl) k Hk) as M3.
    pose proof (proj1 (M2 i Hi Hi)) as P1. pose proof (proj2 (M2 i Hi Hi)) as P2.
    pose proof (proj1 (M2 (nx (nx (nx i))) (nx_lt _) Hi)) as P3.
    pose proof (M3 i Hi) as P4. pose proof (M3 (nx (nx (nx i))) (nx_lt _)) as P5.
    unfold mid at 1 in M. unfold mid at 1 in P1. unfold mid at 1 in P4.
    rewrite <- A in P1, P2, P3. rewrite <- B in P2, P4, P5. rewrite <- B' in P3, P5, M.
    intros j j' Hj Hj' E. clear -M P1 P2 P3 P4 P5 Hi Hj Hj' E. unfold nx in *.
    four Hi; simpl in *; four Hj; four Hj'; try reflexivity; congruence.
  - intros a i b j c k Xa Xb Xc La Lb Lc Hi Hj Hk S1 S2.
    destruct (ex_son a l Xa La) as [ia [da [-> [Hia [Ra Lda]]]]].
    destruct (ex_son b l Xb Lb) as [ib [db [-> [Hib [Rb Ldb]]]]].
    destruct (ex_son c l Xc Lc) as [ic [dc [-> [Hic [Rc Ldc]]]]].
    apply son_same in S1; auto; [|lia]. apply son_same in S2; auto; [|lia].
    destruct S1 as [[O1 [O1' [S1 V1]]]|[<- [k1 [K1 [I1 I1']]]]]; destruct S2 as [[O2 [O2' [S2 V2]]]|[<- [k2 [K2 [I2 I2']]]]].
    + destruct (G2 da i db j dc k) as [E|[E|E]]; auto using (cf_ref N C).
      * injection E as <- <-. left. f_equal. f_equal. eapply Hv; eauto.
      * injection E as <- <-. right; left. f_equal. f_equal. eapply Hv; eauto.
      * injection E as <- <-. right; right. f_equal. f_equal. eapply (Hv db); eauto. congruence.
    + exfalso. eapply (outer_inner i k2 ia i); eauto.
    + exfalso. eapply (outer_inner i k1 ia i); eauto.
    + pose proof (inner_fun k1 k2 ia i K1 K2 I1 I2). subst k2.
      destruct (inner_two k1 ia i ib j ic k K1 I1 I1' I2') as [[-> ->]|[[-> ->]|[-> ->]]]; auto.
  - intros a i j b i' j' Xa Xb La Lb Hne Hi Hj Hi' Hj' S1 S2.
    destruct (ex_son a l Xa La) as [ia [da [-> [Hia [Ra Lda]]]]].
    destruct (ex_son b l Xb Lb) as [ib [db [-> [Hib [Rb Ldb]]]]].
    apply son_same in S1; auto; [|lia]. apply son_same in S2; auto; [|lia].
    assert (Hsame : forall m m', m < 4 -> m' < 4 -> da = db -> same_edge da m db m' -> vx da ia = vx db ib -> False).
    { intros m m' Hm Hm' E Sm Vm. subst db. apply Hne. f_equal. eapply Hv; eauto. }
    destruct S1 as [[O1 [O1' [S1 V1]]]|[E1 [k1 [K1 [I1 I1']]]]]; destruct S2 as [[O2 [O2' [S2 V2]]]|[E2 [k2 [K2 [I2 I2']]]]].
    + destruct (list_eq_dec Nat.eq_dec da db) as [E|E]; [destruct (Hsame i j); auto|].
      eapply (G3 da i j db i' j'); auto using (cf_ref N C).
    + destruct (Hsame i j); auto.
    + destruct (Hsame i' j'); auto.
    + subst db. assert (ia <> ib) by congruence.
      pose proof (inner_pair k1 k2 ia ib i j i' j' K1 K2 H I1 I1' I2 I2'). subst k2. exact (inner_slot k1 ia i i' K1 I1 I2).
Qed.

Lemma good_all : forall l, good_level (S l).
Proof. induction l; [apply (cf_patch N C)|apply good_step; assumption]. Qed.

End Static.
