From Coq Require Import List Arith Lia Reals Lra Permutation.
From Verif Require Import ModelBase ModelPar RSum.
Import ListNotations.
Local Open Scope nat_scope.

(** ** interleavings are permutations of all writes *)
Lemma interleave_perm : forall {W} (ts : list (list W)) ws, interleave ts ws -> Permutation (concat ts) ws.
Proof.
  intros W ts ws H. induction H as [ts H|ts1 w t ts2 ws H IH].
  - assert (concat ts = []) as ->; [|constructor].
    induction ts as [|t ts IH]; [reflexivity|]. simpl. rewrite (H t) by (left; reflexivity). apply IH.
    intros; apply H; right; assumption.
  - rewrite concat_app in *. simpl in *. symmetry. etransitivity; [apply perm_skip; symmetry; exact IH|].
    apply Permutation_middle.
Qed.

(** one schedule: the tasks one after the other *)
Lemma interleave_skip_nil : forall {W} (ts : list (list W)) ws, interleave ts ws -> interleave ([] :: ts) ws.
Proof.
  intros W ts ws H. induction H as [ts H|ts1 w t ts2 ws H IH].
  - constructor. intros t [<-|Ht]; auto.
  - exact (inter_step ([] :: ts1) w t ts2 ws IH).
Qed.
Lemma interleave_seq : forall {W} (ts : list (list W)), interleave ts (concat ts).
Proof.
  intros W ts. induction ts as [|t ts IH]; [constructor; intros ? []|].
  simpl. induction t as [|w t IHt]; simpl; [apply interleave_skip_nil; exact IH|].
  exact (inter_step [] w t ts _ IHt).
Qed.

(** ** sums over lists *)
Local Open Scope R_scope.
Fixpoint lsum {A} (f : A -> R) (l : list A) : R := match l with [] => 0 | a :: r => f a + lsum f r end.
Lemma lsum_app : forall {A} (f : A -> R) l l', lsum f (l ++ l') = lsum f l + lsum f l'.
Proof. intros A f l l'. induction l as [|a l IH]; simpl; [lra|]. rewrite IH. lra. Qed.
Lemma lsum_perm : forall {A} (f : A -> R) l l', Permutation l l' -> lsum f l = lsum f l'.
Proof. intros A f l l' H. induction H; simpl; lra. Qed.
Lemma lsum_ext : forall {A} (f g : A -> R) l, (forall a, In a l -> f a = g a) -> lsum f l = lsum g l.
Proof.
  intros A f g l H. induction l as [|a l IH]; [reflexivity|]. simpl. rewrite H by (left; reflexivity).
  rewrite IH by (intros; apply H; right; assumption). reflexivity.
Qed.
Lemma lsum_seq : forall f n, lsum f (seq 0 n) = rsum f n.
Proof.
  intros f n. induction n as [|n IH]; [reflexivity|]. rewrite seq_S, lsum_app, IH. simpl. lra.
Qed.
Lemma lsum_map : forall {A B} (f : B -> R) (g : A -> B) l, lsum f (map g l) = lsum (fun a => f (g a)) l.
Proof. intros A B f g l. induction l as [|a l IH]; simpl; [reflexivity|]. rewrite IH. reflexivity. Qed.
Lemma lsum_zero : forall {A} (f : A -> R) l, (forall a, In a l -> f a = 0) -> lsum f l = 0.
Proof.
  intros A f l H. induction l as [|a l IH]; [reflexivity|]. simpl. rewrite H, IH; [lra| |left; reflexivity].
  intros; apply H; right; assumption.
Qed.
Lemma lsum_plus : forall {A} (f g : A -> R) l, lsum (fun a => f a + g a) l = lsum f l + lsum g l.
Proof. intros A f g l. induction l as [|a l IH]; simpl; [lra|]. rewrite IH. lra. Qed.
Lemma lsum_scal : forall {A} c (f : A -> R) l, lsum (fun a => c * f a) l = c * lsum f l.
Proof. intros A c f l. induction l as [|a l IH]; simpl; [lra|]. rewrite IH. lra. Qed.
Lemma lsum_rsum : forall {A} (f : A -> nat -> R) l n, lsum (fun a => rsum (f a) n) l = rsum (fun i => lsum (fun a => f a i) l) n.
Proof.
  intros A f l n. induction l as [|a l IH]; simpl; [symmetry; apply rsum_zero; reflexivity|].
  rewrite IH, <- rsum_plus. reflexivity.
Qed.

(** ** teams: [val] is one observed entry of the accumulators and of the shared result *)
Section Team.
Context {A V : Type} (n : nat) (body : nat -> A -> A) (commit : A -> V -> V).
Variable valA : A -> R. Variable valV : V -> R. Variable c : nat -> R.
Hypothesis Hbody : forall i a, (i < n)%nat -> valA (body i a) = valA a + c i.
Hypothesis Hcommit : forall a v, valV (commit a v) = valV v + valA a.
(** what a thread still owes *)
Definition owed (x : nat * A) : R := if (fst x <=? n)%nat then valA (snd x) else 0.
Record inv (s : team A V) (base : R) : Prop := {
  inv_sum : valV (shared s) + lsum owed (threads s) = base + lsum c (claimed s);
  inv_nodup : NoDup (claimed s);
  inv_range : forall i, In i (claimed s) -> (i < n)%nat;
  inv_pos : forall k i a, get (threads s) k = Some (i, a) -> (i <= S n)%nat /\ forall j, (j < i)%nat -> (j < n)%nat -> In j (claimed s)
}.
Lemma set_lsum : forall {B} (f : B -> R) l k x y l', get l k = Some x -> set l k y = Some l' ->
  lsum f l' = lsum f l - f x + f y.
Proof.
  intros B f l. induction l as [|b l IH]; intros k x y l' G S; destruct k as [|k]; simpl in *; try discriminate.
  - unfold get in G. simpl in G. injection G as ->. injection S as <-. simpl. lra.
  - apply bind_some in S. destruct S as [r [S E]]. injection E as <-. simpl.
    rewrite (IH k x y r); [lra|exact G|exact S].
Qed.
Lemma get_set : forall {B} (l : list B) k y l' j x, set l k y = Some l' -> get l' j = Some x ->
  (j = k /\ x = y) \/ (j <> k /\ get l j = Some x).
Proof.
  intros B l. induction l as [|b l IH]; intros k y l' j x S G; destruct k as [|k]; simpl in *; try discriminate.
  - injection S as <-. destruct j as [|j]; unfold get in *; simpl in *; [left; split; congruence|right; split; [congruence|assumption]].
  - apply bind_some in S. destruct S as [r [S E]]. injection E as <-. destruct j as [|j]; unfold get in *; simpl in *; [right; split; [congruence|assumption]|].
    destruct (IH k y r j x S G) as [[-> ->]|[H1 H2]]; [left; auto|right; split; [congruence|assumption]].
Qed.
Lemma inv_step : forall s s' base, team_step n body commit s s' -> inv s base -> inv s' base.
Proof.
  intros s s' base H I. destruct I as [I1 I2 I3 I4]. destruct H as [s k i a th' G L Nc S|s k i a th' G L Cl S|s k a th' G S].
  - destruct (I4 k i a G) as [_ J]. constructor; simpl.
    + rewrite (set_lsum _ _ _ _ _ _ G S). unfold owed at 2 3. cbn [fst snd].
      destruct (Nat.leb_spec i n); [|lia]. destruct (Nat.leb_spec (Datatypes.S i) n); [|lia].
      rewrite Hbody by assumption. simpl lsum. lra.
    + constructor; assumption.
    + intros j [<-|Hj]; [assumption|auto].
    + intros q j b Gq. destruct (get_set _ _ _ _ _ _ S Gq) as [[-> E]|[_ Gq']].
      * injection E as -> ->. split; [lia|]. intros j Hj Hn. destruct (Nat.eq_dec j i) as [->|]; [left; reflexivity|right; apply J; lia].
      * destruct (I4 q j b Gq') as [? K]. split; [assumption|]. intros; right; auto.
  - destruct (I4 k i a G) as [_ J]. constructor; simpl; auto.
    + rewrite (set_lsum _ _ _ _ _ _ G S). unfold owed at 2 3. cbn [fst snd].
      destruct (Nat.leb_spec i n); [|lia]. destruct (Nat.leb_spec (Datatypes.S i) n); [|lia]. lra.
    + intros q j b Gq. destruct (get_set _ _ _ _ _ _ S Gq) as [[-> E]|[_ Gq']].
      * injection E as -> ->. split; [lia|]. intros j Hj Hn. destruct (Nat.eq_dec j i) as [->|]; [assumption|apply J; lia].
      * exact (I4 q j b Gq').
  - destruct (I4 k n a G) as [_ J]. constructor; simpl; auto.
    + rewrite (set_lsum _ _ _ _ _ _ G S), Hcommit. unfold owed at 2 3. cbn [fst snd].
      destruct (Nat.leb_spec n n); [|lia]. destruct (Nat.leb_spec (Datatypes.S n) n); [lia|]. lra.
    + intros q j b Gq. destruct (get_set _ _ _ _ _ _ S Gq) as [[-> E]|[_ Gq']].
      * injection E as -> ->. split; [lia|]. intros j Hj Hn. apply J; lia.
      * exact (I4 q j b Gq').
Qed.
Lemma inv_steps : forall s s' base, team_steps n body commit s s' -> inv s base -> inv s' base.
Proof. intros s s' base H. induction H; intros I; [assumption|]. eapply IHteam_steps, inv_step; eauto. Qed.
Lemma set_length : forall {B} (l : list B) k x l', set l k x = Some l' -> length l' = length l.
Proof.
  intros B l. induction l as [|b l IH]; intros k x l' S; destruct k; simpl in *; try discriminate.
  - injection S as <-. reflexivity.
  - apply bind_some in S. destruct S as [r [S E]]. injection E as <-. simpl. rewrite (IH _ _ _ S). reflexivity.
Qed.
Lemma step_length : forall s s', team_step n body commit s s' -> length (threads s') = length (threads s).
Proof. intros s s' H. destruct H; simpl; eapply set_length; eauto. Qed.
Lemma steps_length : forall s s', team_steps n body commit s s' -> length (threads s') = length (threads s).
Proof. intros s s' H. induction H; [reflexivity|]. rewrite IHteam_steps. apply step_length. assumption. Qed.

Lemma region_value : forall nth a0 v0 v1, (0 < nth)%nat -> valA a0 = 0 -> parallel_region nth n body commit a0 v0 v1 ->
  valV v1 = valV v0 + rsum c n.
Proof.
  intros nth a0 v0 v1 Hn H0 [s [St [D E]]].
  assert (I0 : inv (mkTeam [] (repeat (0%nat, a0) nth) v0) (valV v0)).
  { constructor; simpl; [|constructor|intros ? []|].
    - rewrite lsum_zero; [lra|]. intros x Hx. apply repeat_spec in Hx. subst x. unfold owed. cbn [fst snd].
      destruct (0 <=? n)%nat; [exact H0|reflexivity].
    - intros k i a G. unfold get in G. apply nth_error_In, repeat_spec in G. injection G as -> ->. split; [lia|intros; lia]. }
  destruct (inv_steps _ _ _ St I0) as [I1 I2 I3 I4]. rewrite <- E.
  assert (Z : lsum owed (threads s) = 0).
  { apply lsum_zero. intros [i a] Hi. apply In_nth_error in Hi. destruct Hi as [k Gk].
    rewrite (D k i a Gk). unfold owed. cbn [fst]. destruct (Nat.leb_spec (S n) n); [lia|reflexivity]. }
  assert (P : Permutation (claimed s) (seq 0 n)).
  { apply NoDup_Permutation; [assumption|apply seq_NoDup|]. intros i. rewrite in_seq. split; [intros Hi; apply I3 in Hi; lia|intros Hi].
    pose proof (steps_length _ _ St) as HL. simpl in HL. rewrite repeat_length in HL.
    destruct (get (threads s) 0) as [[j a]|] eqn:G; [|apply nth_error_None in G; lia].
    pose proof (D 0%nat j a G) as Ej. subst j. apply (proj2 (I4 0%nat (S n) a G)); lia. }
  rewrite (lsum_perm c _ _ P), lsum_seq in I1. lra.
Qed.
End Team.

(** ** every partial execution can be completed *)
Section Progress.
Context {A V : Type} (n : nat) (body : nat -> A -> A) (commit : A -> V -> V).
Definition todo (s : team A V) : nat := fold_right (fun x k => (S n - fst x + k)%nat) 0%nat (threads s).
Lemma set_todo : forall (l : list (nat * A)) k x y l', get l k = Some x -> set l k y = Some l' ->
  (fold_right (fun x k => S n - fst x + k) 0 l' + (S n - fst x) = fold_right (fun x k => S n - fst x + k) 0 l + (S n - fst y))%nat.
Proof.
  intros l. induction l as [|b l IH]; intros k x y l' G S; destruct k as [|k]; cbn [set] in S; try discriminate.
  - unfold get in G. simpl in G. injection G as ->. injection S as <-. cbn [fold_right]. lia.
  - apply bind_some in S. destruct S as [r [S E]]. injection E as <-. cbn [fold_right]. pose proof (IH k x y r G S). lia.
Qed.
Lemma set_get : forall {B} (l : list B) k x y, get l k = Some x -> exists l', set l k y = Some l'.
Proof.
  intros B l. induction l as [|b l IH]; intros k x y G; destruct k as [|k]; unfold get in *; simpl in *; try discriminate; eauto.
  destruct (IH k x y G) as [l' ->]. simpl. eauto.
Qed.
Lemma progress : forall s, (forall k i a, get (threads s) k = Some (i, a) -> (i <= S n)%nat) -> 
  team_done n s \/ exists s', team_step n body commit s s' /\ (todo s' < todo s)%nat
    /\ forall k i a, get (threads s') k = Some (i, a) -> (i <= S n)%nat.
Proof.
  intros s B.
  assert (Dec : team_done n s \/ exists k i a, get (threads s) k = Some (i, a) /\ (i <= n)%nat).
  { unfold team_done. assert (F : forall l : list (nat * A), (forall k i a, get l k = Some (i, a) -> (i <= S n)%nat) ->
      (forall k i a, get l k = Some (i, a) -> i = S n) \/ exists k i a, get l k = Some (i, a) /\ (i <= n)%nat).
    { induction l as [|[i a] l IH]; intros Bl; [left; intros [|k] i a G; discriminate|].
      destruct (Nat.leb_spec i n) as [Hi|Hi]; [right; exists 0%nat, i, a; auto|].
      destruct IH as [IH|[k [j [b [G Hj]]]]].
      - intros k j b G. apply (Bl (S k) j b G).
      - left. intros [|k] j b G; [|apply (IH k j b G)]. unfold get in G. simpl in G. injection G as <- <-. pose proof (Bl 0%nat i a eq_refl). lia.
      - right. exists (S k), j, b. auto. }
    apply F. assumption. }
  destruct Dec as [D|[k [i [a [G Hi]]]]]; [left; assumption|]. right.
  destruct (Nat.eq_dec i n) as [->|Ne].
  - destruct (set_get _ _ _ (S n, a) G) as [th' S]. eexists. split; [eapply step_critical; eauto|]. unfold todo. cbn [threads].
    pose proof (set_todo _ _ _ _ _ G S) as E. cbn [fst] in E. split; [lia|]. intros q j b Gq.
    destruct (get_set _ _ _ _ _ _ S Gq) as [[_ E']|[_ Gq']]; [injection E'; lia|eauto].
  - destruct (in_dec Nat.eq_dec i (claimed s)) as [Cl|Cl].
    + destruct (set_get _ _ _ (S i, a) G) as [th' S]. eexists. split; [eapply step_skip; eauto; lia|]. unfold todo. cbn [threads].
      pose proof (set_todo _ _ _ _ _ G S) as E. cbn [fst] in E. split; [lia|]. intros q j b Gq.
      destruct (get_set _ _ _ _ _ _ S Gq) as [[_ E']|[_ Gq']]; [injection E'; lia|eauto].
    + destruct (set_get _ _ _ (S i, body i a) G) as [th' S]. eexists. split; [eapply step_take; eauto; lia|]. unfold todo. cbn [threads].
      pose proof (set_todo _ _ _ _ _ G S) as E. cbn [fst] in E. split; [lia|]. intros q j b Gq.
      destruct (get_set _ _ _ _ _ _ S Gq) as [[_ E']|[_ Gq']]; [injection E'; lia|eauto].
Qed.
Lemma completes : forall m s, (todo s <= m)%nat -> (forall k i a, get (threads s) k = Some (i, a) -> (i <= S n)%nat) ->
  exists s', team_steps n body commit s s' /\ team_done n s'.
Proof.
  induction m as [|m IH]; intros s Hm B; destruct (progress s B) as [D|[s' [St [L B']]]]; try lia.
  - exists s. split; [constructor|assumption].
  - exists s. split; [constructor|assumption].
  - destruct (IH s') as [s'' [St' D]]; [lia|assumption|]. exists s''. split; [econstructor; eauto|assumption].
Qed.
Lemma steps_bound : forall s s', team_steps n body commit s s' -> (forall k i a, get (threads s) k = Some (i, a) -> (i <= S n)%nat) ->
  forall k i a, get (threads s') k = Some (i, a) -> (i <= S n)%nat.
Proof.
  intros s s' H. induction H as [|s s' s'' St _ IH]; intros B; [assumption|]. apply IH. intros q j b Gq.
  destruct St; simpl in Gq; (destruct (get_set _ _ _ _ _ _ H0 Gq) as [[_ E]|[_ G']] || destruct (get_set _ _ _ _ _ _ H2 Gq) as [[_ E]|[_ G']]);
    try (injection E; lia); eauto.
Qed.
Lemma region_exists : forall nthr a0 v0, exists v1, parallel_region nthr n body commit a0 v0 v1.
Proof.
  intros nthr a0 v0.
  destruct (completes (todo (mkTeam [] (repeat (0%nat, a0) nthr) v0)) (mkTeam [] (repeat (0%nat, a0) nthr) v0)) as [s [St D]].
  - lia.
  - simpl. intros k i a G. unfold get in G. apply nth_error_In, repeat_spec in G. injection G as -> ->. lia.
  - exists (shared s), s. auto.
Qed.
End Progress.
