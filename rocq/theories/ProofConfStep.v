(** The static part of the invariant is preserved by one refinement (C18). *)
From Coq Require Import List Arith Bool Lia.
From Verif Require Import ModelBase ModelTree SpecTree ProofTree ProofConf.
Import ListNotations.

Section Step.
Variables vx vx' : addr -> nat -> nat.
Variables ex ex' rf rf' : addr -> Prop.
Variables N N' : nat.
Variable a : addr.
Variable p : nat -> nat.
Variable z : nat.
Hypothesis C : conf vx ex rf N.
Hypothesis Ha : ex a.
Hypothesis Hra : ~ rf a.
Hypothesis Hold : forall b k, ex b -> vx' b k = vx b k.
Hypothesis Hson : forall i, i < 4 -> vx' (i :: a) i = vx a i /\ vx' (i :: a) (nx i) = p i /\
  vx' (i :: a) (nx (nx i)) = z /\ vx' (i :: a) (nx (nx (nx i))) = p (nx (nx (nx i))).
Hypothesis Hex : forall b, ex' b <-> ex b \/ exists i, i < 4 /\ b = i :: a.
Hypothesis Hrf : forall b, rf' b <-> rf b \/ b = a.
Definition partnered (i : nat) : Prop :=
  exists b j, j < 4 /\ rf b /\ length b = length a /\ same_edge vx a i b j /\ p i = mid vx b j.
Hypothesis Hp : forall i, i < 4 -> partnered i \/
  (N <= p i < N' /\ forall b j, j < 4 -> rf b -> length b = length a -> ~ same_edge vx a i b j).
Hypothesis Hfresh : forall i i', i < 4 -> i' < 4 -> N <= p i -> p i = p i' -> i = i'.
Hypothesis Hz : N <= z < N'.
Hypothesis Hzp : forall i, i < 4 -> z <> p i.

Lemma a_ne : a <> [].
Proof. intros ->. apply (cf_root _ _ _ _ C). assumption. Qed.
Lemma nson : forall i, ~ ex (i :: a).
Proof. intros i H. apply (cf_son _ _ _ _ C i a a_ne) in H. tauto. Qed.
Lemma rf_ne : forall d, rf d -> d <> [].
Proof. intros d R ->. apply (cf_root _ _ _ _ C). apply (cf_ref _ _ _ _ C). assumption. Qed.
Lemma ex_sons : forall d k, rf d -> k < 4 -> ex (k :: d).
Proof. intros d k R Hk. apply (cf_son _ _ _ _ C k d (rf_ne d R)). auto. Qed.
Lemma mid_old : forall d k, rf d -> k < 4 -> mid vx' d k = mid vx d k.
Proof. intros d k R Hk. unfold mid. apply Hold. apply ex_sons; assumption. Qed.
Lemma ctr_old : forall d, rf d -> ctr vx' d = ctr vx d.
Proof. intros d R. unfold ctr. apply Hold. apply ex_sons; [assumption|lia]. Qed.
Lemma mid_new : forall k, k < 4 -> mid vx' a k = p k.
Proof. intros k Hk. unfold mid. apply Hson. assumption. Qed.
Lemma ctr_new : ctr vx' a = z.
Proof. unfold ctr. apply (Hson 0). lia. Qed.
Lemma se_old : forall b i c j, ex b -> ex c -> (same_edge vx' b i c j <-> same_edge vx b i c j).
Proof. intros. unfold same_edge. rewrite !Hold by assumption. tauto. Qed.
Lemma mid_lt : forall d k, rf d -> k < 4 -> mid vx d k < N.
Proof. intros. apply (cf_lt _ _ _ _ C); [apply ex_sons; assumption|apply nx_lt]. Qed.
Lemma ctr_lt : forall d, rf d -> ctr vx d < N.
Proof. intros. apply (cf_lt _ _ _ _ C); [apply ex_sons; [assumption|lia]|lia]. Qed.
Lemma rf_ex : forall d, rf d -> ex d.
Proof. apply (cf_ref _ _ _ _ C). Qed.

Lemma p_partner : forall k b j, k < 4 -> j < 4 -> rf b -> length b = length a ->
  (p k = mid vx b j <-> same_edge vx a k b j).
Proof.
  intros k b j Hk Hj R L. destruct (Hp k Hk) as [[b' [j' [Hj' [R' [L' [S E]]]]]]|[F Hno]].
  - rewrite E, (cf_m1 _ _ _ _ C b' j' b j) by (auto; lia). split; intros H.
    + eapply same_edge_trans; eassumption.
    + eapply same_edge_trans; [apply same_edge_sym; eassumption|assumption].
  - split; intros H.
    + pose proof (mid_lt b j R Hj). lia.
    + destruct (Hno b j Hj R L H).
Qed.

Lemma p_self : forall k k', k < 4 -> k' < 4 -> (p k = p k' <-> same_edge vx a k a k').
Proof.
  intros k k' Hk Hk'. destruct (Hp k Hk) as [[b [j [Hj [R [L [S E]]]]]]|[F Hno]].
  - rewrite E. split; intros H.
    + symmetry in H. apply p_partner in H; auto. eapply same_edge_trans; [exact S|]. apply same_edge_sym. assumption.
    + symmetry. apply p_partner; auto. eapply same_edge_trans; [apply same_edge_sym; exact H|exact S].
  - split; intros H.
    + apply Hfresh in H; auto; [|lia]. subst k'. apply same_edge_refl.
    + destruct (Hp k' Hk') as [[b [j [Hj [R [L [S E]]]]]]|[F' _]].
      * destruct (Hno b j Hj R L). eapply same_edge_trans; eassumption.
      * destruct (good_all vx ex rf N C (length a - 1)) as [G _].
        assert (D : distinct4 vx a). { apply G; [assumption|]. pose proof a_ne. destruct a; [congruence|simpl; lia]. }
        apply (distinct_edges vx a k k' D Hk Hk') in H. subst; reflexivity.
Qed.

(** what a vertex of a new son can be *)
Lemma son_vertex : forall i m, i < 4 -> m < 4 -> vx' (i :: a) m = vx a i \/ vx' (i :: a) m = z \/ exists k, k < 4 /\ vx' (i :: a) m = p k.
Proof.
  intros i m Hi Hm. destruct (Hson i Hi) as [A [B [D E]]].
  assert (H : m = i \/ m = nx i \/ m = nx (nx i) \/ m = nx (nx (nx i))).
  { unfold nx. four Hi; four Hm; simpl; lia. }
  destruct H as [->|[->|[->| ->]]]; [left; assumption|right; right; eauto|right; left; assumption|right; right].
  exists (nx (nx (nx i))). split; [apply nx_lt|assumption].
Qed.

Lemma p_lt : forall k, k < 4 -> p k < N'.
Proof.
  intros k Hk. destruct (Hp k Hk) as [[b [j [Hj [R [_ [_ E]]]]]]|[F _]]; [|lia].
  pose proof (mid_lt b j R Hj). lia.
Qed.

Lemma conf_step : conf vx' ex' rf' N'.
Proof.
  pose proof a_ne as Hne.
  split.
  - rewrite Hex. intros [H|[i [_ H]]]; [apply (cf_root _ _ _ _ C H)|discriminate].
  - intros i d Hd. rewrite Hex, Hrf, (cf_son _ _ _ _ C i d Hd). split.
    + intros [[H1 H2]|[j [Hj E]]]; [auto|]. injection E as -> ->. auto.
    + intros [H1 [H2| ->]]; [auto|right; eauto].
  - intros d H. apply Hrf in H. apply Hex. left. destruct H as [H| ->]; [apply rf_ex; assumption|assumption].
  - intros d i R Hi. apply Hrf in R. destruct R as [R| ->].
    + rewrite !Hold by (auto using rf_ex, ex_sons). rewrite ctr_old, mid_old by (auto using nx_lt).
      apply (cf_v _ _ _ _ C); assumption.
    + rewrite ctr_new, mid_new by apply nx_lt. rewrite (Hold a i Ha). destruct (Hson i Hi) as [A [B [D E]]]. auto.
  - intros b k X Hk. apply Hex in X. destruct X as [X|[i [Hi ->]]].
    + rewrite Hold by assumption. pose proof (cf_lt _ _ _ _ C b k X Hk). lia.
    + destruct (son_vertex i k Hi Hk) as [->|[->|[m [Hm ->]]]].
      * pose proof (cf_lt _ _ _ _ C a i Ha Hi). lia.
      * lia.
      * apply p_lt; assumption.
  - intros d k d' k' R R' L Hk Hk'. apply Hrf in R. apply Hrf in R'.
    destruct R as [R| ->], R' as [R'| ->].
    + rewrite !mid_old, se_old by (auto using rf_ex). apply (cf_m1 _ _ _ _ C); assumption.
    + rewrite mid_old, mid_new, se_old by (auto using rf_ex). split; intros H.
      * apply same_edge_sym. apply p_partner; auto.
      * symmetry. apply p_partner; auto. apply same_edge_sym. assumption.
    + rewrite (mid_old d' k'), (mid_new k), se_old by (auto using rf_ex). apply p_partner; auto.
    + rewrite !mid_new, se_old by auto. apply p_self; assumption.
  - intros d c k m R X L Hk Hm. apply Hrf in R. apply Hex in X. destruct R as [R| ->].
    + rewrite mid_old, ctr_old by auto. pose proof (mid_lt d k R Hk). pose proof (ctr_lt d R).
      destruct X as [X|[i [Hi ->]]].
      * rewrite Hold by assumption. apply (cf_m2 _ _ _ _ C); assumption.
      * simpl in L. destruct (son_vertex i m Hi Hm) as [->|[->|[q [Hq ->]]]].
        { apply (cf_m2 _ _ _ _ C); auto. lia. }
        { lia. }
        { destruct (Hp q Hq) as [[b [j [Hj [R' [L' [_ ->]]]]]]|[F _]]; [|lia].
          apply (cf_m2 _ _ _ _ C d (j :: b) k (nx j)); auto using ex_sons, nx_lt. simpl. lia. }
    + rewrite mid_new, ctr_new by auto. destruct X as [X|[i [Hi ->]]]; [|simpl in L; lia].
      rewrite Hold by assumption. pose proof (cf_lt _ _ _ _ C c m X Hm). split; [|lia].
      destruct (Hp k Hk) as [[b [j [Hj [R' [L' [_ ->]]]]]]|[F _]]; [|lia].
      apply (cf_m2 _ _ _ _ C b c j m); auto. lia.
  - intros d d' R R' L. apply Hrf in R. apply Hrf in R'.
    destruct R as [R| ->], R' as [R'| ->].
    + rewrite !ctr_old by assumption. destruct (cf_m3 _ _ _ _ C d d' R R' L) as [A B]. split; [assumption|].
      intros k Hk. rewrite mid_old by assumption. apply B. assumption.
    + rewrite ctr_old, ctr_new by assumption. pose proof (ctr_lt d R). split; [lia|].
      intros k Hk. rewrite mid_new by assumption.
      destruct (Hp k Hk) as [[b [j [Hj [R' [L' [_ ->]]]]]]|[F _]]; [|lia].
      apply (cf_m3 _ _ _ _ C d b); auto. lia.
    + rewrite (ctr_old d'), ctr_new by assumption. pose proof (ctr_lt d' R'). split; [lia|].
      intros k Hk. rewrite mid_old by assumption. pose proof (mid_lt d' k R' Hk). lia.
    + split; [auto|]. intros k Hk. rewrite ctr_new, mid_new by assumption. apply Hzp. assumption.
  - assert (X1 : forall b, ex' b -> length b = 1 -> ex b).
    { intros b X L. apply Hex in X. destruct X as [X|[i [_ ->]]]; [assumption|]. simpl in L.
      destruct a; [congruence|discriminate]. }
    destruct (cf_patch _ _ _ _ C) as [G1 [G2 G3]]. split; [|split].
    + intros b X L i j Hi Hj. rewrite !Hold by auto. apply G1; auto.
    + intros b i c j d k Xb Xc Xd Lb Lc Ld Hi Hj Hk. rewrite !se_old by auto. apply G2; auto.
    + intros b i j c i' j' Xb Xc Lb Lc Hbc Hi Hj Hi' Hj'. rewrite !se_old by auto. apply G3; auto.
Qed.

End Step.
