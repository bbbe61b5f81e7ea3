(** updateTopology (C16). *)
From Coq Require Import List Arith Bool Lia.
From Verif Require Import ModelBase ModelTree SpecTree ProofTree.
Import ListNotations.

Lemma edge_of_slot : forall s a n j, s a = Some n -> edge_of n j = slot_edge s a j.
Proof.
  intros s a n j E. unfold edge_of, slot_edge, get. rewrite E.
  destruct (nth_error (n_verts n) j) as [v|]; [|reflexivity]. cbn [bind].
  destruct (nth_error (n_verts n) ((j + 1) mod 4)) as [w|]; [|reflexivity]. cbn [bind].
  destruct (Nat.ltb_spec v w); f_equal; f_equal; lia.
Qed.

Lemma edge_eqb_eq : forall e f, edge_eqb e f = true <-> e = f.
Proof.
  intros [a b] [c d]. unfold edge_eqb. simpl. rewrite andb_true_iff, !Nat.eqb_eq. split.
  - intros [-> ->]. reflexivity.
  - intros H. injection H. auto.
Qed.

Lemma slot_edge_adjusted : forall els s s' a j, adjusted els s s' -> slot_edge s' a j = slot_edge s a j.
Proof.
  intros els s s' a j A. specialize (A a). unfold slot_edge. destruct (s a) as [n|], (s' a) as [n'|]; try tauto.
  destruct A as [l' [-> _]]. reflexivity.
Qed.

Lemma slot_edge_some : forall s a j, good_node s a -> j < 4 -> exists e, slot_edge s a j = Some e.
Proof.
  intros s a j [n [E [V _]]] Hj. rewrite <- (edge_of_slot s a n j E). apply edge_of_some; assumption.
Qed.


Lemma set_adj_at : forall s a n j p s', s a = Some n -> j < length (n_adj n) -> set_adj s a j p = Some s' ->
  adj_at s' a j = p /\ (forall b k, (b, k) <> (a, j) -> adj_at s' b k = adj_at s b k) /\
  (forall b, b <> a -> s' b = s b).
Proof.
  intros s a n j p s' E Hj H. unfold set_adj in H. rewrite E in H. cbn [bind] in H.
  destruct (set_spec (n_adj n) j p Hj) as [l [El [L N]]]. rewrite El in H. cbn [bind] in H. injection H as <-.
  split; [|split].
  - unfold adj_at. rewrite sset_same. simpl. rewrite N, Nat.eqb_refl. reflexivity.
  - intros b k Hne. unfold adj_at. destruct (list_eq_dec Nat.eq_dec b a) as [->|Hb].
    + rewrite sset_same, E. simpl. rewrite N. destruct (Nat.eqb_spec k j); [congruence|reflexivity].
    + rewrite sset_other by assumption. reflexivity.
  - intros b Hb. apply sset_other. assumption.
Qed.

(** the break loop finds the first matching edge *)
Lemma link_back_find : forall s b e a k ks1 ks2, good_node s b ->
  (forall m, In m (ks1 ++ k :: ks2) -> m < 4) ->
  (forall m, In m ks1 -> slot_edge s b m <> Some e) -> slot_edge s b k = Some e ->
  link_back s b e a (ks1 ++ k :: ks2) = set_adj s b k (Some a).
Proof.
  intros s b e a k ks1 ks2 [n [E [V L]]]. induction ks1 as [|m ks1 IH]; intros Hlt Hn Hk.
  - cbn [app link_back]. rewrite E. cbn [bind]. rewrite (edge_of_slot s b n k E), Hk. cbn [bind].
    rewrite (proj2 (edge_eqb_eq e e) eq_refl). reflexivity.
  - cbn [app link_back]. rewrite E. cbn [bind]. rewrite (edge_of_slot s b n m E).
    destruct (slot_edge_some s b m) as [f Ef]; [exists n; auto|apply Hlt; left; reflexivity|]. rewrite Ef. cbn [bind].
    destruct (edge_eqb e f) eqn:Ee.
    + apply edge_eqb_eq in Ee. subst f. destruct (Hn m (or_introl eq_refl) Ef).
    + apply IH; [intros; apply Hlt; right; assumption|intros; apply Hn; right; assumption|assumption].
Qed.

Lemma first_edge : forall s b e k, k < 4 -> slot_edge s b k = Some e ->
  exists m ks1 ks2, [0;1;2;3] = ks1 ++ m :: ks2 /\ m <= k /\ slot_edge s b m = Some e /\
    forall x, In x ks1 -> slot_edge s b x <> Some e.
Proof.
  intros s b e k Hk E.
  assert (D : forall m, {slot_edge s b m = Some e} + {slot_edge s b m <> Some e}).
  { intros m. destruct (slot_edge s b m) as [f|]; [|right; discriminate].
    destruct f as [x y], e as [x' y']. destruct (Nat.eq_dec x x'), (Nat.eq_dec y y'); subst; [left; reflexivity|right; congruence|right; congruence|right; congruence]. }
  destruct (D 0) as [E0|N0]; [exists 0, [], [1;2;3]; split; [reflexivity|split; [lia|split; [assumption|intros x []]]]|].
  destruct k as [|k]; [congruence|].
  destruct (D 1) as [E1|N1]; [exists 1, [0], [2;3]; split; [reflexivity|split; [lia|split; [assumption|intros x [<-|[]]; assumption]]]|].
  destruct k as [|k]; [congruence|].
  destruct (D 2) as [E2|N2]; [exists 2, [0;1], [3]; split; [reflexivity|split; [lia|split; [assumption|intros x [<-|[<-|[]]]; assumption]]]|].
  destruct k as [|k]; [congruence|].
  destruct (D 3) as [E3|N3]; [exists 3, [0;1;2], []; split; [reflexivity|split; [lia|split; [assumption|intros x [<-|[<-|[<-|[]]]]; assumption]]]|].
  destruct k as [|k]; [congruence|lia].
Qed.

Section Topo.
Variable els : list addr.
Variable s0 : store.
Hypothesis Hgood : forall b, In b els -> good_node s0 b.
Hypothesis Hnd : NoDup els.
Hypothesis Htwo : at_most_two s0 els.

Definition done (pre : list addr) (a : addr) (j : nat) (b : addr) (k : nat) : Prop :=
  (In b pre /\ k < 4) \/ (b = a /\ k < j).

Record tinv (pre : list addr) (a : addr) (j : nat) (se : store * list ((nat * nat) * addr)) : Prop := {
  ti_adj : adjusted els s0 (fst se);
  ti_out : forall b, ~ In b els -> fst se b = s0 b;
  ti_map : forall f b, In (f, b) (snd se) -> exists k, done pre a j b k /\ slot_edge s0 b k = Some f;
  ti_mapall : forall b k f, done pre a j b k -> slot_edge s0 b k = Some f -> find_edge f (snd se) <> None;
  ti_set : forall b k c m, done pre a j b k -> done pre a j c m -> (c, m) <> (b, k) ->
     slot_edge s0 c m = slot_edge s0 b k -> adj_at (fst se) b k = Some c;
  ti_keep : forall b k, k < 4 ->
     (~ done pre a j b k \/ ~ exists c m, done pre a j c m /\ (c, m) <> (b, k) /\ slot_edge s0 c m = slot_edge s0 b k) ->
     adj_at (fst se) b k = adj_at s0 b k }.

Lemma find_edge_app_none : forall e m f b, find_edge e m = None ->
  find_edge e (m ++ [(f, b)]) = if edge_eqb e f then Some b else None.
Proof.
  intros e m f b. induction m as [|[g c] m IH]; intros H; simpl in *.
  - reflexivity.
  - destruct (edge_eqb e g); [discriminate|auto].
Qed.
Lemma find_edge_app_some : forall e m f b, find_edge e m <> None -> find_edge e (m ++ [(f, b)]) <> None.
Proof.
  intros e m f b. induction m as [|[g c] m IH]; intros H; simpl in *; [congruence|].
  destruct (edge_eqb e g); [discriminate|auto].
Qed.
Lemma find_edge_pair : forall e m b, find_edge e m = Some b -> In (e, b) m.
Proof.
  intros e m b. induction m as [|[g c] m IH]; intros H; simpl in *; [discriminate|].
  destruct (edge_eqb e g) eqn:E; [apply edge_eqb_eq in E; injection H as ->; subst; left; reflexivity|right; auto].
Qed.

Lemma done_step : forall pre a j b k, done pre a (S j) b k <-> done pre a j b k \/ (b, k) = (a, j).
Proof.
  intros. unfold done. split.
  - intros [H|[-> H]]; [auto|]. destruct (Nat.eq_dec k j) as [->|]; [right; reflexivity|left; right; split; [reflexivity|lia]].
  - intros [[H|[-> H]]|E]; [auto|right; split; [reflexivity|lia]|]. injection E as -> ->. right; split; [reflexivity|lia].
Qed.

Lemma topo_step_inv : forall pre a j se, incl pre els -> In a els -> ~ In a pre -> j < 4 ->
  tinv pre a j se -> exists se', topo_step a j se = Some se' /\ tinv pre a (S j) se'.
Proof.
  intros pre a j [s edges] Hpre Ha Hap Hj [A O M MA ST KP]. cbn [fst snd] in *.
  destruct (good_adjusted els s0 s a A (Hgood a Ha)) as [n [En [Vn Ln]]].
  destruct (slot_edge_some s0 a j (Hgood a Ha) Hj) as [e Ee].
  unfold topo_step. rewrite En. cbn [bind].
  rewrite (edge_of_slot s a n j En), (slot_edge_adjusted els s0 s a j A), Ee. cbn [bind].
  assert (Hdone_in : forall b k, done pre a j b k -> In b els /\ k < 4).
  { intros b k [[H1 H2]|[-> H]]; [split; [apply Hpre; assumption|assumption]|split; [assumption|lia]]. }
  assert (Hnew : ~ done pre a j a j) by (intros [[H _]|[_ H]]; [tauto|lia]).
  destruct (find_edge e edges) as [b|] eqn:Ef.
  - (* a partner has been seen *)
    apply find_edge_pair in Ef. destruct (M e b Ef) as [k [Dk Ek]]. destruct (Hdone_in b k Dk) as [Hb Hk].
    assert (Hne : (b, k) <> (a, j)) by (intros E; injection E as -> ->; tauto).
    (* it is the only one *)
    assert (Huniq : forall c m, done pre a j c m -> slot_edge s0 c m = Some e -> (c, m) = (b, k)).
    { intros c m Dc Ec. destruct (Hdone_in c m Dc) as [Hc Hm].
      destruct (Htwo c m b k a j Hc Hm Hb Hk Ha Hj) as [E|[E|E]]; [congruence|congruence|congruence|congruence|injection E as -> ->; tauto]. }
    destruct (set_adj_adjusted els s a n j b En) as [s1 [E1 A1]]; [lia|assumption|].
    rewrite E1. cbn [bind].
    destruct (set_adj_at s a n j (Some b) s1 En) as [S1 [S2 S3]]; [lia|assumption|].
    assert (A01 : adjusted els s0 s1) by (eapply adjusted_trans; eassumption).
    destruct (good_adjusted els s0 s1 b A01 (Hgood b Hb)) as [nb [Enb [Vnb Lnb]]].
    (* the inner loop writes at k *)
    assert (Hlink : link_back s1 b e a [0;1;2;3] = set_adj s1 b k (Some a)).
    { destruct (first_edge s0 b e k Hk Ek) as [m [ks1 [ks2 [Es [Hm [Em Hno]]]]]].
      assert (m = k).
      { destruct (Htwo b m b k a j Hb) as [E|[E|E]]; auto; try lia; try congruence.
        injection E as -> ->. destruct Dk as [[F _]|[_ F]]; [tauto|lia]. }
      subst m. rewrite Es. apply link_back_find.
      - exists nb. auto.
      - rewrite <- Es. simpl. intros x Hx. repeat destruct Hx as [<-|Hx]; try lia; tauto.
      - intros x Hx. rewrite (slot_edge_adjusted els s0 s1 b x A01). apply Hno. assumption.
      - rewrite (slot_edge_adjusted els s0 s1 b k A01). assumption. }
    rewrite Hlink.
    destruct (set_adj_adjusted els s1 b nb k a Enb) as [s2 [E2 A2]]; [lia|assumption|].
    destruct (set_adj_at s1 b nb k (Some a) s2 Enb) as [R1 [R2 R3]]; [lia|assumption|].
    rewrite E2. cbn [bind]. eexists. split; [reflexivity|].
    assert (Hat : forall c m, (c, m) <> (a, j) -> (c, m) <> (b, k) -> adj_at s2 c m = adj_at s c m).
    { intros c m H1 H2. rewrite R2, S2 by assumption. reflexivity. }
    assert (Haj : adj_at s2 a j = Some b) by (rewrite R2 by congruence; assumption).
    split; cbn [fst snd].
    + eapply adjusted_trans; [exact A01|exact A2].
    + intros c Hc. rewrite R3, S3, O; auto; intros ->; tauto.
    + intros f c Hf. destruct (M f c Hf) as [m [Dm Em]]. exists m. rewrite done_step. auto.
    + intros c m f Dc Ec. apply done_step in Dc. destruct Dc as [Dc|Dc].
      * eapply MA; eassumption.
      * injection Dc as -> ->. rewrite Ee in Ec. injection Ec as <-. intros F. eapply (MA b k e Dk Ek). exact F.
    + intros c m d x Dc Dd Hcd Eq. apply done_step in Dc. apply done_step in Dd.
      destruct Dc as [Dc|Dc]; destruct Dd as [Dd|Dd].
      * destruct (list_eq_dec Nat.eq_dec c b) as [->|Hcb]; [destruct (Nat.eq_dec m k) as [->|Hmk]|].
        { (* (b,k) has no other partner than (a,j) *) exfalso. apply Hcd. apply Huniq; congruence. }
        { rewrite Hat; [apply (ST b m d x); assumption|intros E; injection E as -> ->; tauto|congruence]. }
        { rewrite Hat; [apply (ST c m d x); assumption|intros E; injection E as -> ->; tauto|congruence]. }
      * (* partner is the new slot *)
        injection Dd as -> ->. assert (E : (c, m) = (b, k)) by (apply Huniq; congruence).
        injection E as -> ->. exact R1.
      * injection Dc as -> ->. assert (E : (d, x) = (b, k)) by (apply Huniq; congruence). injection E as -> ->. exact Haj.
      * congruence.
    + intros c m Hm Hcase.
      destruct (list_eq_dec Nat.eq_dec c a) as [->|Hca]; [destruct (Nat.eq_dec m j) as [->|Hmj]|].
      * exfalso. destruct Hcase as [H|H]; [apply H; apply done_step; auto|].
        apply H. exists b, k. rewrite done_step. split; [auto|]. split; [assumption|]. congruence.
      * destruct (list_eq_dec Nat.eq_dec a b) as [Eab|Hab]; [destruct (Nat.eq_dec m k) as [->|Hmk]|].
        { subst b. exfalso. destruct Hcase as [H|H]; [apply H; apply done_step; auto|].
          apply H. exists a, j. rewrite done_step. split; [auto|]. split; [congruence|]. congruence. }
        { rewrite Hat by congruence. apply KP; [assumption|]. destruct Hcase as [H|H]; [left; rewrite done_step in H; tauto|right].
          intros [d [x [Dd Hd]]]. apply H. exists d, x. rewrite done_step. tauto. }
        { rewrite Hat by congruence. apply KP; [assumption|]. destruct Hcase as [H|H]; [left; rewrite done_step in H; tauto|right].
          intros [d [x [Dd Hd]]]. apply H. exists d, x. rewrite done_step. tauto. }
      * destruct (list_eq_dec Nat.eq_dec c b) as [->|Hcb]; [destruct (Nat.eq_dec m k) as [->|Hmk]|].
        { exfalso. destruct Hcase as [H|H]; [apply H; apply done_step; auto|].
          apply H. exists a, j. rewrite done_step. split; [auto|]. split; [congruence|]. congruence. }
        { rewrite Hat by congruence. apply KP; [assumption|]. destruct Hcase as [H|H]; [left; rewrite done_step in H; tauto|right].
          intros [d [x [Dd Hd]]]. apply H. exists d, x. rewrite done_step. tauto. }
        { rewrite Hat by congruence. apply KP; [assumption|]. destruct Hcase as [H|H]; [left; rewrite done_step in H; tauto|right].
          intros [d [x [Dd Hd]]]. apply H. exists d, x. rewrite done_step. tauto. }
  - (* first occurrence *)
    eexists. split; [reflexivity|].
    assert (Hno : forall c m, done pre a j c m -> slot_edge s0 c m <> Some e).
    { intros c m Dc Ec. apply (MA c m e Dc Ec). assumption. }
    split; cbn [fst snd].
    + assumption.
    + assumption.
    + intros f c Hf. apply in_app_or in Hf. destruct Hf as [Hf|[Hf|[]]].
      * destruct (M f c Hf) as [m [Dm Em]]. exists m. rewrite done_step. auto.
      * injection Hf as <- <-. exists j. rewrite done_step. auto.
    + intros c m f Dc Ec. apply done_step in Dc. destruct Dc as [Dc|Dc].
      * apply find_edge_app_some. eapply MA; eassumption.
      * injection Dc as -> ->. rewrite Ee in Ec. injection Ec as <-. rewrite find_edge_app_none by assumption.
        rewrite (proj2 (edge_eqb_eq e e) eq_refl). discriminate.
    + intros c m d x Dc Dd Hcd Eq. apply done_step in Dc. apply done_step in Dd.
      destruct Dc as [Dc|Dc]; destruct Dd as [Dd|Dd].
      * eapply ST; eassumption.
      * injection Dd as -> ->. exfalso. apply (Hno c m Dc). congruence.
      * injection Dc as -> ->. exfalso. apply (Hno d x Dd). congruence.
      * congruence.
    + intros c m Hm Hcase. apply KP; [assumption|].
      destruct Hcase as [H|H]; [left; rewrite done_step in H; tauto|].
      right. intros [d [x [Dd Hd]]]. apply H. exists d, x. rewrite done_step. tauto.
Qed.

Lemma topo_elements_inv : forall l pre a se, els = pre ++ l -> (forall b, In b pre -> In b els) -> 
  tinv pre a 0 se -> exists se', topo_elements l se = Some se' /\ exists a', tinv els a' 0 se'.
Proof.
  induction l as [|x l IH]; intros pre a se He Hp T.
  - rewrite app_nil_r in He. subst pre. exists se. eauto.
  - cbn [topo_elements]. unfold topo_element.
    assert (Hx : In x els) by (rewrite He; apply in_or_app; simpl; auto).
    assert (Hxp : ~ In x pre).
    { intros H. rewrite He in Hnd. apply NoDup_remove_2 in Hnd. apply Hnd. apply in_or_app; auto. }
    assert (T0 : tinv pre x 0 se).
    { assert (D : forall b k, done pre x 0 b k <-> done pre a 0 b k) by (intros; unfold done; split; intros [H|[_ H]]; auto; lia).
      destruct T as [T1 T2 T3 T4 T5 T6]. split; auto.
      - intros f b H. destruct (T3 f b H) as [k [Dk Ek]]. exists k. rewrite D. auto.
      - intros b k f Db. rewrite D in Db. eauto.
      - intros b k c m Db Dc. rewrite D in Db, Dc. eauto.
      - intros b k Hk H. apply T6; [assumption|]. destruct H as [H|H]; [left; rewrite <- D; assumption|right].
        intros [c [m [Dc K]]]. apply H. exists c, m. rewrite D. auto. }
    destruct (for_opt_inv (fun i y => tinv pre x i y) 4 (topo_step x) se T0) as [se1 [E1 T1]].
    { intros i y Hi Ty. apply topo_step_inv; auto. }
    rewrite E1. cbn [bind].
    apply (IH (pre ++ [x]) x); [rewrite <- app_assoc; assumption| |].
    + intros b Hb. apply in_app_or in Hb. destruct Hb as [Hb|[<-|[]]]; auto.
    + assert (D : forall b k, done (pre ++ [x]) x 0 b k <-> done pre x 4 b k).
      { intros b k. unfold done. rewrite in_app_iff. simpl. split.
        - intros [[[H|[->|[]]] Hk]|[_ H]]; [left; auto|right; auto|lia].
        - intros [[H Hk]|[-> Hk]]; left; auto. }
      destruct T1 as [T1 T2 T3 T4 T5 T6]. split; auto.
      * intros f b H. destruct (T3 f b H) as [k [Dk Ek]]. exists k. rewrite D. auto.
      * intros b k f Db. rewrite D in Db. eauto.
      * intros b k c m Db Dc. rewrite D in Db, Dc. eauto.
      * intros b k Hk H. apply T6; [assumption|]. destruct H as [H|H]; [left; rewrite <- D; assumption|right].
        intros [c [m [Dc K]]]. apply H. exists c, m. rewrite D. auto.
Qed.

Lemma update_topology_spec_sec : exists s', update_topology s0 els = Some s' /\ adjusted els s0 s' /\
  (forall b, ~ In b els -> s' b = s0 b) /\
  (forall a j b k, In a els -> j < 4 -> partner s0 els a j b k -> adj_at s' a j = Some b) /\
  (forall a j, In a els -> j < 4 -> (~ exists b k, partner s0 els a j b k) -> adj_at s' a j = adj_at s0 a j).
Proof.
  unfold update_topology.
  destruct (topo_elements_inv els [] [] (s0, [])) as [se [E T]]; [reflexivity|intros b []| |].
  - split; cbn [fst snd].
    + apply adjusted_refl.
    + reflexivity.
    + intros f b [].
    + intros b k f [[[] _]|[_ H]]; lia.
    + intros b k c m [[[] _]|[_ H]]; lia.
    + reflexivity.
  - rewrite E. cbn [bind]. eexists. split; [reflexivity|]. destruct T as [a0 [T1 T2 T3 T4 T5 T6]].
    split; [assumption|]. split; [assumption|]. split.
    + intros a j b k Ha Hj [Hb [Hk [Hne He]]]. apply (T5 a j b k); auto; left; auto.
    + intros a j Ha Hj Hno. apply T6; [assumption|]. right. intros [b [k [[[Hb Hk]|[_ Hk]] [Hne He]]]]; [|lia].
      apply Hno. exists b, k. repeat split; auto.
Qed.
End Topo.

Lemma update_topology_spec : forall els s, (forall b, In b els -> good_node s b) -> NoDup els -> at_most_two s els ->
  exists s', update_topology s els = Some s' /\ adjusted els s s' /\
  (forall b, ~ In b els -> s' b = s b) /\
  (forall a j b k, In a els -> j < 4 -> partner s els a j b k -> adj_at s' a j = Some b) /\
  (forall a j, In a els -> j < 4 -> (~ exists b k, partner s els a j b k) -> adj_at s' a j = adj_at s a j).
Proof. intros. apply update_topology_spec_sec; assumption. Qed.
