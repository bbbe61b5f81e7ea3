(** Refinement histories: init, refineUniformly_recursion, iteration. *)
From Coq Require Import List Arith Bool Lia QArith Permutation.
From Verif Require Import ModelBase ModelTree SpecTree ProofTree ProofTreeWF.
Import ListNotations.
Local Close Scope Q_scope.
Local Open Scope nat_scope.

(** ** initialisation *)
Definition patch_addr (p : nat) : addr := [p].

Lemma seg_patches : forall s P k m, m + k = P -> 
  (forall i, i < P -> exists n, s [i] = Some n /\ n_prev n = (if i =? 0 then None else Some [i - 1])
      /\ n_next n = (if i =? P - 1 then None else Some [i + 1])) ->
  seg s (if k =? 0 then None else Some [k - 1]) (map patch_addr (seq k m)) None.
Proof.
  intros s P k m. revert k. induction m as [|m IH]; intros k Hk H; [exact I|].
  cbn [seq map seg]. split.
  - destruct (H k) as [n [E [Hp Hn]]]; [lia|]. exists n. split; [assumption|]. split; [assumption|].
    rewrite Hn. destruct m; simpl.
    + replace (k =? P - 1) with true; [reflexivity|]. symmetry. apply Nat.eqb_eq. lia.
    + replace (k =? P - 1) with false; [unfold patch_addr; do 2 f_equal; lia|]. symmetry. apply Nat.eqb_neq. lia.
  - specialize (IH (S k)). simpl in IH. rewrite Nat.sub_0_r in IH. apply IH; [lia|assumption].
Qed.

Lemma contiguous_patches : forall L m k, contiguous L (k * 4 ^ L) (map idlev (map patch_addr (seq k m))) ((k + m) * 4 ^ L).
Proof.
  intros L m. induction m as [|m IH]; intros k; cbn [seq map contiguous].
  - rewrite Nat.add_0_r. reflexivity.
  - change (idlev (patch_addr k)) with (k, 0). cbv iota. rewrite Nat.sub_0_r.
    split; [lia|]. split; [reflexivity|]. replace (k + S m) with (S k + m) by lia.
    replace (k + 1) with (S k) by lia. apply IH.
Qed.

Lemma init_patches_ok : forall verts npts M, (forall vs, In vs verts -> length vs = 4) ->
  exists t, init_patches verts npts M = Some t /\ WF t (map patch_addr (seq 0 (length verts)))
    /\ t_patches t = length verts /\ t_maxlevel t = M /\ t_points t = npts
    /\ update_topology (patch_store verts) (map patch_addr (seq 0 (length verts))) = Some (t_store t)
    /\ (forall a, is_leaf t a -> pos_level a = 0).
Proof.
  intros verts npts M H. unfold init_patches. set (P := length verts).
  set (els := map (fun p => [p]) (seq 0 P)).
  assert (Hp : forall p, p < P -> exists vs, In vs verts /\ patch_store verts [p] = Some (patch_node P p vs)
              /\ nth_error verts p = Some vs).
  { intros p Hp. unfold patch_store. destruct (nth_error verts p) as [vs|] eqn:E.
    - exists vs. split; [eapply nth_error_In; exact E|]. split; reflexivity.
    - apply nth_error_None in E. unfold P in Hp. lia. }
  assert (Hn : forall a, patch_store verts a <> None -> exists p, p < P /\ a = [p]).
  { intros a Ha. unfold patch_store in Ha. destruct a as [|p [|q a]]; try congruence.
    exists p. split; [|reflexivity]. destruct (nth_error verts p) eqn:E; [|congruence].
    apply nth_error_Some. congruence. }
  destruct (update_topology_ok els (patch_store verts)) as [s [E A]].
  { intros b Hb. unfold els in Hb. apply in_map_iff in Hb. destruct Hb as [p [<- Hb]]. apply in_seq in Hb.
    destruct (Hp p) as [vs [Hv [Es _]]]; [lia|]. eexists. split; [exact Es|]. split; [apply H; assumption|reflexivity]. }
  rewrite E. cbn [bind]. eexists. split; [reflexivity|].
  assert (Hs : forall p, p < P -> exists vs l', In vs verts /\ s [p] = Some (with_adj (patch_node P p vs) l') /\
              length l' = 4 /\ (forall c, In (Some c) l' -> In c els)).
  { intros p Hp'. destruct (Hp p Hp') as [vs [Hv [Es _]]]. pose proof (A [p]) as Ap. rewrite Es in Ap.
    destruct (s [p]) as [n'|]; [|tauto]. destruct Ap as [l' [-> [L I]]]. exists vs, l'.
    split; [assumption|]. split; [reflexivity|]. split; [assumption|]. intros c Hc. destruct (I c Hc) as [F|F]; [|assumption].
    simpl in F. repeat destruct F as [F|F]; try discriminate. destruct F. }
  assert (Hx : forall a, s a <> None <-> exists p, p < P /\ a = [p]).
  { intros a. split.
    - intros Ha. apply Hn. pose proof (A a) as Aa. destruct (patch_store verts a); [discriminate|].
      destruct (s a); [tauto|congruence].
    - intros [p [Hp' ->]]. destruct (Hs p Hp') as [vs [l' [_ [-> _]]]]. discriminate. }
  assert (Hels : forall a, In a els <-> exists p, p < P /\ a = [p]).
  { intros a. unfold els. rewrite in_map_iff. split.
    - intros [p [<- Hp']]. apply in_seq in Hp'. exists p. split; [lia|reflexivity].
    - intros [p [Hp' ->]]. exists p. split; [reflexivity|]. apply in_seq. lia. }
  assert (Hleafs : forall a n, s a = Some n -> n_ref n = false).
  { intros a n En. assert (Ha : s a <> None) by congruence. apply Hx in Ha. destruct Ha as [p [Hp' ->]].
    destruct (Hs p Hp') as [vs [l' [_ [Ep _]]]]. rewrite Ep in En. injection En as <-. reflexivity. }
  split; [|split; [reflexivity|split; [reflexivity|split; [reflexivity|split; [exact E|]]]]].
  2:{ intros a [n [En _]]. simpl in En. assert (Ha : s a <> None) by congruence. apply Hx in Ha.
      destruct Ha as [p [_ ->]]. reflexivity. }
  split; cbn [t_store t_first t_last t_patches t_maxlevel t_elements].
  - destruct (s []) eqn:E0; [|reflexivity]. assert (H0 : s [] <> None) by congruence. apply Hx in H0.
    destruct H0 as [p [_ H0]]. discriminate.
  - intros p. rewrite Hx. split; [intros [q [Hq Eq]]; injection Eq as ->; assumption|intros Hp'; eauto].
  - intros i a Ha. rewrite Hx. split.
    + intros [p [_ Ep]]. injection Ep as _ Ep. congruence.
    + intros [_ [n [En Rn]]]. rewrite (Hleafs a n En) in Rn. discriminate.
  - intros a n En. assert (Ha : s a <> None) by congruence. apply Hx in Ha. destruct Ha as [p [Hp' ->]].
    destruct (Hs p Hp') as [vs [l' [Hv [Ep [L _]]]]]. rewrite Ep in En. injection En as <-.
    split; cbn; try reflexivity; auto.
    unfold llc_ok. cbn. split; reflexivity.
  - intros a Ha. apply Hx in Ha. destruct Ha as [p [_ ->]]. unfold pos_level. simpl. lia.
  - intros a n b En Hb. assert (Ha : s a <> None) by congruence. apply Hx in Ha. destruct Ha as [p [Hp' ->]].
    destruct (Hs p Hp') as [vs [l' [Hv [Ep [L I]]]]]. rewrite Ep in En. injection En as <-. simpl in Hb.
    apply Hx, Hels, I. assumption.
  - apply (seg_patches s P 0 P); [lia|]. intros i Hi. destruct (Hs i Hi) as [vs [l' [_ [Ep _]]]].
    eexists. split; [exact Ep|]. split; reflexivity.
  - destruct P; reflexivity.
  - destruct P as [|P']; [reflexivity|]. rewrite seq_S, map_app, last_or_app. simpl.
    unfold patch_addr. rewrite Nat.sub_0_r. reflexivity.
  - intros a. change (map patch_addr (seq 0 P)) with els. rewrite Hels. unfold is_leaf. cbn [t_store]. split.
    + intros Ha. apply Hx in Ha. destruct (s a) as [n|] eqn:En; [|congruence]. exists n. split; [reflexivity|]. eapply Hleafs; exact En.
    + intros [n [En _]]. apply Hx. congruence.
  - apply FinFun.Injective_map_NoDup; [|apply seq_NoDup]. intros x y F. injection F. auto.
  - intros L _. apply (contiguous_patches L P 0).
  - rewrite map_length, seq_length. reflexivity.
Qed.

(** ** refineUniformly_recursion *)

Lemma under_refl : forall a, under a a.
Proof. intros. exists []. reflexivity. Qed.
Lemma under_cons : forall a i b, under a b -> under a (i :: b).
Proof. intros a i b [x ->]. exists (i :: x). reflexivity. Qed.
Lemma under_father : forall a i b, under (i :: a) b -> under a b.
Proof. intros a i b [x ->]. exists (x ++ [i]). rewrite <- app_assoc. reflexivity. Qed.
Lemma under_split : forall a b, under a b -> b = a \/ exists i, under (i :: a) b.
Proof.
  intros a b [x ->]. destruct x as [|i x] using rev_ind; [left; reflexivity|].
  right. exists i. exists x. rewrite <- app_assoc. reflexivity.
Qed.
Lemma app_inj_len : forall (x y a b : list nat), x ++ a = y ++ b -> length a = length b -> x = y /\ a = b.
Proof.
  intros x. induction x as [|u x IH]; intros [|v y] a b E L; simpl in E.
  - auto.
  - subst a. simpl in L. rewrite app_length in L. lia.
  - subst b. simpl in L. rewrite app_length in L. lia.
  - injection E as -> E. destruct (IH y a b E L) as [-> ->]. auto.
Qed.
Lemma under_disjoint : forall a i j b, under (i :: a) b -> under (j :: a) b -> i = j.
Proof.
  intros a i j b [x ->] [y E]. apply app_inj_len in E; [|reflexivity]. destruct E as [_ E]. injection E. auto.
Qed.
Lemma under_self_not : forall a i, ~ under (i :: a) a.
Proof. intros a i [x E]. apply (f_equal (@length nat)) in E. rewrite app_length in E. simpl in E. lia. Qed.
Lemma under_cons_inv : forall a i b, under a (i :: b) -> a = i :: b \/ under a b.
Proof. intros a i b [[|j x] E]; simpl in E; [left; auto|]. injection E as -> E. right. exists x; assumption. Qed.

(** the set S of old nodes is refined, everything else is unchanged *)
Record grown (S : addr -> Prop) (t t' : tree) : Prop := {
  gr_patches : t_patches t' = t_patches t;
  gr_old : forall b n, t_store t b = Some n -> exists n', t_store t' b = Some n' /\ same_data n n' /\
     (n_ref n' = true <-> n_ref n = true \/ S b);
  gr_new : forall b, t_store t' b <> None -> t_store t b <> None \/
     exists i c, b = i :: c /\ i < 4 /\ is_leaf t c /\ S c;
  gr_ml : t_maxlevel t <= t_maxlevel t' /\
     forall K, (forall c, is_leaf t c -> S c -> pos_level c < K) -> t_maxlevel t' <= Nat.max (t_maxlevel t) K }.

Lemma same_data_refl : forall n, same_data n n.
Proof. intros. repeat split. Qed.
Lemma same_data_trans : forall a b c, same_data a b -> same_data b c -> same_data a c.
Proof.
  intros a b c [A1 [A2 [A3 [A4 A5]]]] [B1 [B2 [B3 [B4 B5]]]]. repeat split; congruence.
Qed.

Lemma refine_leaf_grown : forall t l a, WF t l -> is_leaf t a ->
  exists t' l', refine_leaf t a = Some t' /\ WF t' l' /\ grown (fun b => b = a) t t'.
Proof.
  intros t l a W [c [Ea Er]].
  assert (Hin : In a l) by (apply (wf_leaf t l W); exists c; auto).
  apply in_split in Hin. destruct Hin as [l1 [l2 ->]].
  destruct (refine_leaf_ok t l1 a l2 c W Ea Er) as [t' [E [W' So]]].
  exists t'. eexists. split; [assumption|]. split; [exact W'|].
  assert (Old : forall i, t_store t (i :: a) = None) by (intros; eapply leaf_sons_none; eauto).
  split.
  - apply (so_patches _ _ _ _ So).
  - intros b n En. destruct (list_eq_dec Nat.eq_dec b a) as [->|Hb].
    + assert (n = c) by congruence. subst n. destruct (so_self _ _ _ _ So) as [n' [En' [Sn Rn]]].
      exists n'. split; [assumption|]. split; [assumption|]. split; auto.
    + assert (Hbs : forall i, i < 4 -> b <> i :: a) by (intros i Hi ->; rewrite Old in En; discriminate).
      pose proof (so_other _ _ _ _ So b Hb Hbs) as H. rewrite En in H. destruct (t_store t' b) as [n'|]; [|tauto].
      destruct H as [Sn Rn]. exists n'. split; [reflexivity|]. split; [assumption|]. rewrite Rn. split; [tauto|].
      intros [H|H]; [assumption|congruence].
  - intros b Hb'. destruct (t_store t b) eqn:En; [left; discriminate|right].
    destruct (list_eq_dec Nat.eq_dec b a) as [->|Hb]; [congruence|].
    destruct b as [|i b].
    { exfalso. apply Hb'. apply (wf_root t' _ W'). }
    destruct (list_eq_dec Nat.eq_dec b a) as [->|Hba].
    + destruct (lt_dec i 4) as [Hi|Hi].
      * exists i, a. repeat split; auto. exists c; auto.
      * exfalso. apply Hi. apply (wf_son t' _ W' i a) in Hb'; [tauto|]. eapply wf_nonroot; [exact W|congruence].
    + exfalso. assert (Hbs : forall j, j < 4 -> i :: b <> j :: a) by (intros j Hj F; congruence).
      pose proof (so_other _ _ _ _ So _ Hb Hbs) as H. rewrite En in H. destruct (t_store t' (i :: b)); tauto.
  - rewrite (so_maxlevel _ _ _ _ So). split; [lia|]. intros K HK. specialize (HK a (ex_intro _ c (conj Ea Er)) eq_refl). lia.
Qed.

Lemma grown_ext : forall (S S' : addr -> Prop) t t',
  (forall b, t_store t b <> None -> (S b <-> S' b)) -> grown S t t' -> grown S' t t'.
Proof.
  intros S S' t t' H [G1 G2 G3 G4]. split; [assumption| | |].
  - intros b n En. destruct (G2 b n En) as [n' [E [Sd R]]]. exists n'. rewrite <- (H b) by congruence. auto.
  - intros b Hb. destruct (G3 b Hb) as [K|[i [c [E [Hi [Lc Sc]]]]]]; [left; assumption|right].
    exists i, c. repeat split; auto. apply H; [destruct Lc as [n [En _]]; congruence|assumption].
  - split; [apply G4|]. intros K HK. apply G4. intros c Lc Sc. apply HK; [assumption|].
    apply H; [destruct Lc as [n [En _]]; congruence|assumption].
Qed.

(** composition when the second step concerns nodes untouched by the first *)
Lemma grown_trans : forall (S1 S2 : addr -> Prop) t t1 t2, 
  (forall c, S2 c -> t_store t1 c <> None -> t_store t c <> None /\ ~ S1 c) ->
  grown S1 t t1 -> grown S2 t1 t2 -> grown (fun b => S1 b \/ S2 b) t t2.
Proof.
  intros S1 S2 t t1 t2 Hd [A1 A2 A3 A4] [B1 B2 B3 B4].
  assert (Hleaf : forall c, is_leaf t1 c -> S2 c -> is_leaf t c).
  { intros c [n1 [E1 R1]] Sc. destruct (Hd c Sc) as [Hc _]; [congruence|].
    destruct (t_store t c) as [n|] eqn:En; [|congruence]. exists n. split; [assumption|].
    destruct (A2 c n En) as [n' [E' [_ R']]]. assert (n' = n1) by congruence. subst n'.
    destruct (n_ref n); [|reflexivity]. rewrite (proj2 R') in R1; [discriminate|auto]. }
  split.
  - congruence.
  - intros b n En. destruct (A2 b n En) as [n1 [E1 [D1 R1]]]. destruct (B2 b n1 E1) as [n2 [E2 [D2 R2]]].
    exists n2. split; [assumption|]. split; [eapply same_data_trans; eassumption|]. tauto.
  - intros b Hb. destruct (B3 b Hb) as [K|[i [c [-> [Hi [[n1 [E1 R1]] Sc]]]]]].
    + destruct (A3 b K) as [K'|[i [c [E [Hi [Lc Sc]]]]]]; [left; assumption|right; exists i, c; tauto].
    + right. exists i, c. split; [reflexivity|]. split; [assumption|].
      split; [|tauto]. apply Hleaf; [exists n1; auto|assumption].
  - destruct A4 as [A5 A6]. destruct B4 as [B5 B6]. split; [lia|]. intros K HK.
    specialize (A6 K (fun c Lc Sc => HK c Lc (or_introl Sc))).
    specialize (B6 K (fun c Lc Sc => HK c (Hleaf c Lc Sc) (or_intror Sc))). lia.
Qed.

Lemma grown_exists : forall S t t' b, grown S t t' -> t_store t b <> None -> t_store t' b <> None.
Proof.
  intros S t t' b G H. destruct (t_store t b) as [n|] eqn:E; [|congruence].
  destruct (gr_old _ _ _ G b n E) as [n' [E' _]]. congruence.
Qed.

Lemma refine_rec_grown : forall fuel t l a D, WF t l -> t_store t a <> None ->
  (forall b, under a b -> t_store t b <> None -> pos_level b <= D) -> D < pos_level a + fuel ->
  exists t' l', refine_rec fuel t a = Some t' /\ WF t' l' /\ grown (under a) t t'.
Proof.
  induction fuel as [|f IH]; intros t l a D W Ha HD Hf.
  { specialize (HD a (under_refl a) Ha). lia. }
  destruct (t_store t a) as [c|] eqn:Ea; [|congruence].
  assert (Hne : a <> []) by (eapply wf_nonroot; [exact W|congruence]).
  cbn [refine_rec]. rewrite Ea. cbn [bind]. destruct (n_ref c) eqn:Er.
  - (* the four sons in turn *)
    assert (Step : forall i t0 l0 S, i < 4 -> WF t0 l0 -> grown S t t0 -> 
              (forall b, S b <-> exists j, j < i /\ under (j :: a) b) ->
              exists t1 l1, refine_rec f t0 (i :: a) = Some t1 /\ WF t1 l1 /\
                grown (fun b => exists j, j < i + 1 /\ under (j :: a) b) t t1).
    { intros i t0 l0 S Hi W0 G HS.
      assert (Hold : forall b, under (i :: a) b -> t_store t0 b <> None -> t_store t b <> None).
      { intros b Hb Hx. destruct (gr_new _ _ _ G b Hx) as [K|[j [d [-> [Hj [Ld Sd]]]]]]; [assumption|].
        exfalso. apply HS in Sd. destruct Sd as [k [Hk Hu]].
        apply under_cons_inv in Hb. destruct Hb as [Hb|Hb].
        - injection Hb as <- <-. apply under_self_not in Hu. assumption.
        - assert (k = i) by (eapply under_disjoint; eassumption). lia. }
      destruct (IH t0 l0 (i :: a) D) as [t1 [l1 [E1 [W1 G1]]]].
      - assumption.
      - eapply grown_exists; [exact G|]. eapply wf_refined_son; eauto.
      - intros b Hb Hx. apply HD; [eapply under_father; exact Hb|auto].
      - rewrite pos_level_cons by assumption. lia.
      - exists t1, l1. split; [assumption|]. split; [assumption|].
        eapply grown_ext; [|eapply grown_trans; [|exact G|exact G1]].
        + intros b _. cbn beta. rewrite HS. split.
          * intros [[j [Hj Hu]]|Hu]; [exists j; split; [lia|assumption]|exists i; split; [lia|assumption]].
          * intros [j [Hj Hu]]. destruct (Nat.eq_dec j i) as [->|]; [right; assumption|left; exists j; split; [lia|assumption]].
        + intros d Hd Hx. split; [apply Hold; assumption|]. rewrite HS. intros [j [Hj Hu]].
          assert (j = i) by (eapply under_disjoint; eassumption). lia. }
    assert (G0 : grown (fun b => exists j, j < 0 /\ under (j :: a) b) t t).
    { split; [reflexivity| |intros; left; assumption|split; [lia|intros; lia]].
      intros b n En. exists n. split; [assumption|]. split; [apply same_data_refl|].
      split; [tauto|intros [H|[j [Hj _]]]; [assumption|lia]]. }
    destruct (fun H => Step 0 t l _ H W G0) as [t1 [l1 [E1 [W1 G1]]]]; [lia|intros; reflexivity|].
    rewrite E1. cbn [bind].
    destruct (fun H => Step 1 t1 l1 _ H W1 G1) as [t2 [l2 [E2 [W2 G2]]]]; [lia|intros; reflexivity|].
    rewrite E2. cbn [bind].
    destruct (fun H => Step 2 t2 l2 _ H W2 G2) as [t3 [l3 [E3 [W3 G3]]]]; [lia|intros; reflexivity|].
    rewrite E3. cbn [bind].
    destruct (fun H => Step 3 t3 l3 _ H W3 G3) as [t4 [l4 [E4 [W4 G4]]]]; [lia|intros; reflexivity|].
    exists t4, l4. split; [assumption|]. split; [assumption|].
    (* a itself was refined already *)
    destruct G4 as [P1 P2 P3 P4]. split; [assumption| | |].
    + intros b n En. destruct (P2 b n En) as [n' [E' [D' R']]]. exists n'. split; [assumption|].
      split; [assumption|]. rewrite R'. split.
      * intros [H|[j [_ Hu]]]; [auto|right; eapply under_father; exact Hu].
      * intros [H|Hu]; [auto|]. apply under_split in Hu. destruct Hu as [->|[i Hu]].
        { left. congruence. }
        right. exists i. split; [|assumption].
        assert (Hson : t_store t (i :: a) <> None).
        { clear - Hu W En. destruct Hu as [x ->]. revert n En. induction x as [|y x IHx]; intros n En; [simpl in En; congruence|].
          assert (K : t_store t (y :: x ++ i :: a) <> None) by (simpl in En; congruence).
          apply (wf_son t l W) in K; [|destruct x; discriminate].
          destruct K as [_ [m [Em _]]]. eapply IHx; exact Em. }
        apply (wf_son t l W) in Hson; [lia|assumption].
    + intros b Hb. destruct (P3 b Hb) as [K|[i [d [E [Hi [Ld [j [_ Hu]]]]]]]]; [auto|right].
      exists i, d. repeat split; auto. eapply under_father; exact Hu.
    + split; [apply P4|]. intros K HK. apply P4. intros d Ld [j [_ Hu]]. apply HK; [assumption|eapply under_father; exact Hu].
  - destruct (refine_leaf_grown t l a W) as [t' [l' [E [W' G]]]]; [exists c; auto|].
    exists t', l'. split; [assumption|]. split; [assumption|].
    eapply grown_ext; [|exact G]. intros b Hb. cbn beta. split; [intros ->; apply under_refl|].
    intros Hu. apply under_split in Hu. destruct Hu as [->|[i [x E']]]; [reflexivity|]. exfalso.
    assert (Hson : t_store t (i :: a) <> None).
    { clear - Hb W E'. subst b. induction x as [|y x IHx]; [assumption|]. simpl in Hb.
      apply (wf_son t l W) in Hb; [|destruct x; discriminate].
      destruct Hb as [_ [m [Em _]]]. apply IHx. congruence. }
    apply Hson. eapply leaf_sons_none; eauto.
Qed.

Lemma refine_at_grown : forall t l a, WF t l -> t_store t a <> None ->
  exists t' l', refine_at t a = Some t' /\ WF t' l' /\ grown (under a) t t'.
Proof.
  intros t l a W Ha. unfold refine_at. eapply refine_rec_grown with (D := t_maxlevel t); eauto.
  - intros b _ Hb. apply (wf_ml t l W b Hb).
  - lia.
Qed.

Lemma wf_addr_patch : forall t l a, WF t l -> t_store t a <> None -> under [pos_patch a] a /\ pos_patch a < t_patches t.
Proof.
  intros t l a W. induction a as [|i a IH]; intros H.
  - exfalso. apply H. apply (wf_root t l W).
  - destruct a as [|j a].
    + unfold pos_patch. simpl. split; [apply under_refl|]. apply (wf_patch t l W). assumption.
    + apply (wf_son t l W) in H; [|discriminate]. destruct H as [_ [n [En _]]].
      rewrite pos_patch_cons by discriminate. destruct IH as [U B]; [congruence|].
      split; [apply under_cons|]; assumption.
Qed.

Lemma refine_uniformly_grown : forall t l, WF t l ->
  exists t' l', refine_uniformly t = Some t' /\ WF t' l' /\ grown (fun _ => True) t t'.
Proof.
  intros t l W. unfold refine_uniformly.
  destruct (for_opt_inv (fun k x => (exists lx, WF x lx) /\ grown (fun b => pos_patch b < k) t x)
              (t_patches t) (fun p t' => refine_rec (t_maxlevel t + 2) t' [p]) t) as [t' [E [[l' W'] G]]].
  - split; [eauto|]. split; [reflexivity| |intros; left; assumption|split; [lia|intros; lia]].
    intros b n En. exists n. split; [assumption|]. split; [apply same_data_refl|].
    split; [tauto|intros [H|H]; [assumption|lia]].
  - intros p x Hp [[lx Wx] G].
    assert (Upatch : forall b, under [p] b -> pos_patch b = p).
    { intros b [y ->]. unfold pos_patch. apply last_last. }
    assert (Hold : forall b, under [p] b -> t_store x b <> None -> t_store t b <> None).
    { intros b Hb Hx. destruct (gr_new _ _ _ G b Hx) as [K|[j [d [-> [Hj [[n [En _]] Sd]]]]]]; [assumption|].
      exfalso. pose proof (Upatch _ Hb) as Up. rewrite pos_patch_cons in Up; [lia|].
      eapply wf_nonroot; [exact W|congruence]. }
    destruct (refine_rec_grown (t_maxlevel t + 2) x lx [p] (t_maxlevel t)) as [x' [lx' [Ex [Wx' Gx]]]].
    + assumption.
    + eapply grown_exists; [exact G|]. apply (wf_patch t l W). assumption.
    + intros b Hb Hx. apply (wf_ml t l W). auto.
    + lia.
    + exists x'. split; [assumption|]. split; [eauto|].
      eapply grown_ext; [|eapply grown_trans; [|exact G|exact Gx]].
      * intros b Hb. cbn beta. split.
        { intros [H|H]; [lia|]. rewrite (Upatch b H). lia. }
        { intros H. destruct (Nat.eq_dec (pos_patch b) p) as [Ep|]; [right|left; lia].
          destruct (wf_addr_patch t l b W Hb) as [U _]. rewrite Ep in U. assumption. }
      * intros d Hd Hx. split; [auto|]. rewrite (Upatch d Hd). lia.
  - exists t', l'. split; [assumption|]. split; [assumption|].
    eapply grown_ext; [|exact G]. intros b Hb. cbn beta. split; [trivial|]. intros _.
    apply (wf_addr_patch t l b W Hb).
Qed.

(** ** histories *)
Lemma run_op_ok : forall t l o, WF t l -> op_valid t o ->
  exists t' l', run_op t o = Some t' /\ WF t' l' /\ t_patches t' = t_patches t.
Proof.
  intros t l [|p|a] W H; simpl in *.
  - destruct (refine_uniformly_grown t l W) as [t' [l' [E [W' G]]]]. exists t', l'. split; [assumption|]. split; [assumption|]. apply (gr_patches _ _ _ G).
  - destruct (refine_at_grown t l [p] W) as [t' [l' [E [W' G]]]]; [apply (wf_patch t l W); assumption|].
    exists t', l'. split; [assumption|]. split; [assumption|]. apply (gr_patches _ _ _ G).
  - destruct (refine_at_grown t l a W H) as [t' [l' [E [W' G]]]]. exists t', l'. split; [assumption|]. split; [assumption|]. apply (gr_patches _ _ _ G).
Qed.

Lemma run_ok : forall os t l, WF t l -> ops_valid t os ->
  exists t' l', run t os = Some t' /\ WF t' l' /\ t_patches t' = t_patches t.
Proof.
  induction os as [|o os IH]; intros t l W H.
  - exists t, l. auto.
  - destruct H as [Ho H]. destruct (run_op_ok t l o W Ho) as [t1 [l1 [E1 [W1 P1]]]].
    destruct (IH t1 l1 W1 (H t1 E1)) as [t2 [l2 [E2 [W2 P2]]]].
    exists t2, l2. cbn [run]. rewrite E1. cbn [bind]. split; [assumption|]. split; [assumption|congruence].
Qed.

Definition all_level (t : tree) (M : nat) : Prop := forall a, is_leaf t a -> pos_level a = M.

Lemma refine_uniformly_level : forall t l M, WF t l -> all_level t M ->
  exists t' l', refine_uniformly t = Some t' /\ WF t' l' /\ t_patches t' = t_patches t /\ all_level t' (S M)
    /\ t_maxlevel t <= t_maxlevel t' <= Nat.max (t_maxlevel t) (S M).
Proof.
  intros t l M W H. destruct (refine_uniformly_grown t l W) as [t' [l' [E [W' G]]]].
  exists t', l'. split; [assumption|]. split; [assumption|]. split; [apply (gr_patches _ _ _ G)|].
  split.
  2:{ split; [apply (gr_ml _ _ _ G)|]. apply (gr_ml _ _ _ G). intros c Lc _. rewrite (H c Lc). lia. }
  intros a [n' [En' Rn']]. destruct (gr_new _ _ _ G a) as [K|[i [c [-> [Hi [Lc _]]]]]]; [congruence| |].
  - destruct (t_store t a) as [n|] eqn:En; [|congruence].
    destruct (gr_old _ _ _ G a n En) as [m [Em [_ Rm]]]. assert (m = n') by congruence. subst m.
    rewrite (proj2 Rm (or_intror I)) in Rn'. discriminate.
  - rewrite pos_level_cons; [rewrite (H c Lc); reflexivity|]. destruct Lc as [n [En _]]. eapply wf_nonroot; [exact W|congruence].
Qed.

Lemma refine_times_ok : forall k t l M, WF t l -> all_level t M ->
  exists t' l', refine_times k t = Some t' /\ WF t' l' /\ t_patches t' = t_patches t /\ all_level t' (M + k)
    /\ t_maxlevel t <= t_maxlevel t' <= Nat.max (t_maxlevel t) (M + k).
Proof.
  intros k t l M W H. unfold refine_times.
  destruct (for_opt_inv (fun i x => (exists lx, WF x lx) /\ t_patches x = t_patches t /\ all_level x (M + i)
                /\ t_maxlevel t <= t_maxlevel x <= Nat.max (t_maxlevel t) (M + i))
              k (fun _ t' => refine_uniformly t') t) as [t' [E [[l' W'] [P' [A' B']]]]].
  - rewrite Nat.add_0_r. split; [eauto|]. split; [reflexivity|]. split; [assumption|]. lia.
  - intros i x Hi [[lx Wx] [Px [Ax Bx]]]. destruct (refine_uniformly_level x lx (M + i) Wx Ax) as [x' [lx' [Ex [Wx' [Px' [Ax' Bx']]]]]].
    exists x'. split; [assumption|]. split; [eauto|]. split; [congruence|]. rewrite Nat.add_succ_r. split; [assumption|]. lia.
  - exists t', l'. auto.
Qed.

Lemma add_pts_length : forall {Pt} (close : Pt -> Pt -> bool) vs pts, length (fst (add_pts close pts vs)) = length vs.
Proof.
  intros Pt close vs. induction vs as [|v vs IH]; intros pts; [reflexivity|]. cbn [add_pts].
  destruct (add_pt close pts v) as [k pts1]. specialize (IH pts1). destruct (add_pts close pts1 vs) as [ks pts2].
  simpl in *. lia.
Qed.

Lemma patch_vertices_length : forall {Pt} (close : Pt -> Pt -> bool) cs pts,
  length (fst (patch_vertices close pts cs)) = length cs /\
  ((forall c, In c cs -> length c = 4) -> forall vs, In vs (fst (patch_vertices close pts cs)) -> length vs = 4).
Proof.
  intros Pt close cs. induction cs as [|c cs IH]; intros pts; cbn [patch_vertices].
  - simpl. split; [reflexivity|tauto].
  - pose proof (add_pts_length close c pts) as L. destruct (add_pts close pts c) as [ks pts1].
    destruct (IH pts1) as [L1 I1]. destruct (patch_vertices close pts1 cs) as [kss pts2]. simpl in *.
    split; [lia|]. intros H vs [<-|Hv]; [rewrite L; apply H; auto|apply I1; [intros; apply H; auto|assumption]].
Qed.

Lemma init_tree_ok : forall {Pt} (close : Pt -> Pt -> bool) corners M,
  (forall c, In c corners -> length c = 4) ->
  exists t l, init_tree close corners M = Some t /\ WF t l /\ t_patches t = length corners /\ all_level t M
    /\ t_maxlevel t = M.
Proof.
  intros Pt close corners M H. unfold init_tree.
  destruct (patch_vertices_length close corners []) as [L I].
  destruct (patch_vertices close [] corners) as [verts pts]. simpl in L, I.
  destruct (init_patches_ok verts (length pts) M (I H)) as [t [E [W [Pt' [Ml [_ [_ A]]]]]]].
  rewrite E. cbn [bind]. destruct (refine_times_ok M t _ 0 W A) as [t' [l' [E' [W' [P' [A' B']]]]]].
  exists t', l'. split; [assumption|]. split; [assumption|]. split; [congruence|]. split; [assumption|lia].
Qed.

(** ** iteration *)
Lemma iterate_seg : forall s l pr nx, seg s pr l nx -> ~ In nx (map Some l) -> NoDup l ->
  iterate (length l) s (hd_or l nx) nx = Some l.
Proof.
  intros s l. induction l as [|a l IH]; intros pr nx Hs Hn Hd.
  - simpl. rewrite (proj2 (ptr_eqb_eq nx nx) eq_refl). destruct nx; reflexivity.
  - cbn [hd_or length iterate]. rewrite ptr_eqb_neq; [|intros E; apply Hn; left; assumption].
    destruct Hs as [[n [E [_ Hx]]] Hs]. rewrite E. cbn [bind]. rewrite Hx.
    rewrite (IH (Some a) nx); [reflexivity|assumption| |inversion Hd; assumption].
    intros H. apply Hn. right; assumption.
Qed.

Lemma traverse_ok : forall t l, WF t l -> 0 < t_patches t -> traverse t = Some l.
Proof.
  intros t l W HP. unfold traverse. rewrite (wf_last t l W).
  assert (Hl : l <> []).
  { intros ->. pose proof (wf_order t [] W 0) as H. simpl in H.
    specialize (H (fun a F => match F with end)). lia. }
  destruct (last_or_cases l None) as [[-> _]|[l' [b [-> E]]]]; [congruence|]. rewrite E.
  pose proof (wf_seg t _ W) as S. pose proof S as S'. apply seg_app in S'. destruct S' as [_ [[n [En [_ Hx]]] _]].
  rewrite En. cbn [bind]. rewrite Hx. cbn [hd_or].
  rewrite <- (wf_count t _ W), (wf_first t _ W). apply (iterate_seg _ _ None); [assumption| |apply (wf_nodup t _ W)].
  intros H. apply in_map_iff in H. destruct H as [x [H _]]. discriminate.
Qed.
