(** Proofs for the block cluster tree. *)
From Coq Require Import List Arith Bool Lia QArith ZArith Reals Lra.
From Verif Require Import ModelBase ModelTree ModelBlock SpecTree SpecBlock
  ProofTree ProofTreeWF ProofTreeHist ProofTreeGeo ProofTreeLook.
Import ListNotations.
Local Close Scope Q_scope.
Local Open Scope nat_scope.

(** ** exactly one *)
Definition one {A} (Q : A -> Prop) (l : list A) : Prop :=
  exists l1 x l2, l = l1 ++ x :: l2 /\ Q x /\ forall y, In y (l1 ++ l2) -> ~ Q y.

Lemma one_exactly : forall {A} (Q : A -> Prop) l, one Q l <-> exactly_one Q l.
Proof.
  intros A Q l. split.
  - intros [l1 [x [l2 [-> [Hx Hn]]]]]. exists (length l1). split.
    + exists x. split; [|assumption]. rewrite nth_error_app2, Nat.sub_diag by lia. reflexivity.
    + intros i [y [Hi Hy]]. destruct (lt_eq_lt_dec i (length l1)) as [[H|H]|H]; [|auto|].
      * exfalso. rewrite nth_error_app1 in Hi by assumption. apply (Hn y); [|assumption].
        apply in_or_app. left. eapply nth_error_In; eauto.
      * exfalso. rewrite nth_error_app2 in Hi by lia. destruct (i - length l1) as [|k] eqn:E; [lia|]. simpl in Hi.
        apply (Hn y); [|assumption]. apply in_or_app. right. eapply nth_error_In; eauto.
  - intros [i [[x [Hi Hx]] U]]. apply nth_error_split in Hi. destruct Hi as [l1 [l2 [-> L]]].
    exists l1, x, l2. split; [reflexivity|]. split; [assumption|]. intros y Hy Qy.
    apply in_app_or in Hy. destruct Hy as [Hy|Hy].
    + apply In_nth_error in Hy. destruct Hy as [k Hk]. assert (k < length l1) by (apply nth_error_Some; congruence).
      assert (i = k); [|lia]. apply U. exists y. rewrite nth_error_app1 by assumption. auto.
    + apply In_nth_error in Hy. destruct Hy as [k Hk].
      assert (i = length l1 + S k); [|lia]. apply U. exists y. rewrite nth_error_app2 by lia.
      replace (length l1 + S k - length l1) with (S k) by lia. auto.
Qed.

Lemma one_app_l : forall {A} (Q : A -> Prop) l l', one Q l -> (forall y, In y l' -> ~ Q y) -> one Q (l ++ l').
Proof.
  intros A Q l l' [l1 [x [l2 [-> [Hx Hn]]]]] H. exists l1, x, (l2 ++ l').
  rewrite <- app_assoc. split; [reflexivity|]. split; [assumption|]. intros y Hy.
  rewrite !in_app_iff in Hy. destruct Hy as [Hy|[Hy|Hy]]; [apply Hn; apply in_or_app; auto|apply Hn; apply in_or_app; auto|auto].
Qed.
Lemma one_app_r : forall {A} (Q : A -> Prop) l l', one Q l' -> (forall y, In y l -> ~ Q y) -> one Q (l ++ l').
Proof.
  intros A Q l l' [l1 [x [l2 [-> [Hx Hn]]]]] H. exists (l ++ l1), x, l2.
  rewrite <- app_assoc. split; [reflexivity|]. split; [assumption|]. intros y Hy.
  rewrite !in_app_iff in Hy. destruct Hy as [[Hy|Hy]|Hy]; [auto|apply Hn; apply in_or_app; auto|apply Hn; apply in_or_app; auto].
Qed.
Lemma one_cons : forall {A} (Q : A -> Prop) a l, one Q (a :: l) -> (Q a /\ forall y, In y l -> ~ Q y) \/ (~ Q a /\ one Q l).
Proof.
  intros A Q a l [l1 [x [l2 [E [Hx Hn]]]]]. destruct l1 as [|b l1]; simpl in E; injection E as -> ->.
  - left. split; [assumption|]. intros; apply Hn; assumption.
  - right. split; [apply Hn; left; reflexivity|]. exists l1, x, l2. split; [reflexivity|]. split; [assumption|].
    intros y Hy. apply Hn. right. assumption.
Qed.
Lemma one_intro_cons : forall {A} (Q : A -> Prop) a l, (Q a /\ forall y, In y l -> ~ Q y) \/ (~ Q a /\ one Q l) -> one Q (a :: l).
Proof.
  intros A Q a l [[Ha Hn]|[Ha H]].
  - exists [], a, l. auto.
  - apply (one_app_r Q [a] l H). intros y [<-|[]]; assumption.
Qed.

Lemma one_flat_map : forall {A B} (P : A -> Prop) (Q : B -> Prop) (g : A -> list B) l, one P l ->
  (forall x, In x l -> P x -> one Q (g x)) -> (forall x, In x l -> ~ P x -> forall y, In y (g x) -> ~ Q y) ->
  one Q (flat_map g l).
Proof.
  intros A B P Q g l. induction l as [|a l IH]; intros H H1 H2.
  - destruct H as [[|? ?] [x [l2 [E _]]]]; discriminate.
  - simpl. apply one_cons in H. destruct H as [[Ha Hn]|[Ha H]].
    + apply one_app_l; [apply H1; [left|]; auto|]. intros y Hy. apply in_flat_map in Hy. destruct Hy as [x [Hx Hy]].
      apply (H2 x); auto. right; assumption.
    + apply one_app_r; [apply IH; auto; intros|intros y Hy; apply (H2 a); auto; left; reflexivity].
      * apply H1; auto. right; assumption.
      * apply (H2 x); auto. right; assumption.
Qed.

Lemma one_prod : forall {A B} (P : A -> Prop) (Q : B -> Prop) la lb, one P la -> one Q lb ->
  one (fun ij => P (fst ij) /\ Q (snd ij)) (flat_map (fun j => map (fun i => (i, j)) la) lb).
Proof.
  intros A B P Q la lb Ha Hb. apply one_flat_map with (P := Q); [assumption| |].
  - intros j _ Hj. destruct Ha as [l1 [x [l2 [-> [Hx Hn]]]]]. rewrite map_app. simpl.
    exists (map (fun i => (i, j)) l1), (x, j), (map (fun i => (i, j)) l2). split; [reflexivity|]. split; [auto|].
    intros y Hy. rewrite <- map_app in Hy. apply in_map_iff in Hy. destruct Hy as [z [<- Hz]]. simpl. intros [K _]. exact (Hn z Hz K).
  - intros j _ Hj y Hy. apply in_map_iff in Hy. destruct Hy as [z [<- Hz]]. simpl. tauto.
Qed.

Lemma map_opt_in : forall {A B} (F : A -> option B) l s, map_opt F l = Some s ->
  forall y, In y s -> exists x, In x l /\ F x = Some y.
Proof.
  intros A B F l. induction l as [|a l IH]; intros s E y Hy; simpl in E.
  - injection E as <-. destruct Hy.
  - destruct (F a) as [b|] eqn:Fa; [|discriminate]. simpl in E. destruct (map_opt F l) as [r|] eqn:El; [|discriminate].
    simpl in E. injection E as <-. destruct Hy as [<-|Hy]; [exists a; split; [left|]; auto|].
    destruct (IH r eq_refl y Hy) as [x [Hx Fx]]. exists x. split; [right|]; auto.
Qed.
Lemma map_opt_some : forall {A B} (F : A -> option B) l, (forall x, In x l -> exists y, F x = Some y) ->
  exists s, map_opt F l = Some s.
Proof.
  intros A B F l. induction l as [|a l IH]; intros H; simpl; [eauto|].
  destruct (H a) as [b Eb]; [left; reflexivity|]. rewrite Eb. simpl.
  destruct IH as [s Es]; [intros; apply H; right; assumption|]. rewrite Es. simpl. eauto.
Qed.

Lemma one_map_opt : forall {A B C} (F : A -> option B) (g : B -> list C) (P : A -> Prop) (Q : C -> Prop) l s,
  map_opt F l = Some s -> one P l ->
  (forall x y, In x l -> F x = Some y -> P x -> one Q (g y)) ->
  (forall x y, In x l -> F x = Some y -> ~ P x -> forall z, In z (g y) -> ~ Q z) ->
  one Q (flat_map g s).
Proof.
  intros A B C F g P Q l. induction l as [|a l IH]; intros s E H H1 H2; simpl in E.
  - destruct H as [[|? ?] [x [l2 [E' _]]]]; discriminate.
  - destruct (F a) as [b|] eqn:Fa; [|discriminate]. simpl in E. destruct (map_opt F l) as [r|] eqn:El; [|discriminate].
    simpl in E. injection E as <-. simpl. apply one_cons in H. destruct H as [[Ha Hn]|[Ha H]].
    + apply one_app_l; [apply (H1 a); auto; left; reflexivity|]. intros z Hz. apply in_flat_map in Hz.
      destruct Hz as [y [Hy Hz]]. destruct (map_opt_in F l r El y Hy) as [x [Hx Fx]].
      apply (H2 x y); auto. right; assumption.
    + apply one_app_r; [|intros z Hz; apply (H2 a b); auto; left; reflexivity].
      apply IH; auto.
      * intros x y Hx. apply H1. right; assumption.
      * intros x y Hx. apply H2. right; assumption.
Qed.

(** ** clusters and their index ranges *)
Definition cl (t : tree) (a : addr) : Prop := a = [] \/ t_store t a <> None.

Lemma iterate_hd : forall f s cur stop m, iterate f s cur stop = Some m -> m <> [] -> cur = hd_or m None.
Proof.
  intros f s cur stop m H Hm. destruct f; cbn [iterate] in H; destruct (ptr_eqb cur stop); try congruence.
  destruct cur as [c|]; [|discriminate]. destruct (s c) as [n|]; [|discriminate]. cbn [bind] in H.
  destruct (iterate f s (n_next n) stop); [|discriminate]. cbn [bind] in H. injection H as <-. reflexivity.
Qed.
Lemma iterate_end : forall s m' x f cur stop, iterate f s cur stop = Some (m' ++ [x]) ->
  exists n, s x = Some n /\ n_next n = stop.
Proof.
  intros s m'. induction m' as [|y m' IH]; intros x f cur stop H.
  - destruct f; cbn [iterate] in H; destruct (ptr_eqb cur stop); try (simpl in H; congruence).
    destruct cur as [c|]; [|discriminate]. destruct (s c) as [n|] eqn:En; [|discriminate]. cbn [bind] in H.
    destruct (iterate f s (n_next n) stop) as [r|] eqn:Er; [|discriminate]. cbn [bind] in H. simpl in H. injection H as -> ->.
    exists n. split; [assumption|]. destruct f; cbn [iterate] in Er; destruct (ptr_eqb (n_next n) stop) eqn:E; try (apply ptr_eqb_eq; assumption).
    + discriminate.
    + destruct (n_next n) as [c|]; [|discriminate]. destruct (s c) as [n'|]; [|discriminate]. cbn [bind] in Er.
      destruct (iterate f s (n_next n') stop); discriminate.
  - destruct f; cbn [iterate] in H; destruct (ptr_eqb cur stop); try (simpl in H; congruence).
    destruct cur as [c|]; [|discriminate]. destruct (s c) as [n|] eqn:En; [|discriminate]. cbn [bind] in H.
    destruct (iterate f s (n_next n) stop) as [r|] eqn:Er; [|discriminate]. cbn [bind] in H. simpl in H. injection H as -> ->.
    eapply IH; eauto.
Qed.
Lemma iterate_mono : forall s f1 c st r, iterate f1 s c st = Some r -> forall f2, f1 <= f2 -> iterate f2 s c st = Some r.
Proof.
  intros s f1. induction f1 as [|f1 IH]; intros c st r H f2 Hle.
  - simpl in H. destruct f2; simpl; destruct (ptr_eqb c st); auto; destruct c; discriminate.
  - destruct f2 as [|f2]; [lia|]. cbn [iterate] in *. destruct (ptr_eqb c st); [assumption|].
    destruct c as [c|]; [|discriminate]. destruct (s c) as [n|]; [|discriminate]. cbn [bind] in *.
    destruct (iterate f1 s (n_next n) st) as [r'|] eqn:E; [|discriminate]. rewrite (IH _ _ _ E) by lia. assumption.
Qed.

Section Tree.
Variables (t : tree) (l : list addr).
Hypothesis W : WF t l.
Hypothesis HP : 0 < t_patches t.

Lemma leaf_lev : forall b, In b l -> is_leaf t b /\ vaddr b /\ pos_level b <= t_maxlevel t.
Proof.
  intros b Hb. pose proof (proj1 (wf_leaf t l W b) Hb) as Lb. split; [assumption|]. destruct Lb as [n [En _]].
  split; [eapply wf_vaddr; [exact W|congruence]|]. apply (wf_ml t l W). congruence.
Qed.

Lemma all_contiguous : contiguous (t_maxlevel t) 0 (map idlev l) (t_patches t * 4 ^ t_maxlevel t).
Proof. apply (wf_order t l W). intros b Hb. apply leaf_lev. assumption. Qed.

Lemma list_nonempty : l <> [].
Proof.
  intros E. pose proof all_contiguous as C. rewrite E in C. simpl in C. pose proof (pow4_pos (t_maxlevel t)). nia.
Qed.

Lemma root_begin : begin_of t [] = hd_or l None.
Proof.
  unfold begin_of. destruct (front_ok t l (t_maxlevel t) [0] W) as [f [Ef [Lf [Uf HLf]]]].
  { apply (wf_patch t l W). assumption. } { lia. }
  rewrite Ef. pose proof all_contiguous as C. pose proof list_nonempty as Hne.
  apply (wf_leaf t l W) in Lf. specialize (HLf _ (le_n _)). unfold lo at 2 in HLf. simpl in HLf.
  destruct l as [|x r]; [congruence|]. simpl. destruct Lf as [->|Lf]; [reflexivity|]. exfalso.
  cbn [map contiguous] in C. unfold idlev at 1 in C. destruct C as [_ [_ C]].
  destruct (contiguous_in (t_maxlevel t) r _ _ f C Lf) as [K1 _]. unfold lo in *. pose proof (pow4_pos (t_maxlevel t - pos_level x)). nia.
Qed.

Lemma root_end : end_of t [] = Some None.
Proof.
  unfold end_of. destruct (back_ok t l (t_maxlevel t) [t_patches t - 1] W) as [b [Eb [Lb [Ub HLb]]]].
  { apply (wf_patch t l W). lia. } { lia. }
  rewrite Eb. cbn [bind]. pose proof all_contiguous as C. pose proof list_nonempty as Hne.
  apply (wf_leaf t l W) in Lb. specialize (HLb _ (le_n _)). unfold hi at 2 in HLb.
  change (pos_level [t_patches t - 1]) with 0 in HLb. change (pos_id [t_patches t - 1]) with (4 * 0 + (t_patches t - 1)) in HLb.
  replace (4 * 0 + (t_patches t - 1) + 1) with (t_patches t) in HLb by lia. rewrite Nat.sub_0_r in HLb.
  destruct (last_or_cases l None) as [[E _]|[m' [x [Em _]]]]; [congruence|].
  pose proof (wf_seg t l W) as S. rewrite Em in S, Lb, C. apply seg_app in S. destruct S as [_ [[n [En [_ Hx]]] _]].
  apply in_app_or in Lb. destruct Lb as [Lb|[<-|[]]].
  - exfalso. rewrite map_app in C. apply contiguous_app in C. destruct C as [k [K1 K2]].
    destruct (contiguous_in _ m' _ _ b K1 Lb) as [_ G].
    cbn [map contiguous] in K2. unfold idlev in K2. unfold lo, hi in *. pose proof (pow4_pos (t_maxlevel t - pos_level x)). nia.
  - rewrite En. simpl. rewrite Hx. reflexivity.
Qed.

(** the elements of a cluster are a contiguous part of the traversal *)
Lemma cl_split : forall a, cl t a -> exists l1 m l2, l = l1 ++ m ++ l2 /\ m <> [] /\
  (forall b, In b m <-> is_leaf t b /\ under a b) /\
  begin_of t a = hd_or m None /\ end_of t a = Some (hd_or l2 None) /\
  (a <> [] -> cluster_elements t a = Some m) /\ (a = [] -> l1 = [] /\ l2 = []).
Proof.
  intros a Ha. destruct (list_eq_dec Nat.eq_dec a []) as [->|Hne].
  - exists [], l, []. rewrite app_nil_r. split; [reflexivity|]. split; [apply list_nonempty|]. split.
    + intros b. rewrite (wf_leaf t l W b). split; [|tauto]. intros H. split; [assumption|]. exists b. rewrite app_nil_r. reflexivity.
    + split; [apply root_begin|]. split; [apply root_end|]. split; [congruence|auto].
  - destruct Ha as [Ha|Ha]; [congruence|]. destruct (cluster_split t l a W Ha HP) as [l1 [m [l2 [E [C [Hm [H _]]]]]]].
    exists l1, m, l2. split; [assumption|]. split; [assumption|]. split; [assumption|].
    pose proof C as C'. unfold cluster_elements in C.
    unfold begin_of, end_of. destruct a as [|i a]; [congruence|].
    destruct (front (t_maxlevel t) (t_store t) (i :: a)) as [f|] eqn:Ef; [|discriminate].
    destruct (back (t_maxlevel t) (t_store t) (i :: a)) as [b|] eqn:Eb; [|discriminate].
    cbn [bind] in *. destruct (t_store t b) as [nb|] eqn:Enb; [|discriminate]. cbn [bind] in *.
    split; [apply (iterate_hd _ _ _ _ _ C Hm)|]. split; [|split; [auto|congruence]].
    destruct (last_or_cases m None) as [[E' _]|[m' [x [Em _]]]]; [congruence|]. rewrite Em in C.
    destruct (iterate_end _ _ _ _ _ _ C) as [n [En Nn]]. rewrite <- Nn. f_equal.
    pose proof (wf_seg t l W) as S. rewrite E, Em in S. apply seg_app in S. destruct S as [_ S]. apply seg_app in S. destruct S as [S _].
    apply seg_app in S. destruct S as [_ [[n' [En' [_ Hx]]] _]]. assert (n' = n) by congruence. subst n'. rewrite Hx. reflexivity.
Qed.

Lemma iterate_prefix : forall l1 l2, l = l1 ++ l2 ->
  iterate (t_elements t) (t_store t) (hd_or l None) (hd_or l2 None) = Some l1.
Proof.
  intros l1 l2 E. pose proof (wf_seg t l W) as S. rewrite E in S. apply seg_app in S. destruct S as [S _].
  pose proof (wf_nodup t l W) as D. rewrite E in D.
  assert (Hnot : ~ In (hd_or l2 None) (map Some l1)).
  { destruct l2 as [|c l2]; simpl.
    - intros H. apply in_map_iff in H. destruct H as [z [H _]]. discriminate.
    - intros H. apply in_map_iff in H. destruct H as [z [H Hz]]. injection H as ->.
      apply NoDup_remove_2 in D. apply D. apply in_or_app; auto. }
  assert (D1 : NoDup l1) by (clear - D; induction l1; [constructor|]; inversion D; subst; constructor; [intros K; apply H1; apply in_or_app; auto|auto]).
  pose proof (iterate_seg _ l1 _ _ S Hnot D1) as It. rewrite E, hd_or_app.
  eapply iterate_mono; [exact It|]. rewrite <- (wf_count t l W), E, app_length. lia.
Qed.

Lemma cl_range : forall k a, cl t a -> exists l1 m l2, l = l1 ++ m ++ l2 /\ m <> [] /\
  (forall b, In b m <-> is_leaf t b /\ under a b) /\
  start_index t k a = Some (k * length l1) /\ end_index t k a = Some (k * (length l1 + length m)) /\
  (a <> [] -> cluster_elements t a = Some m) /\ (a = [] -> l1 = [] /\ l2 = []).
Proof.
  intros k a Ha. destruct (cl_split a Ha) as [l1 [m [l2 [E [Hm [H [B [En [C R]]]]]]]]].
  exists l1, m, l2. split; [assumption|]. split; [assumption|]. split; [assumption|].
  unfold start_index, end_index, distance. rewrite root_begin, B, En.
  destruct (hd_in_nonempty l None list_nonempty) as [x [r [El Hx]]]. 
  destruct (hd_in_nonempty m None Hm) as [y [m0 [Em Hy]]]. rewrite Hx, Hy. cbn [bind].
  assert (I1' : iterate (t_elements t) (t_store t) (Some x) (Some y) = Some l1).
  { pose proof (iterate_prefix l1 (m ++ l2) E) as K. rewrite Hx, hd_or_app in K. rewrite Em in K. exact K. }
  assert (I2' : iterate (t_elements t) (t_store t) (Some x) (hd_or l2 None) = Some (l1 ++ m)).
  { pose proof (iterate_prefix (l1 ++ m) l2) as K. rewrite Hx in K. apply K. rewrite E, <- app_assoc. reflexivity. }
  rewrite I1', I2'. cbn [bind]. rewrite app_length. auto.
Qed.

(** an index lies in the range of a cluster iff its element lies under the cluster *)
Lemma range_under : forall k a r e, 0 < k -> cl t a -> nth_error l (r / k) = Some e ->
  (under a e <-> exists s u, start_index t k a = Some s /\ end_index t k a = Some u /\ s <= r < u).
Proof.
  intros k a r e Hk Ha He. destruct (cl_range k a Ha) as [l1 [m [l2 [E [Hm [H [S [U _]]]]]]]].
  rewrite S, U.
  assert (R : (exists s u, Some (k * length l1) = Some s /\ Some (k * (length l1 + length m)) = Some u /\ s <= r < u) <->
    length l1 <= r / k < length l1 + length m).
  { pose proof (Nat.div_mod r k ltac:(lia)) as D. pose proof (Nat.mod_upper_bound r k ltac:(lia)) as M.
    set (q := r / k) in *. set (z := r mod k) in *. split.
    - intros [s [u [E1 [E2 H12]]]]. injection E1 as <-. injection E2 as <-. split; nia.
    - intros H12. do 2 eexists. split; [reflexivity|]. split; [reflexivity|]. nia. }
  rewrite R. pose proof (wf_nodup t l W) as D. split.
  - intros Ue. assert (Hin : In e l) by (eapply nth_error_In; eauto). assert (Le : is_leaf t e) by (apply (wf_leaf t l W); assumption).
    assert (He' : In e m) by (apply H; auto).
    apply In_nth_error in He'. destruct He' as [j Hj]. assert (Hjl : j < length m) by (apply nth_error_Some; congruence).
    assert (r / k = length l1 + j); [|lia].
    apply (proj1 (NoDup_nth_error l) D). { apply nth_error_Some. congruence. }
    rewrite He, E, nth_error_app2, nth_error_app1 by lia. rewrite <- Hj. f_equal. lia.
  - intros H12. rewrite E, nth_error_app2, nth_error_app1 in He by lia. apply nth_error_In in He. apply H in He. tauto.
Qed.

(** ** the sons of a cluster *)
Lemma sons_one : forall a e, cl t a -> ~ is_leaf t a -> is_leaf t e ->
  (under a e -> one (fun s => under s e) (sons_of t a)) /\ (~ under a e -> forall s, In s (sons_of t a) -> ~ under s e).
Proof.
  intros a e Ha Hl Le. assert (Hex : t_store t e <> None) by (destruct Le as [n [En _]]; congruence).
  split.
  - intros U. destruct a as [|i a].
    + destruct (wf_addr_patch t l e W Hex) as [Up Hp]. unfold sons_of. set (p := pos_patch e) in *.
      replace (t_patches t) with (p + S (t_patches t - p - 1)) by lia. rewrite seq_app, map_app. simpl.
      eexists _, _, _. split; [reflexivity|]. split; [exact Up|].
      intros y Hy. rewrite <- map_app in Hy. apply in_map_iff in Hy. destruct Hy as [q [<- Hq]]. intros Uq.
      assert (q = p) by (eapply under_disjoint; eassumption). subst q.
      rewrite in_app_iff, !in_seq in Hq. lia.
    + destruct Ha as [Ha|Ha]; [congruence|]. unfold sons_of. destruct (t_store t (i :: a)) as [n|] eqn:En; [|congruence].
      destruct (n_ref n) eqn:Er; [|exfalso; apply Hl; exists n; auto].
      destruct (under_split _ _ U) as [->|[j Uj]]; [contradiction|].
      assert (Hj : j < 4).
      { pose proof (under_exists t l (j :: i :: a) e W) as K. destruct (le_lt_dec 4 j) as [Hj|Hj]; [|assumption]. exfalso.
        destruct Uj as [x Ex]. rewrite Ex in Hex. clear - Hex Hj W. induction x as [|y x IHx]; simpl in Hex.
        - apply (wf_son t l W) in Hex; [lia|discriminate].
        - apply IHx. apply (wf_son t l W) in Hex; [|destruct x; discriminate]. destruct Hex as [_ [m [Em _]]]. congruence. }
      assert (Dj : forall k, under (k :: i :: a) e -> k = j) by (intros k Uk; eapply under_disjoint; eassumption).
      cbn [map]. destruct j as [|[|[|[|j]]]]; [| | | |lia].
      * exists [], (0 :: i :: a), [1 :: i :: a; 2 :: i :: a; 3 :: i :: a]. split; [reflexivity|]. split; [assumption|].
        simpl. intros y Hy Uy. repeat destruct Hy as [<-|Hy]; try apply Dj in Uy; try lia; tauto.
      * exists [0 :: i :: a], (1 :: i :: a), [2 :: i :: a; 3 :: i :: a]. split; [reflexivity|]. split; [assumption|].
        simpl. intros y Hy Uy. repeat destruct Hy as [<-|Hy]; try apply Dj in Uy; try lia; tauto.
      * exists [0 :: i :: a; 1 :: i :: a], (2 :: i :: a), [3 :: i :: a]. split; [reflexivity|]. split; [assumption|].
        simpl. intros y Hy Uy. repeat destruct Hy as [<-|Hy]; try apply Dj in Uy; try lia; tauto.
      * exists [0 :: i :: a; 1 :: i :: a; 2 :: i :: a], (3 :: i :: a), []. split; [reflexivity|]. split; [assumption|].
        simpl. intros y Hy Uy. repeat destruct Hy as [<-|Hy]; try apply Dj in Uy; try lia; tauto.
  - intros Hn s Hs Us. apply Hn. destruct a as [|i a].
    + exists e. rewrite app_nil_r. reflexivity.
    + unfold sons_of in Hs. destruct (t_store t (i :: a)) as [n|]; [|destruct Hs]. destruct (n_ref n); [|destruct Hs].
      apply in_map_iff in Hs. destruct Hs as [j [<- _]]. eapply under_father; eauto.
Qed.

Lemma sons_cl : forall a s, cl t a -> In s (sons_of t a) -> t_store t s <> None /\ length s = S (length a).
Proof.
  intros a s Ha Hs. destruct a as [|i a].
  - simpl in Hs. apply in_map_iff in Hs. destruct Hs as [p [<- Hp]]. apply in_seq in Hp.
    split; [apply (wf_patch t l W); lia|reflexivity].
  - unfold sons_of in Hs. destruct (t_store t (i :: a)) as [n|] eqn:En; [|destruct Hs]. destruct (n_ref n) eqn:Er; [|destruct Hs].
    apply in_map_iff in Hs. destruct Hs as [j [<- Hj]]. split; [|reflexivity].
    eapply wf_refined_son; eauto. simpl in Hj. lia.
Qed.

Lemma level_len : forall a, cl t a -> level_of t a = (Z.of_nat (length a) - 1)%Z.
Proof.
  intros a [->|Ha]; [reflexivity|]. destruct a as [|i a]; [reflexivity|]. unfold level_of.
  destruct (t_store t (i :: a)) as [n|] eqn:En; [|congruence].
  rewrite (nk_level _ _ (wf_node t l W _ n En)). unfold pos_level. simpl length. lia.
Qed.

Lemma not_leaf_root : ~ is_leaf t [].
Proof. intros [n [En _]]. rewrite (wf_root t l W) in En. discriminate. Qed.

Variables (near : addr -> addr -> bool) (mincl : Z).

(** the number of elements of a cluster, as stored in rows_ / cols_ *)
Definition size_of (a : addr) : nat :=
  match cluster_elements t a with Some m => length m | None => t_elements t end.

Lemma size_cl : forall a, cl t a -> exists m, (forall b, In b m <-> is_leaf t b /\ under a b) /\ NoDup m /\
  (a = [] -> m = l) /\ (a <> [] -> cluster_elements t a = Some m).
Proof.
  intros a Ha. destruct (cl_split a Ha) as [l1 [m [l2 [E [Hm [H [_ [_ [C R]]]]]]]]]. exists m. split; [assumption|].
  split; [|split; [|assumption]].
  - pose proof (wf_nodup t l W) as D. rewrite E in D. clear - D. induction l1 as [|x l1 IH]; [|inversion D; auto].
    simpl in D. induction m as [|y m IHm]; [constructor|]. inversion D; subst. constructor; [|apply IHm; assumption].
    intros K. apply H1. apply in_or_app. auto.
  - intros Ea. destruct (R Ea) as [-> ->]. rewrite E, app_nil_r. reflexivity.
Qed.

(** what a leaf of the block tree looks like *)
Definition leaf_ok (B : btree) : Prop :=
  cl t (b_c1 B) /\ cl t (b_c2 B) /\ length (b_c1 B) = length (b_c2 B) /\
  b_cc B = compare_cluster t near mincl (b_c1 B) (b_c2 B) /\ b_cc B <> Refine /\
  (b_c1 B = [] -> b_rows B = t_elements t) /\ (b_c2 B = [] -> b_cols B = t_elements t) /\
  (b_c1 B <> [] -> exists m, cluster_elements t (b_c1 B) = Some m /\ b_rows B = length m) /\
  (b_c2 B <> [] -> exists m, cluster_elements t (b_c2 B) = Some m /\ b_cols B = length m).

Lemma append_ok : forall f a b rows cols, cl t a -> cl t b -> length a = length b -> t_maxlevel t + 2 <= f + length a ->
  (a = [] -> rows = t_elements t) -> (b = [] -> cols = t_elements t) ->
  (a <> [] -> exists m, cluster_elements t a = Some m /\ rows = length m) ->
  (b <> [] -> exists m, cluster_elements t b = Some m /\ cols = length m) ->
  exists bt, append_subtree f t near mincl a b rows cols = Some bt /\
    (forall B, In B (leaves bt) -> leaf_ok B /\ under a (b_c1 B) /\ under b (b_c2 B)).
Proof.
  induction f as [|f IH]; intros a b rows cols Ha Hb Hab Hf Ra Rb Ra' Rb'; cbn [append_subtree];
    destruct (compare_cluster t near mincl a b) eqn:Ec.
  - exfalso. destruct Ha as [->|Ha]; [simpl in Hf; lia|]. pose proof (wf_ml t l W a Ha) as H. unfold pos_level in H. lia.
  - eexists. split; [reflexivity|]. simpl. intros B [<-|[]]. split; [|split; apply under_refl].
    unfold leaf_ok. simpl. repeat (split; [solve [auto]|]). split; [discriminate|]. auto.
  - eexists. split; [reflexivity|]. simpl. intros B [<-|[]]. split; [|split; apply under_refl].
    unfold leaf_ok. simpl. repeat (split; [solve [auto]|]). split; [discriminate|]. auto.
  - match goal with |- context [map_opt ?F ?x] => set (FF := F); set (prs := x) end.
    assert (Hs : forall ij, In ij prs -> In (fst ij) (sons_of t a) /\ In (snd ij) (sons_of t b)).
    { intros ij H. unfold prs in H. apply in_flat_map in H. destruct H as [j [Hj H]]. apply in_map_iff in H.
      destruct H as [i [<- Hi]]. auto. }
    assert (Step : forall ij, In ij prs -> exists y, FF ij = Some y /\
        (forall B, In B (leaves y) -> leaf_ok B /\ under a (b_c1 B) /\ under b (b_c2 B))).
    { intros ij H. destruct (Hs ij H) as [H1 H2]. unfold FF.
      destruct (sons_cl _ _ Ha H1) as [E1 L1]. destruct (sons_cl _ _ Hb H2) as [E2 L2].
      assert (N1 : fst ij <> []) by (eapply wf_nonroot; eauto). assert (N2 : snd ij <> []) by (eapply wf_nonroot; eauto).
      destruct (size_cl (fst ij) (or_intror E1)) as [m1 [_ [_ [_ C1]]]]. specialize (C1 N1).
      destruct (size_cl (snd ij) (or_intror E2)) as [m2 [_ [_ [_ C2]]]]. specialize (C2 N2).
      rewrite C1, C2. cbn [bind].
      destruct (IH (fst ij) (snd ij) (length m1) (length m2)) as [y [Ey Hy]]; eauto; try congruence; try (right; assumption); try lia.
      exists y. split; [assumption|]. intros B HB. destruct (Hy B HB) as [K [U1 U2]]. split; [assumption|].
      assert (Sub : forall c s u, In s (sons_of t c) -> under s u -> under c u).
      { clear - t. intros c s u Hs Us. destruct c as [|i c].
        - exists u. rewrite app_nil_r. reflexivity.
        - unfold sons_of in Hs. destruct (t_store t (i :: c)) as [n|]; [|destruct Hs]. destruct (n_ref n); [|destruct Hs].
          apply in_map_iff in Hs. destruct Hs as [j [<- _]]. eapply under_father; eauto. }
      split; eapply Sub; eauto. }
    destruct (map_opt_some FF prs) as [s Es].
    { intros x Hx. destruct (Step x Hx) as [y [Ey _]]. eauto. }
    rewrite Es. cbn [bind]. eexists. split; [reflexivity|]. cbn [leaves]. intros B HB.
    apply in_flat_map in HB. destruct HB as [y [Hy HB]]. destruct (map_opt_in _ _ _ Es y Hy) as [x [Hx Fx]].
    destruct (Step x Hx) as [y' [Ey' K]]. assert (y' = y) by congruence. subst y'. auto.
  - eexists. split; [reflexivity|]. simpl. intros B [<-|[]]. split; [|split; apply under_refl].
    unfold leaf_ok. simpl. repeat (split; [solve [auto]|]). split; [discriminate|]. auto.
  - eexists. split; [reflexivity|]. simpl. intros B [<-|[]]. split; [|split; apply under_refl].
    unfold leaf_ok. simpl. repeat (split; [solve [auto]|]). split; [discriminate|]. auto.
Qed.

Hypothesis Hg : graded t mincl.

Lemma leaf_graded : forall a b, cl t a -> cl t b -> length a = length b -> compare_cluster t near mincl a b = Refine ->
  ~ is_leaf t a /\ ~ is_leaf t b.
Proof.
  intros a b Ha Hb Hab Ec. unfold compare_cluster in Ec. destruct (near a b); [|discriminate].
  destruct (Z.leb_spec (Z.of_nat (t_maxlevel t) - level_of t a) mincl) as [H|H]; [discriminate|].
  rewrite level_len in H by assumption.
  assert (K : forall c, length c = length a -> ~ is_leaf t c).
  { intros c Lc [n [En Er]]. specialize (Hg c n En Er). rewrite (nk_level _ _ (wf_node t l W _ n En)) in Hg.
    unfold pos_level in Hg. rewrite Lc in Hg.
    assert (c <> []) by (eapply wf_nonroot; [exact W|congruence]). destruct c; [congruence|]. simpl in Lc. lia. }
  split; apply K; auto.
Qed.

Lemma append_one : forall f a b rows cols bt e g, cl t a -> cl t b -> length a = length b ->
  append_subtree f t near mincl a b rows cols = Some bt -> is_leaf t e -> is_leaf t g ->
  (under a e /\ under b g -> one (fun B => under (b_c1 B) e /\ under (b_c2 B) g) (leaves bt)) /\
  (~ (under a e /\ under b g) -> forall B, In B (leaves bt) -> ~ (under (b_c1 B) e /\ under (b_c2 B) g)).
Proof.
  induction f as [|f IH]; intros a b rows cols bt e g Ha Hb Hab E Le Lg; cbn [append_subtree] in E;
    destruct (compare_cluster t near mincl a b) eqn:Ec; try discriminate;
    try (injection E as <-; simpl; split;
         [intros H; exists [], (BT (compare_cluster t near mincl a b) a b rows cols []), []; rewrite Ec; simpl; tauto
         |intros H B [<-|[]]; simpl; assumption]).
  destruct (leaf_graded a b Ha Hb Hab Ec) as [La Lb].
  match type of E with context [map_opt ?F ?x] => set (FF := F) in *; set (prs := x) in * end.
  destruct (map_opt FF prs) as [s|] eqn:Es; [|discriminate]. cbn [bind] in E. injection E as <-. cbn [leaves].
  assert (Step : forall ij y, In ij prs -> FF ij = Some y ->
     (under (fst ij) e /\ under (snd ij) g -> one (fun B => under (b_c1 B) e /\ under (b_c2 B) g) (leaves y)) /\
     (~ (under (fst ij) e /\ under (snd ij) g) -> forall B, In B (leaves y) -> ~ (under (b_c1 B) e /\ under (b_c2 B) g))).
  { intros ij y H Ey. unfold prs in H. apply in_flat_map in H. destruct H as [j [Hj H]]. apply in_map_iff in H.
    destruct H as [i [<- Hi]]. unfold FF in Ey. cbn [fst snd] in *.
    destruct (sons_cl _ _ Ha Hi) as [E1 L1]. destruct (sons_cl _ _ Hb Hj) as [E2 L2].
    destruct (cluster_elements t i); [|discriminate]. destruct (cluster_elements t j); [|discriminate]. cbn [bind] in Ey.
    eapply IH; eauto; try (right; assumption). congruence. }
  split.
  - intros [Ue Ug]. apply (one_map_opt FF leaves (fun ij => under (fst ij) e /\ under (snd ij) g) _ prs s Es).
    + apply (one_prod (fun i => under i e) (fun j => under j g)); apply sons_one; auto.
    + intros x y Hx Fx. apply (Step x y Hx Fx).
    + intros x y Hx Fx. apply (Step x y Hx Fx).
  - intros Hn B HB. apply in_flat_map in HB. destruct HB as [y [Hy HB]].
    destruct (map_opt_in _ _ _ Es y Hy) as [x [Hx Fx]]. apply (Step x y Hx Fx); [|assumption].
    intros [U1 U2]. unfold prs in Hx. apply in_flat_map in Hx. destruct Hx as [j [Hj Hx]]. apply in_map_iff in Hx.
    destruct Hx as [i [<- Hi]]. cbn [fst snd] in *. apply Hn.
    destruct (sons_one a e Ha La Le) as [_ Na]. destruct (sons_one b g Hb Lb Lg) as [_ Nb].
    assert (Dec : forall c u, {under c u} + {~ under c u}).
    { clear. intros c u. revert c. induction u as [|x u IHu]; intros c.
      - destruct c; [left; exists []; reflexivity|right]. intros [[|? ?] E]; discriminate.
      - destruct (list_eq_dec Nat.eq_dec c (x :: u)) as [->|Hc]; [left; apply under_refl|].
        destruct (IHu c) as [H|H]; [left; apply under_cons; assumption|right]. intros U. apply under_cons_inv in U. tauto. }
    split.
    + destruct (Dec a e) as [|Hd]; [assumption|]. exfalso. exact (Na Hd i Hi U1).
    + destruct (Dec b g) as [|Hd]; [assumption|]. exfalso. exact (Nb Hd j Hj U2).
Qed.
End Tree.

Lemma contiguous_length : forall L (m : list addr) from upto, contiguous L from (map idlev m) upto -> from + length m <= upto.
Proof.
  intros L m. induction m as [|a m IH]; intros from upto H.
  - cbn in H. simpl. lia.
  - cbn [map contiguous] in H. unfold idlev at 1 in H. destruct H as [_ [H1 H2]]. apply IH in H2.
    pose proof (pow4_pos (L - pos_level a)). simpl. nia.
Qed.

Lemma cluster_size : forall t l a m, WF t l -> 0 < t_patches t -> t_store t a <> None -> cluster_elements t a = Some m ->
  length m <= 4 ^ (t_maxlevel t - pos_level a).
Proof.
  intros t l a m W HP Ha E. destruct (cluster_split t l a W Ha HP) as [l1 [m' [l2 [_ [C [_ [_ H]]]]]]].
  assert (m' = m) by congruence. subst m'. apply contiguous_length in H. unfold lo, hi in H. nia.
Qed.
