(** refineLeaf preserves conformity (C18). *)
From Coq Require Import List Arith Bool Lia.
From Verif Require Import ModelBase ModelTree SpecTree ProofTree ProofTreeWF ProofTreeHist ProofTopo ProofConf ProofConfStep.
Import ListNotations.

Definition vxs (s : store) (a : addr) (k : nat) : nat :=
  match s a with Some n => nth k (n_verts n) 0 | None => 0 end.
Definition exs (s : store) (a : addr) : Prop := s a <> None.
Definition rfs (s : store) (a : addr) : Prop := exists n, s a = Some n /\ n_ref n = true.
Notation se s := (same_edge (vxs s)).

Definition adj_ok (s : store) : Prop := forall a i b, exs s a -> i < 4 ->
  (adj_at s a i = Some b <-> exists j, j < 4 /\ exs s b /\ length b = length a /\ (b, j) <> (a, i) /\ se s a i b j).
Definition used_ok (t : tree) : Prop := forall v, v < t_points t ->
  exists a k, is_leaf t a /\ k < 4 /\ vxs (t_store t) a k = v.
Record CF (t : tree) : Prop := {
  cf_conf : conf (vxs (t_store t)) (exs (t_store t)) (rfs (t_store t)) (t_points t);
  cf_adj : adj_ok (t_store t);
  cf_used : used_ok t }.

Lemma slot_edge_iff : forall s a i b j, good_node s a -> good_node s b -> i < 4 -> j < 4 ->
  (slot_edge s a i = slot_edge s b j <-> se s a i b j).
Proof.
  intros s a i b j [n [En [Vn _]]] [m [Em [Vm _]]] Hi Hj. unfold slot_edge, same_edge, vxs. rewrite En, Em.
  pose proof (nx_lt i) as Ni. pose proof (nx_lt j) as Nj. unfold nx in *.
  rewrite (nth_error_nth' (n_verts n) 0) by lia. rewrite (nth_error_nth' (n_verts n) 0 (n := (i + 1) mod 4)) by lia.
  rewrite (nth_error_nth' (n_verts m) 0) by lia. rewrite (nth_error_nth' (n_verts m) 0 (n := (j + 1) mod 4)) by lia.
  set (v := nth i _ _). set (w := nth _ (n_verts n) _). set (v' := nth j _ _). set (w' := nth _ (n_verts m) _).
  split; intros H.
  - injection H as H1 H2. lia.
  - do 2 f_equal; lia.
Qed.

Lemma find_back_spec : forall l a js, length l = 4 -> (forall j, In j js -> j < 4) ->
  (exists j, In j js /\ nth j l None = Some a) ->
  exists j, find_back l a js = Some j /\ j < 4 /\ nth j l None = Some a.
Proof.
  intros l a js L. induction js as [|j js IH]; intros Hlt [j0 [Hj0 E0]]; [destruct Hj0|]. simpl.
  rewrite (get_nth l j None) by (rewrite L; apply Hlt; left; reflexivity). cbn [bind].
  destruct (ptr_eqb (nth j l None) (Some a)) eqn:E.
  - exists j. apply ptr_eqb_eq in E. split; [reflexivity|]. split; [apply Hlt; left; reflexivity|assumption].
  - apply IH; [intros; apply Hlt; right; assumption|]. exists j0. destruct Hj0 as [<-|Hj0]; [|auto].
    rewrite E0 in E. rewrite (proj2 (ptr_eqb_eq _ _) eq_refl) in E. discriminate.
Qed.

Section Refine.
Variable t : tree.
Variables l1 l2 : list addr.
Variable a : addr.
Variable c : node.
Hypothesis W : WF t (l1 ++ a :: l2).
Hypothesis Ea : t_store t a = Some c.
Hypothesis Er : n_ref c = false.
Hypothesis K : CF t.
Let s := t_store t.
Let N := t_points t.

Lemma wf_good : forall b, exs s b -> good_node s b.
Proof.
  intros b H. unfold exs, s in *. destruct (t_store t b) as [n|] eqn:E; [|congruence].
  pose proof (wf_node t _ W b n E) as Kn. exists n. split; [assumption|]. split; [apply (nk_verts _ _ Kn)|apply (nk_adj _ _ Kn)].
Qed.
Lemma exa : exs s a.
Proof. unfold exs, s. rewrite Ea. discriminate. Qed.
Lemma nrfa : ~ rfs s a.
Proof. intros [n [E R]]. unfold s in E. congruence. Qed.
Lemma Cs : conf (vxs s) (exs s) (rfs s) N.
Proof. apply (cf_conf t K). Qed.
Lemma len_pos : forall b, exs s b -> exists l, length b = S l.
Proof. intros b H. destruct b; [destruct (cf_root _ _ _ _ Cs H)|simpl; eauto]. Qed.
Lemma dist : forall b, exs s b -> distinct4 (vxs s) b.
Proof. intros b H. destruct (len_pos b H) as [l L]. destruct (good_all _ _ _ _ Cs l) as [G _]. apply G; assumption. Qed.
Lemma not_self : forall b i j, exs s b -> i < 4 -> j < 4 -> se s b i b j -> i = j.
Proof. intros b i j H Hi Hj S. apply (distinct_edges (vxs s) b i j); auto using dist. Qed.

Lemma adj_at_nth : forall b n i, s b = Some n -> adj_at s b i = nth i (n_adj n) None.
Proof. intros b n i E. unfold adj_at. rewrite E. reflexivity. Qed.

Lemma shared_edge : forall i b j, i < 4 -> shared t a c i = Some (b, j) ->
  j < 4 /\ rfs s b /\ length b = length a /\ se s a i b j /\ b <> a.
Proof.
  intros i b j Hi H. destruct (shared_ok t _ a c i b j W Ea Hi H) as [Hj [Hn [nb [Enb [Rnb Fb]]]]].
  assert (Xb : exs s b) by (unfold exs, s; congruence).
  assert (Hba : b <> a) by (intros ->; congruence).
  assert (Aa : adj_at s a i = Some b) by (rewrite (adj_at_nth a c i Ea); assumption).
  apply (cf_adj t K a i b exa Hi) in Aa. destruct Aa as [j' [Hj' [_ [L [Hne S]]]]].
  fold s in S.
  assert (Ab : adj_at s b j' = Some a).
  { apply (cf_adj t K b j' a Xb Hj'). exists i. split; [assumption|]. split; [exact exa|]. split; [lia|].
    split; [congruence|]. apply same_edge_sym. assumption. }
  rewrite (adj_at_nth b nb j' Enb) in Ab.
  destruct (find_back_spec (n_adj nb) a [0;1;2;3]) as [j2 [F2 [Hj2 N2]]].
  { apply (nk_adj _ _ (wf_node t _ W b nb Enb)). } { apply four_in. }
  { exists j'. split; [|assumption]. four Hj'; simpl; tauto. }
  rewrite F2 in Fb. injection Fb as ->.
  assert (A2 : adj_at s b j = Some a) by (rewrite (adj_at_nth b nb j Enb); assumption).
  apply (cf_adj t K b j a Xb Hj) in A2. destruct A2 as [m [Hm [_ [_ [_ S2]]]]]. fold s in S2.
  destruct (len_pos b Xb) as [l Ll]. destruct (good_all _ _ _ _ Cs l) as [_ [_ G]].
  assert (j' = j).
  { apply (G b j' i a j m); auto using exa; try congruence. apply same_edge_sym. assumption. }
  subst j'. split; [assumption|]. split; [exists nb; auto|]. split; [assumption|]. split; assumption.
Qed.

Lemma shared_none : forall i, i < 4 -> shared t a c i = None ->
  forall b j, j < 4 -> rfs s b -> length b = length a -> ~ se s a i b j.
Proof.
  intros i Hi H b j Hj [nb [Enb Rnb]] L S.
  assert (Xb : exs s b) by (unfold exs; congruence).
  assert (Hba : b <> a) by (intros ->; unfold s in Enb; congruence).
  assert (Aa : adj_at s a i = Some b).
  { apply (cf_adj t K a i b exa Hi). exists j. repeat split; auto. congruence. }
  rewrite (adj_at_nth a c i Ea) in Aa. unfold shared in H. rewrite Aa in H. unfold s in Enb. rewrite Enb, Rnb in H.
  destruct (find_back_lt (n_adj nb) a [0;1;2;3]) as [j' [Ej _]].
  { apply (nk_adj _ _ (wf_node t _ W b nb Enb)). } { apply four_in. }
  rewrite Ej in H. discriminate.
Qed.

(** the numbering of the new points *)
Let p (i : nat) : nat := nth i (pts_of t a c) 0.
Let z : nat := np_after t a c 4.

Lemma np_S : forall k, np_after t a c (S k) = shared_np t a c (np_after t a c k) k.
Proof. intros k. unfold np_after. rewrite seq_S, fold_left_app. reflexivity. Qed.
Lemma np_0 : np_after t a c 0 = N.
Proof. reflexivity. Qed.
Lemma np_step : forall k, np_after t a c k <= np_after t a c (S k).
Proof. intros. rewrite np_S. unfold shared_np. destruct (shared t a c k); lia. Qed.
Lemma np_mono : forall k k', k <= k' -> np_after t a c k <= np_after t a c k'.
Proof. intros k k' H. induction H; [lia|]. pose proof (np_step m). lia. Qed.
Lemma p_eq : forall i, i < 4 -> p i = shared_pt t a c (np_after t a c i) i.
Proof. intros i Hi. unfold p, pts_of. four Hi; reflexivity. Qed.

Lemma shared_mid : forall i b j, i < 4 -> shared t a c i = Some (b, j) -> p i = mid (vxs s) b j /\ p i < N.
Proof.
  intros i b j Hi H. destruct (shared_edge i b j Hi H) as [Hj [R _]].
  assert (E : p i = mid (vxs s) b j).
  { rewrite (p_eq i Hi). unfold shared_pt. rewrite H. reflexivity. }
  split; [assumption|]. rewrite E. unfold mid. apply (cf_lt _ _ _ _ Cs); [|apply nx_lt].
  destruct R as [nb [Enb Rnb]]. unfold exs, s. eapply wf_refined_son; eauto.
Qed.
Lemma fresh_pt : forall i, i < 4 -> shared t a c i = None -> p i = np_after t a c i /\ np_after t a c (S i) = S (np_after t a c i).
Proof.
  intros i Hi H. rewrite (p_eq i Hi), np_S. unfold shared_pt, shared_np. rewrite H. auto.
Qed.

Lemma Hp_ok : forall i, i < 4 -> partnered (vxs s) (rfs s) a p i \/
  (N <= p i < S z /\ forall b j, j < 4 -> rfs s b -> length b = length a -> ~ se s a i b j).
Proof.
  intros i Hi. destruct (shared t a c i) as [[b j]|] eqn:E.
  - left. destruct (shared_edge i b j Hi E) as [Hj [R [L [S _]]]]. destruct (shared_mid i b j Hi E) as [Em _].
    exists b, j. auto.
  - right. split; [|apply shared_none; assumption]. destruct (fresh_pt i Hi E) as [-> E2].
    pose proof (np_mono 0 i ltac:(lia)). rewrite np_0 in *. pose proof (np_mono (S i) 4 ltac:(lia)).
    unfold z. lia.
Qed.
Lemma Hfresh_ok : forall i i', i < 4 -> i' < 4 -> N <= p i -> p i = p i' -> i = i'.
Proof.
  intros i i' Hi Hi' Hn E.
  assert (F : forall k, k < 4 -> N <= p k -> shared t a c k = None).
  { intros k Hk H. destruct (shared t a c k) as [[b j]|] eqn:Es; [|reflexivity].
    destruct (shared_mid k b j Hk Es). lia. }
  destruct (fresh_pt i Hi (F i Hi Hn)) as [E1 E2]. destruct (fresh_pt i' Hi' (F i' Hi' ltac:(lia))) as [E1' E2'].
  destruct (lt_eq_lt_dec i i') as [[H|H]|H]; [|assumption|].
  - pose proof (np_mono (S i) i' ltac:(lia)). lia.
  - pose proof (np_mono (S i') i ltac:(lia)). lia.
Qed.
Lemma Hz_ok : N <= z < S z.
Proof. pose proof (np_mono 0 4 ltac:(lia)). rewrite np_0 in *. unfold z. lia. Qed.
Lemma Hzp_ok : forall i, i < 4 -> z <> p i.
Proof.
  intros i Hi. pose proof Hz_ok. destruct (shared t a c i) as [[b j]|] eqn:Es.
  - destruct (shared_mid i b j Hi Es). lia.
  - destruct (fresh_pt i Hi Es) as [-> E2]. pose proof (np_mono (S i) 4 ltac:(lia)). unfold z. lia.
Qed.

(** the new store *)
Variable t' : tree.
Hypothesis So : step_ok t a c t'.
Let s' := t_store t'.

Lemma cases_addr : forall b, b = a \/ (exists i, i < 4 /\ b = i :: a) \/ (b <> a /\ forall i, i < 4 -> b <> i :: a).
Proof.
  intros b. destruct (list_eq_dec Nat.eq_dec b a) as [->|Hb]; [left; reflexivity|right].
  destruct b as [|i b]; [right; split; [assumption|intros; discriminate]|].
  destruct (list_eq_dec Nat.eq_dec b a) as [->|Hb2].
  - destruct (lt_dec i 4); [left; eauto|right]. split; [assumption|]. intros j Hj H. injection H. lia.
  - right. split; [assumption|]. intros j Hj H. congruence.
Qed.
Lemma son_not_old : forall i, s (i :: a) = None.
Proof. intros. eapply leaf_sons_none; eauto. Qed.

Lemma Hold_ok : forall b k, exs s b -> vxs s' b k = vxs s b k.
Proof.
  intros b k X. unfold vxs, s'. destruct (cases_addr b) as [->|[[i [Hi ->]]|[H1 H2]]].
  - destruct (so_self _ _ _ _ So) as [n' [-> [Sd _]]]. unfold s. rewrite Ea. destruct Sd as [_ [_ [_ [_ ->]]]]. reflexivity.
  - unfold exs in X. rewrite son_not_old in X. congruence.
  - pose proof (so_other _ _ _ _ So b H1 H2) as Ho. unfold exs, s in *. destruct (t_store t b) as [n|]; [|congruence].
    destruct (t_store t' b) as [n'|]; [|tauto]. destruct Ho as [[_ [_ [_ [_ ->]]]] _]. reflexivity.
Qed.
Lemma Hson_ok : forall i, i < 4 -> vxs s' (i :: a) i = vxs s a i /\ vxs s' (i :: a) (nx i) = p i /\
  vxs s' (i :: a) (nx (nx i)) = z /\ vxs s' (i :: a) (nx (nx (nx i))) = p (nx (nx (nx i))).
Proof.
  intros i Hi. destruct (so_son _ _ _ _ So i Hi) as [n' [E [[_ [_ [_ [_ V]]]] _]]].
  unfold vxs, s'. rewrite E, V. unfold s. rewrite Ea. unfold son_node, p, z, nx. cbn [n_verts].
  four Hi; repeat split; reflexivity.
Qed.
Lemma Hex_ok : forall b, exs s' b <-> exs s b \/ exists i, i < 4 /\ b = i :: a.
Proof.
  intros b. unfold exs, s', s. destruct (cases_addr b) as [->|[[i [Hi ->]]|[H1 H2]]].
  - destruct (so_self _ _ _ _ So) as [n' [-> _]]. rewrite Ea. split; [left|]; discriminate.
  - destruct (so_son _ _ _ _ So i Hi) as [n' [-> _]]. split; [|discriminate]. right; eauto.
  - pose proof (so_other _ _ _ _ So b H1 H2) as Ho. destruct (t_store t b), (t_store t' b); try tauto.
    + split; [left|]; discriminate.
    + split; [congruence|]. intros [H|[i [Hi H]]]; [congruence|destruct (H2 i Hi H)].
Qed.
Lemma Hrf_ok : forall b, rfs s' b <-> rfs s b \/ b = a.
Proof.
  intros b. unfold rfs, s', s. destruct (cases_addr b) as [->|[[i [Hi ->]]|[H1 H2]]].
  - split; [auto|]. intros _. destruct (so_self _ _ _ _ So) as [n' [-> [_ R]]]. eauto.
  - destruct (so_son _ _ _ _ So i Hi) as [n' [-> [_ R]]]. split.
    + intros [n [E Rn]]. injection E as ->. congruence.
    + intros [[n [E _]]|E]; [pose proof (son_not_old i) as F; unfold s in F; congruence|apply cons_neq in E; destruct E].
  - pose proof (so_other _ _ _ _ So b H1 H2) as Ho. destruct (t_store t b) as [n|], (t_store t' b) as [n'|]; try tauto.
    + destruct Ho as [_ Rn]. split.
      * intros [m [E Rm]]. injection E as <-. left. exists n. split; [reflexivity|congruence].
      * intros [[m [E Rm]]|E]; [|tauto]. injection E as <-. exists n'. split; [reflexivity|congruence].
Qed.
Lemma se_old2 : forall b i d j, exs s b -> exs s d -> (se s' b i d j <-> se s b i d j).
Proof. intros. unfold same_edge. rewrite !Hold_ok by assumption. tauto. Qed.
Lemma pts_ok : t_points t' = S z.
Proof. apply (so_points _ _ _ _ So). Qed.

Lemma conf' : conf (vxs s') (exs s') (rfs s') (t_points t').
Proof.
  rewrite pts_ok. eapply (conf_step (vxs s) (vxs s') (exs s) (exs s') (rfs s) (rfs s') N (S z) a p z).
  - exact Cs.
  - exact exa.
  - exact nrfa.
  - exact Hold_ok.
  - exact Hson_ok.
  - exact Hex_ok.
  - exact Hrf_ok.
  - exact Hp_ok.
  - exact Hfresh_ok.
  - exact Hz_ok.
  - exact Hzp_ok.
Qed.

Lemma used' : used_ok t'.
Proof.
  assert (Lson : forall i, i < 4 -> is_leaf t' (i :: a)).
  { intros i Hi. destruct (so_son _ _ _ _ So i Hi) as [n' [E [_ R]]]. exists n'. auto. }
  intros v Hv. rewrite pts_ok in Hv. fold s'.
  destruct (lt_dec v N) as [H|H].
  - destruct (cf_used t K v H) as [b [k [Lb [Hk E]]]]. fold s in E.
    destruct (list_eq_dec Nat.eq_dec b a) as [->|Hb].
    + exists (k :: a), k. split; [apply Lson; assumption|]. split; [assumption|].
      rewrite (proj1 (Hson_ok k Hk)). assumption.
    + destruct Lb as [n [En Rn]].
      assert (X : exs s b) by (unfold exs, s; congruence).
      exists b, k. split; [|split; [assumption|rewrite Hold_ok; assumption]].
      assert (Hbs : forall i, i < 4 -> b <> i :: a).
      { intros i _ ->. pose proof (son_not_old i) as F. unfold s in F. congruence. }
      pose proof (so_other _ _ _ _ So b Hb Hbs) as Ho. rewrite En in Ho.
      destruct (t_store t' b) as [n'|] eqn:En'; [|tauto]. exists n'. split; [assumption|]. destruct Ho. congruence.
  - (* a new index *)
    assert (Hk : v = z \/ exists i, i < 4 /\ p i = v).
    { destruct (Nat.eq_dec v z) as [->|Hz]; [left; reflexivity|right].
      assert (G : forall k, k <= 4 -> v < np_after t a c k -> exists i, i < 4 /\ p i = v).
      { induction k as [|k IH]; intros Hk Hlt; [rewrite np_0 in Hlt; lia|].
        destruct (lt_dec v (np_after t a c k)) as [H1|H1]; [apply IH; [lia|assumption]|].
        rewrite np_S in Hlt. unfold shared_np in Hlt. destruct (shared t a c k) as [q|] eqn:Es; [lia|].
        exists k. split; [lia|]. rewrite (proj1 (fresh_pt k ltac:(lia) Es)). lia. }
      apply (G 4); [lia|]. unfold z in *. lia. }
    destruct Hk as [->|[i [Hi <-]]].
    + exists (0 :: a), (nx (nx 0)). split; [apply Lson; lia|]. split; [apply nx_lt|]. apply Hson_ok. lia.
    + exists (i :: a), (nx i). split; [apply Lson; assumption|]. split; [apply nx_lt|]. apply Hson_ok. assumption.
Qed.

(** ** adjacency *)
Let els := els_of t a c ++ sons a.
Variable s3 : store.
Hypothesis Rs : refined_store t a c s3.
Hypothesis E4 : update_topology s3 els = Some s'.

Lemma in_sons : forall b, In b (sons a) <-> exists i, i < 4 /\ b = i :: a.
Proof.
  intros b. unfold sons. simpl. split.
  - intros H. repeat destruct H as [<-|H]; try (eexists; split; [|reflexivity]; lia). destruct H.
  - intros [i [Hi ->]]. four Hi; tauto.
Qed.
Lemma in_els_of : forall b, In b (els_of t a c) <-> exists i d j, i < 4 /\ shared t a c i = Some (d, j) /\ (b = j :: d \/ b = nx j :: d).
Proof.
  intros b. unfold els_of. rewrite !in_app_iff. unfold shared_els, nx. split.
  - intros [H|[H|[H|H]]];
    match type of H with In _ (match shared t a c ?i with _ => _ end) =>
      destruct (shared t a c i) as [[d j]|] eqn:E; [|destruct H]; destruct H as [<-|[<-|[]]]; exists i, d, j; (split; [lia|auto]) end.
  - intros [i [d [j [Hi [E Hb]]]]]. four Hi; rewrite E; simpl; [left|right;left|right;right;left|right;right;right]; destruct Hb as [->| ->]; auto.
Qed.
Lemma els_old : forall b, In b (els_of t a c) -> exs s b.
Proof. intros b H. eapply els_exist; eauto. Qed.
Lemma els_ex : forall b, In b els -> exs s' b.
Proof.
  intros b H. apply in_app_or in H. apply Hex_ok. destruct H as [H|H]; [left; apply els_old; assumption|right; apply in_sons; assumption].
Qed.
Lemma els_len : forall b, In b els -> length b = S (length a).
Proof.
  intros b H. apply in_app_or in H. destruct H as [H|H].
  - apply in_els_of in H. destruct H as [i [d [j [Hi [E Hb]]]]]. destruct (shared_edge i d j Hi E) as [_ [_ [L _]]].
    destruct Hb as [->| ->]; simpl; lia.
  - apply in_sons in H. destruct H as [i [_ ->]]. reflexivity.
Qed.

Lemma NoDup_pair : forall (j : nat) (d : addr), j < 4 -> NoDup [j :: d; nx j :: d].
Proof.
  intros j d Hj. constructor; [|constructor; [intros []|constructor]]. intros [H|[]]. injection H. unfold nx. four Hj; simpl; lia.
Qed.
Lemma NoDup_app : forall (x y : list addr), NoDup x -> NoDup y -> (forall b, In b x -> ~ In b y) -> NoDup (x ++ y).
Proof.
  intros x y Hx Hy H. induction Hx as [|b x Hb Hx IH]; [assumption|]. simpl. constructor.
  - rewrite in_app_iff. intros [F|F]; [tauto|]. apply (H b); simpl; auto.
  - apply IH. intros d Hd. apply H. right; assumption.
Qed.

Lemma shared_disjoint : forall i i' b, i < 4 -> i' < 4 -> i <> i' -> In b (shared_els t a c i) -> ~ In b (shared_els t a c i').
Proof.
  intros i i' b Hi Hi' Hne H H'. unfold shared_els in H, H'.
  destruct (shared t a c i) as [[d j]|] eqn:E; [|destruct H]. destruct (shared t a c i') as [[d' j']|] eqn:E'; [|destruct H'].
  destruct (shared_edge i d j Hi E) as [Hj [R [L [S Hd]]]]. destruct (shared_edge i' d' j' Hi' E') as [Hj' [R' [L' [S' Hd']]]].
  assert (d = d').
  { destruct H as [<-|[<-|[]]]; destruct H' as [H'|[H'|[]]]; injection H'; auto. }
  subst d'. destruct (len_pos a exa) as [l Ll]. destruct (good_all _ _ _ _ Cs l) as [_ [_ G]].
  apply Hne. apply (G a i j d i' j'); auto using exa; try congruence. apply (cf_ref _ _ _ _ Cs). assumption.
Qed.

Lemma els_nodup : NoDup els.
Proof.
  assert (Hs : forall i, i < 4 -> NoDup (shared_els t a c i)).
  { intros i Hi. unfold shared_els. destruct (shared t a c i) as [[d j]|] eqn:E; [|constructor].
    apply NoDup_pair. apply (shared_edge i d j Hi E). }
  unfold els. apply NoDup_app.
  - unfold els_of. apply NoDup_app; [apply Hs; lia| |].
    + apply NoDup_app; [apply Hs; lia| |].
      * apply NoDup_app; [apply Hs; lia|apply Hs; lia|]. intros b Hb. apply (shared_disjoint 2 3); auto; lia.
      * intros b Hb. rewrite in_app_iff. intros [H|H]; revert H; [apply (shared_disjoint 1 2)|apply (shared_disjoint 1 3)]; auto; lia.
    + intros b Hb. rewrite !in_app_iff. intros [H|[H|H]]; revert H;
        [apply (shared_disjoint 0 1)|apply (shared_disjoint 0 2)|apply (shared_disjoint 0 3)]; auto; lia.
  - unfold sons. repeat constructor; simpl; intros H; repeat destruct H as [H|H]; try discriminate; tauto.
  - intros b Hb Hs'. apply in_sons in Hs'. destruct Hs' as [i [_ ->]]. apply els_old in Hb. apply Hb. apply son_not_old.
Qed.

(** the stores s3 and s' have the same vertices *)
Lemma s3_verts : forall b, match s3 b, s' b with Some n, Some n' => n_verts n' = n_verts n | None, None => True | _, _ => False end.
Proof.
  intros b. unfold s'. destruct (cases_addr b) as [->|[[i [Hi ->]]|[H1 H2]]].
  - rewrite (rs_self _ _ _ _ Rs). destruct (so_self _ _ _ _ So) as [n' [-> [[_ [_ [_ [_ V]]]] _]]]. exact V.
  - rewrite (rs_son _ _ _ _ Rs i Hi). destruct (so_son _ _ _ _ So i Hi) as [n' [-> [[_ [_ [_ [_ V]]]] _]]]. exact V.
  - pose proof (so_other _ _ _ _ So b H1 H2) as Ho. pose proof (rs_other _ _ _ _ Rs b H1 H2) as Ho3.
    destruct (t_store t b) as [n|], (t_store t' b) as [n'|], (s3 b) as [n3|]; try tauto.
    destruct Ho3 as [q [r ->]]. destruct Ho as [[_ [_ [_ [_ V]]]] _]. exact V.
Qed.
Lemma slot3 : forall b j, slot_edge s3 b j = slot_edge s' b j.
Proof.
  intros b j. unfold slot_edge. pose proof (s3_verts b) as H. destruct (s3 b) as [n|], (s' b) as [n'|]; try tauto.
  rewrite H. reflexivity.
Qed.
Hypothesis W' : forall b n, s' b = Some n -> length (n_verts n) = 4 /\ length (n_adj n) = 4.
Lemma good' : forall b, exs s' b -> good_node s' b.
Proof. intros b H. unfold exs in H. destruct (s' b) as [n|] eqn:E; [|congruence]. exists n. destruct (W' b n E). auto. Qed.
Lemma good3 : forall b, In b els -> good_node s3 b.
Proof.
  intros b H. pose proof (els_ex b H) as X. unfold exs in X. apply in_app_or in H. destruct H as [H|H].
  - pose proof (els_old b H) as Xo. destruct (wf_good b Xo) as [n [En [V L]]].
    assert (Hba : b <> a).
    { intros ->. apply in_els_of in H. destruct H as [i [d [j [Hi [E Hb]]]]]. destruct (shared_edge i d j Hi E) as [_ [_ [Ld _]]].
      destruct Hb as [F|F]; rewrite F in Ld; simpl in Ld; lia. }
    assert (Hbs : forall i, i < 4 -> b <> i :: a).
    { intros i _ ->. apply Xo. apply son_not_old. }
    pose proof (rs_other _ _ _ _ Rs b Hba Hbs) as Ho. unfold s in En. rewrite En in Ho.
    destruct (s3 b) as [n3|] eqn:E3; [|tauto]. destruct Ho as [q [r ->]]. eexists. split; [exact E3|]. split; assumption.
  - apply in_sons in H. destruct H as [i [Hi ->]]. exists (son_node t a c i). split; [apply (rs_son _ _ _ _ Rs); assumption|].
    split; [|reflexivity]. four Hi; reflexivity.
Qed.

Lemma two' : two_slots (vxs s') (exs s') (S (length a)).
Proof. destruct (good_all _ _ _ _ conf' (length a)) as [_ [G _]]. exact G. Qed.

Lemma se_els : forall b j d k, exs s' b -> exs s' d -> j < 4 -> k < 4 ->
  (slot_edge s3 b j = slot_edge s3 d k <-> se s' b j d k).
Proof. intros. rewrite !slot3. apply slot_edge_iff; auto using good'. Qed.

Lemma els_two : at_most_two s3 els.
Proof.
  intros b i d j e k Hb Hi Hd Hj He Hk S1 S2.
  apply se_els in S1; auto using els_ex. apply se_els in S2; auto using els_ex.
  destruct (two' d j b i e k) as [F|[F|F]]; auto using els_ex, els_len.
  apply same_edge_sym. assumption.
Qed.

(** every element sharing an edge with a new son is in the list *)
Lemma els_complete : forall h m x k, h < 4 -> m < 4 -> k < 4 -> exs s' x -> length x = S (length a) ->
  se s' (h :: a) m x k -> In x els.
Proof.
  intros h m x k Hh Hm Hk X L S. destruct (len_pos a exa) as [l Ll].
  destruct (ex_son _ _ _ _ conf' x l X) as [i [d [-> [Hi [R Ld]]]]]; [lia|].
  assert (Ra : rfs s' a) by (apply Hrf_ok; auto).
  assert (D : distinct4 (vxs s') a).
  { destruct (good_all _ _ _ _ conf' l) as [G _]. apply G; [apply (cf_ref _ _ _ _ conf'); assumption|assumption]. }
  apply (son_same _ _ _ _ conf') in S; auto; [|lia].
  unfold els. apply in_or_app. destruct S as [[O [O' [S V]]]|[<- _]]; [|right; apply in_sons; eauto].
  destruct (list_eq_dec Nat.eq_dec d a) as [->|Hda]; [right; apply in_sons; eauto|left].
  apply Hrf_ok in R. destruct R as [R|R]; [|tauto].
  assert (S' : se s a m d k).
  { apply se_old2 in S; auto using exa. apply (cf_ref _ _ _ _ Cs). assumption. }
  destruct (shared t a c m) as [[b j]|] eqn:E.
  2:{ destruct (shared_none m Hm E d k Hk R ltac:(lia) S'). }
  destruct (shared_edge m b j Hm E) as [Hj [Rb [Lb [Sb Hb]]]].
  destruct (good_all _ _ _ _ Cs l) as [_ [G _]].
  destruct (G a m b j d k) as [F|[F|F]]; auto using exa, (cf_ref _ _ _ _ Cs); try lia; try congruence.
  injection F as <- <-. apply in_els_of. exists m, b, j. split; [assumption|]. split; [assumption|].
  destruct O' as [_ [->| ->]]; auto.
Qed.

Lemma adj3 : forall b i, exs s b -> adj_at s3 b i = adj_at s b i.
Proof.
  intros b i X. unfold adj_at. destruct (cases_addr b) as [->|[[j [Hj ->]]|[H1 H2]]].
  - rewrite (rs_self _ _ _ _ Rs). unfold s. rewrite Ea. reflexivity.
  - destruct X. apply son_not_old.
  - pose proof (rs_other _ _ _ _ Rs b H1 H2) as Ho. unfold s. unfold exs, s in X. destruct (t_store t b) as [n|]; [|congruence].
    destruct (s3 b) as [n3|]; [|tauto]. destruct Ho as [q [r ->]]. reflexivity.
Qed.

Lemma adj' : adj_ok s'.
Proof.
  destruct (update_topology_spec els s3 good3 els_nodup els_two) as [s4 [Es4 [A [Out [Set_ Keep]]]]].
  rewrite E4 in Es4. injection Es4 as <-.
  (* old adjacency, for old nodes *)
  assert (Old : forall x i b, exs s x -> i < 4 ->
    (adj_at s3 x i = Some b <-> exists j, j < 4 /\ exs s b /\ length b = length x /\ (b, j) <> (x, i) /\ se s' x i b j)).
  { intros x i b X Hi. rewrite adj3 by assumption. pose proof (cf_adj t K x i b X Hi) as Ad. fold s in Ad. rewrite Ad.
    split; intros [j [Hj [Xb [L [Hne S]]]]]; exists j; repeat split; auto.
    - apply se_old2; auto.
    - apply se_old2 in S; auto. }
  intros x i b X Hi.
  destruct (in_dec (list_eq_dec Nat.eq_dec) x els) as [Hin|Hout].
  - (* in the list *)
    assert (Dec : (exists d k, partner s3 els x i d k) \/ ~ exists d k, partner s3 els x i d k).
    { destruct (existsb (fun d => existsb (fun k => negb (if list_eq_dec Nat.eq_dec d x then k =? i else false) &&
          match slot_edge s3 d k, slot_edge s3 x i with Some e, Some f => edge_eqb e f | _, _ => false end) [0;1;2;3]) els) eqn:Eb.
      - left. apply existsb_exists in Eb. destruct Eb as [d [Hd Eb]]. apply existsb_exists in Eb. destruct Eb as [k [Hk Eb]].
        apply andb_prop in Eb. destruct Eb as [E1 E2]. exists d, k. split; [assumption|]. split; [apply four_in; assumption|]. split.
        + intros F. injection F as -> ->. destruct (list_eq_dec Nat.eq_dec x x); [|congruence]. rewrite Nat.eqb_refl in E1. discriminate.
        + destruct (slot_edge s3 d k), (slot_edge s3 x i); try discriminate. apply edge_eqb_eq in E2. congruence.
      - right. intros [d [k [Hd [Hk [Hne Se]]]]].
        assert (T : existsb (fun d => existsb (fun k => negb (if list_eq_dec Nat.eq_dec d x then k =? i else false) &&
          match slot_edge s3 d k, slot_edge s3 x i with Some e, Some f => edge_eqb e f | _, _ => false end) [0;1;2;3]) els = true).
        { apply existsb_exists. exists d. split; [assumption|]. apply existsb_exists. exists k.
          split; [four Hk; simpl; tauto|]. apply andb_true_intro. split.
          - destruct (list_eq_dec Nat.eq_dec d x) as [->|]; [|reflexivity]. destruct (Nat.eqb_spec k i); [subst; congruence|reflexivity].
          - rewrite Se. destruct (slot_edge_some s3 x i (good3 x Hin) Hi) as [e ->]. apply edge_eqb_eq. reflexivity. }
        rewrite T in Eb. discriminate. }
    destruct Dec as [[d [k P]]|Hno].
    + rewrite (Set_ x i d k Hin Hi P). destruct P as [Hd [Hk [Hne Se]]]. apply se_els in Se; auto using els_ex.
      split.
      * intros F. injection F as <-. exists k. split; [assumption|]. split; [apply els_ex; assumption|].
        split; [rewrite (els_len d Hd), (els_len x Hin); reflexivity|]. split; [assumption|]. apply same_edge_sym. assumption.
      * intros [j [Hj [Xb [Lb [Hnb Sb]]]]]. pose proof (els_len x Hin) as Lx.
        destruct (two' x i b j d k) as [F|[F|F]]; auto using els_ex, els_len; try congruence.
        -- apply same_edge_sym. assumption.
    + rewrite (Keep x i Hin Hi Hno). pose proof (els_len x Hin) as Lx. split.
      * intros F. apply in_app_or in Hin. destruct Hin as [Ho|Hs].
        -- apply Old in F; [|apply els_old; assumption|assumption]. destruct F as [j [Hj [Xb R]]]. exists j. split; [assumption|].
           split; [apply Hex_ok; auto|assumption].
        -- apply in_sons in Hs. destruct Hs as [h [Hh ->]]. unfold adj_at in F. rewrite (rs_son _ _ _ _ Rs h Hh) in F. simpl in F.
           destruct i as [|[|[|[|i]]]]; simpl in F; try discriminate F; lia.
      * intros [j [Hj [Xb [Lb [Hnb Sb]]]]].
        assert (Hpart : forall y, In y els -> b = y -> False).
        { intros y Hy ->. apply Hno. exists y, j. split; [assumption|]. split; [assumption|]. split; [assumption|].
          apply se_els; auto. apply same_edge_sym. assumption. }
        apply in_app_or in Hin. destruct Hin as [Ho|Hs].
        -- apply Old; [apply els_old; assumption|assumption|]. exists j. split; [assumption|].
           apply Hex_ok in Xb. destruct Xb as [Xb|Xb]; [auto|].
           exfalso. apply (Hpart b); [|reflexivity]. apply in_or_app. right. apply in_sons. assumption.
        -- exfalso. apply in_sons in Hs. destruct Hs as [h [Hh ->]]. apply (Hpart b); [|reflexivity].
           apply (els_complete h i b j); auto.
  - (* not in the list *)
    assert (Xo : exs s x).
    { apply Hex_ok in X. destruct X as [X|X]; [assumption|]. exfalso. apply Hout. apply in_or_app. right. apply in_sons. assumption. }
    assert (Ead : adj_at s' x i = adj_at s3 x i) by (unfold adj_at; rewrite (Out x Hout); reflexivity).
    rewrite Ead, (Old x i b Xo Hi). split.
    + intros [j [Hj [Xb R]]]. exists j. split; [assumption|]. split; [apply Hex_ok; auto|assumption].
    + intros [j [Hj [Xb [Lb [Hnb Sb]]]]]. exists j. split; [assumption|].
      apply Hex_ok in Xb. destruct Xb as [Xb|[h [Hh ->]]]; [auto|].
      exfalso. apply Hout. simpl in Lb. apply (els_complete h j x i); auto. apply same_edge_sym. assumption.
Qed.

End Refine.

Lemma refine_leaf_conf : forall t l a t', WF t l -> is_leaf t a -> CF t -> refine_leaf t a = Some t' -> CF t'.
Proof.
  intros t l a t' W [c [Ea Er]] K E.
  assert (Hin : In a l) by (apply (wf_leaf t l W); exists c; auto).
  apply in_split in Hin. destruct Hin as [l1 [l2 ->]].
  destruct (refine_leaf_ok t l1 a l2 c W Ea Er) as [t1 [E1 [W1 So]]]. rewrite E in E1. injection E1 as <-.
  destruct (refine_leaf_shape t l1 a l2 c W Ea Er) as [s3 [s4 [Rs [Sg [E4 [A4 R]]]]]].
  rewrite E in R. injection R as R. subst t'.
  split.
  - eapply conf'; eauto.
  - eapply (adj' t l1 l2 a c W Ea Er K (refined_tree t a c s4) So s3 Rs); [exact E4|].
    intros b n En. pose proof (wf_node _ _ W1 b n En) as Kn. split; [apply (nk_verts _ _ Kn)|apply (nk_adj _ _ Kn)].
  - eapply used'; eauto.
Qed.
