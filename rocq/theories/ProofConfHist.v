(** Conformity for all histories (C18). *)
From Coq Require Import List Arith Bool Lia.
From Verif Require Import ModelBase ModelTree SpecTree SpecMesh ProofTree ProofTreeWF ProofTreeHist ProofTreeLook ProofTopo ProofConf ProofConfStep ProofConfTree.
Import ListNotations.

(** ** properties preserved by refineLeaf hold for all histories *)
Section Lift.
Variable P : tree -> Prop.
Hypothesis Hleaf : forall t l a t', WF t l -> is_leaf t a -> P t -> refine_leaf t a = Some t' -> P t'.

Definition PW (t : tree) : Prop := P t /\ exists l, WF t l.

Lemma refine_rec_PW : forall fuel t a t', PW t -> refine_rec fuel t a = Some t' -> PW t'.
Proof.
  induction fuel as [|f IH]; intros t a t' H E; [discriminate|]. cbn [refine_rec] in E.
  destruct (t_store t a) as [c|] eqn:Ea; [|discriminate]. cbn [bind] in E. destruct (n_ref c) eqn:Er.
  - destruct (refine_rec f t (0 :: a)) as [t0|] eqn:E0; [|discriminate]. cbn [bind] in E.
    destruct (refine_rec f t0 (1 :: a)) as [t1|] eqn:E1; [|discriminate]. cbn [bind] in E.
    destruct (refine_rec f t1 (2 :: a)) as [t2|] eqn:E2; [|discriminate]. cbn [bind] in E.
    apply (IH _ _ _ (IH _ _ _ (IH _ _ _ (IH _ _ _ H E0) E1) E2) E).
  - destruct H as [H [l W]]. assert (L : is_leaf t a) by (exists c; auto).
    destruct (refine_leaf_grown t l a W L) as [t1 [l1 [E1 [W1 _]]]].
    rewrite E in E1. injection E1 as <-. split; [apply (Hleaf t l a t' W L H E)|exists l1; assumption].
Qed.

Lemma for_opt_pres : forall {A} (Q : A -> Prop) n (f : nat -> A -> option A) x y,
  (forall i u v, Q u -> f i u = Some v -> Q v) -> Q x -> for_opt n f x = Some y -> Q y.
Proof.
  intros A Q n f x y H. revert y. induction n as [|n IH]; intros y Hx E; cbn [for_opt] in E.
  - injection E as <-. assumption.
  - destruct (for_opt n f x) as [z|] eqn:Ez; [|discriminate]. cbn [bind] in E. eauto.
Qed.

Lemma run_op_PW : forall t o t', PW t -> run_op t o = Some t' -> PW t'.
Proof.
  intros t [|p|a] t' H E; cbn [run_op] in E.
  - unfold refine_uniformly in E. revert E. apply for_opt_pres; [|assumption].
    intros i u v Hu Ev. eapply refine_rec_PW; eassumption.
  - eapply refine_rec_PW; eassumption.
  - eapply refine_rec_PW; eassumption.
Qed.
Lemma run_PW : forall os t t', PW t -> run t os = Some t' -> PW t'.
Proof.
  induction os as [|o os IH]; intros t t' H E; cbn [run] in E.
  - injection E as <-. assumption.
  - destruct (run_op t o) as [t1|] eqn:E1; [|discriminate]. cbn [bind] in E. eapply IH; [|exact E]. eapply run_op_PW; eassumption.
Qed.
Lemma refine_times_PW : forall k t t', PW t -> refine_times k t = Some t' -> PW t'.
Proof.
  intros k t t' H E. unfold refine_times in E. revert E. apply for_opt_pres; [|assumption].
  intros i u v Hu Ev. apply (run_op_PW u OpUniform v Hu Ev).
Qed.
End Lift.

(** ** patches *)
Section Init.
Variable verts : list (list nat).
Hypothesis M : mesh_ok verts.
Variables npts ml : nat.
Hypothesis Hlt : forall vs v, In vs verts -> In v vs -> v < npts.
Hypothesis Hused : forall v, v < npts -> exists vs, In vs verts /\ In v vs.

Lemma patch_verts : forall p, p < length verts -> patch_store verts [p] = Some (patch_node (length verts) p (nth p verts [])).
Proof.
  intros p Hp. unfold patch_store. rewrite (nth_error_nth' verts []) by assumption. reflexivity.
Qed.
Lemma patch_in : forall p, p < length verts -> In (nth p verts []) verts.
Proof. intros. apply nth_In. assumption. Qed.

Lemma init_cf : forall t, init_patches verts npts ml = Some t ->
  CF t /\ (forall p k, p < length verts -> vxs (t_store t) [p] k = pvert verts p k) /\ t_patches t = length verts.
Proof.
  intros t E.
  destruct (init_patches_ok verts npts ml (mo_len verts M)) as [t1 [E1 [W [HP [_ [Hpts [U _]]]]]]].
  rewrite E in E1. injection E1 as <-.
  set (els := map patch_addr (seq 0 (length verts))) in *.
  assert (Hels : forall a, In a els <-> exists p, p < length verts /\ a = [p]).
  { intros a. unfold els. rewrite in_map_iff. split.
    - intros [p [<- Hp]]. apply in_seq in Hp. exists p. split; [lia|reflexivity].
    - intros [p [Hp ->]]. exists p. split; [reflexivity|]. apply in_seq. lia. }
  assert (Hgood : forall b, In b els -> good_node (patch_store verts) b).
  { intros b Hb. apply Hels in Hb. destruct Hb as [p [Hp ->]]. eexists. split; [apply patch_verts; assumption|].
    split; [apply (mo_len verts M); apply patch_in; assumption|reflexivity]. }
  assert (Hnd : NoDup els).
  { unfold els. apply FinFun.Injective_map_NoDup; [|apply seq_NoDup]. intros x y F. injection F. auto. }
  assert (Hslot : forall p i q j, p < length verts -> q < length verts -> i < 4 -> j < 4 ->
     (slot_edge (patch_store verts) [p] i = slot_edge (patch_store verts) [q] j <-> glued verts p i q j)).
  { intros p i q j Hp Hq Hi Hj. rewrite slot_edge_iff; auto; [|apply Hgood; apply Hels; eauto|apply Hgood; apply Hels; eauto].
    unfold same_edge, vxs. rewrite (patch_verts p Hp), (patch_verts q Hq). simpl n_verts.
    unfold glued, aligned, opposed, pvert, nx. tauto. }
  assert (Htwo : at_most_two (patch_store verts) els).
  { intros a i b j c k Ha Hi Hb Hj Hc Hk S1 S2. apply Hels in Ha. apply Hels in Hb. apply Hels in Hc.
    destruct Ha as [p [Hp ->]], Hb as [q [Hq ->]], Hc as [r [Hr ->]].
    assert (S3 : slot_edge (patch_store verts) [p] i = slot_edge (patch_store verts) [r] k) by congruence.
    apply Hslot in S1; auto. apply Hslot in S3; auto.
    destruct (mo_two verts M p i q j r k) as [F|[F|F]]; auto; injection F as -> ->; auto. }
  destruct (update_topology_spec els (patch_store verts) Hgood Hnd Htwo) as [s' [E' [A [Out [Set_ Keep]]]]].
  rewrite U in E'. injection E' as <-. set (s := t_store t) in *.
  assert (Hv : forall a k, vxs s a k = vxs (patch_store verts) a k).
  { intros a k. unfold vxs. specialize (A a). destruct (patch_store verts a) as [n|], (s a) as [n'|]; try tauto.
    destruct A as [l' [-> _]]. reflexivity. }
  assert (Hvp : forall p k, p < length verts -> vxs s [p] k = pvert verts p k).
  { intros p k Hp. rewrite Hv. unfold vxs. rewrite (patch_verts p Hp). reflexivity. }
  assert (Hx : forall a, exs s a <-> exists p, p < length verts /\ a = [p]).
  { intros a. rewrite <- Hels. unfold exs. split.
    - intros X. specialize (A a). destruct (patch_store verts a) as [n|] eqn:En.
      + apply Hels. unfold patch_store in En. destruct a as [|p [|q a]]; try discriminate.
        destruct (nth_error verts p) eqn:Ep; [|discriminate]. exists p. split; [|reflexivity]. apply nth_error_Some. congruence.
      + destruct (s a); [tauto|congruence].
    - intros Hin. destruct (Hgood a Hin) as [n [En _]]. specialize (A a). rewrite En in A.
      destruct (s a); [discriminate|tauto]. }
  assert (Hr : forall a, ~ rfs s a).
  { intros a [n [En Rn]]. assert (X : exs s a) by (unfold exs; congruence). apply Hx in X. destruct X as [p [Hp ->]].
    specialize (A [p]). rewrite (patch_verts p Hp), En in A. destruct A as [l' [-> _]]. discriminate. }
  assert (Hse : forall p i q j, p < length verts -> q < length verts -> (se s [p] i [q] j <-> glued verts p i q j)).
  { intros p i q j Hp Hq. unfold same_edge. rewrite !Hvp by assumption. unfold glued, aligned, opposed, nx. tauto. }
  split; [|split; assumption].
  split.
  - split.
    + intros X. apply Hx in X. destruct X as [p [_ F]]. discriminate.
    + intros i d Hd. split.
      * intros X. apply Hx in X. destruct X as [p [_ F]]. injection F as _ F. congruence.
      * intros [_ R]. destruct (Hr d R).
    + intros d R. destruct (Hr d R).
    + intros d i R. destruct (Hr d R).
    + intros a k X Hk. rewrite Hpts. apply Hx in X. destruct X as [p [Hp ->]]. fold s. rewrite (Hvp p k Hp).
      apply (Hlt (nth p verts [])); [apply patch_in; assumption|]. unfold pvert. apply nth_In.
      rewrite (mo_len verts M); [assumption|apply patch_in; assumption].
    + intros d k d' k' R. destruct (Hr d R).
    + intros d c k m R. destruct (Hr d R).
    + intros d d' R. destruct (Hr d R).
    + split; [|split].
      * intros a X _ i j Hi Hj F. apply Hx in X. destruct X as [p [Hp ->]]. fold s in F. rewrite !Hvp in F by assumption.
        unfold pvert in F. pose proof (mo_len verts M _ (patch_in p Hp)) as L.
        apply (proj1 (NoDup_nth (nth p verts []) 0) (mo_nodup verts M _ (patch_in p Hp))) in F; [assumption|lia|lia].
      * intros a i b j c k Xa Xb Xc _ _ _ Hi Hj Hk S1 S2. apply Hx in Xa, Xb, Xc.
        destruct Xa as [p [Hp ->]], Xb as [q [Hq ->]], Xc as [r [Hr' ->]]. fold s in S1, S2. apply Hse in S1; auto. apply Hse in S2; auto.
        destruct (mo_two verts M p i q j r k) as [F|[F|F]]; auto; injection F as -> ->; auto.
      * intros a i j b i' j' Xa Xb _ _ Hne Hi Hj Hi' Hj' S1 S2. apply Hx in Xa, Xb.
        destruct Xa as [p [Hp ->]], Xb as [q [Hq ->]]. fold s in S1, S2. apply Hse in S1; auto. apply Hse in S2; auto.
        apply (mo_one verts M p i j q i' j'); auto. congruence.
  - fold s. intros a i b Xa Hi. pose proof Xa as Xa'. apply Hx in Xa'. destruct Xa' as [p [Hp ->]].
    assert (Hin : In [p] els) by (apply Hels; eauto).
    assert (Dec : (exists q j, q < length verts /\ j < 4 /\ (q, j) <> (p, i) /\ glued verts p i q j) \/
                  ~ exists q j, q < length verts /\ j < 4 /\ (q, j) <> (p, i) /\ glued verts p i q j).
    { assert (G : forall q j, {glued verts p i q j} + {~ glued verts p i q j}).
      { intros q j. unfold glued, aligned, opposed.
        destruct (Nat.eq_dec (pvert verts p i) (pvert verts q j)), (Nat.eq_dec (pvert verts p ((i+1) mod 4)) (pvert verts q ((j+1) mod 4))),
          (Nat.eq_dec (pvert verts p i) (pvert verts q ((j+1) mod 4))), (Nat.eq_dec (pvert verts p ((i+1) mod 4)) (pvert verts q j)); tauto. }
      destruct (Exists_dec (fun q => Exists (fun j => (q, j) <> (p, i) /\ glued verts p i q j) [0;1;2;3]) (seq 0 (length verts))) as [D|D].
      { intros q. apply Exists_dec. intros j. destruct (G q j); [|right; tauto].
        destruct (Nat.eq_dec q p), (Nat.eq_dec j i); [right; subst; tauto|left|left|left]; (split; [congruence|assumption]). }
      - left. apply Exists_exists in D. destruct D as [q [Hq D]]. apply Exists_exists in D. destruct D as [j [Hj [D1 D2]]].
        apply in_seq in Hq. exists q, j. split; [lia|]. split; [apply four_in; assumption|]. auto.
      - right. intros [q [j [Hq [Hj [D1 D2]]]]]. apply D. apply Exists_exists. exists q. split; [apply in_seq; lia|].
        apply Exists_exists. exists j. split; [four Hj; simpl; tauto|]. auto. }
    destruct Dec as [[q [j [Hq [Hj [Hne Hg]]]]]|Hno].
    + assert (P : partner (patch_store verts) els [p] i [q] j).
      { split; [apply Hels; eauto|]. split; [assumption|]. split; [congruence|]. symmetry. apply Hslot; auto. }
      rewrite (Set_ [p] i [q] j Hin Hi P). split.
      * intros F. injection F as <-. exists j. split; [assumption|]. split; [apply Hx; eauto|]. split; [reflexivity|].
        split; [congruence|]. apply Hse; auto.
      * intros [j' [Hj' [Xb [_ [Hne' S']]]]]. apply Hx in Xb. destruct Xb as [r [Hr' ->]]. apply Hse in S'; auto.
        destruct (mo_two verts M p i q j r j') as [F|[F|F]]; auto; congruence.
    + rewrite (Keep [p] i Hin Hi).
      * unfold adj_at. rewrite (patch_verts p Hp). simpl. split.
        -- intros F. destruct i as [|[|[|[|i]]]]; discriminate || lia.
        -- intros [j' [Hj' [Xb [_ [Hne' S']]]]]. exfalso. apply Hx in Xb. destruct Xb as [r [Hr' ->]]. apply Hse in S'; auto.
           apply Hno. exists r, j'. split; [assumption|]. split; [assumption|]. split; [congruence|assumption].
      * intros [b' [k [Hb' [Hk [Hne Hs]]]]]. apply Hels in Hb'. destruct Hb' as [q [Hq ->]].
        apply Hno. exists q, k. split; [assumption|]. split; [assumption|]. split; [congruence|]. apply Hslot; auto.
  - intros v Hv'. rewrite Hpts in Hv'. destruct (Hused v Hv') as [vs [Hin Hvs]].
    destruct (In_nth verts vs [] Hin) as [p [Hp Ep]]. destruct (In_nth vs v 0 Hvs) as [k [Hk Ek]].
    rewrite (mo_len verts M vs Hin) in Hk. exists [p], k. split; [|split; [assumption|]].
    + assert (X : exs s [p]) by (apply Hx; eauto). unfold exs, s in X. destruct (t_store t [p]) as [n|] eqn:En; [|congruence].
      exists n. split; [assumption|]. destruct (n_ref n) eqn:Rn; [|reflexivity]. destruct (Hr [p]). exists n. auto.
    + fold s. rewrite (Hvp p k Hp). unfold pvert. rewrite Ep. assumption.
Qed.

Definition over (t : tree) : Prop :=
  CF t /\ (forall p k, p < length verts -> vxs (t_store t) [p] k = pvert verts p k) /\ t_patches t = length verts.

Lemma over_leaf : forall t l a t', WF t l -> is_leaf t a -> over t -> refine_leaf t a = Some t' -> over t'.
Proof.
  intros t l a t' W L [K [V P]] E. split; [eapply refine_leaf_conf; eauto|].
  destruct (refine_leaf_grown t l a W L) as [t1 [l1 [E1 [W1 G]]]]. rewrite E in E1. injection E1 as <-.
  split; [|rewrite (gr_patches _ _ _ G); assumption].
  intros p k Hp. rewrite <- V by assumption. unfold vxs.
  assert (X : t_store t [p] <> None) by (apply (wf_patch t l W); lia).
  destruct (t_store t [p]) as [n|] eqn:En; [|congruence].
  destruct (gr_old _ _ _ G [p] n En) as [n' [-> [[_ [_ [_ [_ ->]]]] _]]]. reflexivity.
Qed.

Lemma over_reachable : forall t, (exists os t0, init_patches verts npts ml = Some t0 /\ run t0 os = Some t) -> over t /\ exists l, WF t l.
Proof.
  intros t [os [t0 [E0 E]]].
  destruct (init_patches_ok verts npts ml (mo_len verts M)) as [t1 [E1 [W _]]]. rewrite E0 in E1. injection E1 as <-.
  apply (run_PW over over_leaf os t0 t); [|assumption]. split; [apply init_cf; assumption|eauto].
Qed.
End Init.
