(** patchTopologyInfo (C17) and the passage from geometries to patch meshes. *)
From Coq Require Import List Arith Bool Lia.
From Verif Require Import ModelBase ModelTree SpecTree SpecMesh ProofTree ProofTreeWF ProofTreeHist ProofTreeGeo ProofTopo ProofConf ProofConfStep ProofConfTree ProofConfHist ProofConfPts.
Import ListNotations.

(** ** numbering of the corners *)
Section Corners.
Context {Pt : Type}.
Variable close : Pt -> Pt -> bool.

Lemma find_pt_le : forall v pts, find_pt close v pts <= length pts.
Proof. intros v pts. induction pts as [|p pts IH]; simpl; [lia|]. destruct (close p v); simpl; lia. Qed.

Lemma add_pt_spec : forall pts v k pts1, add_pt close pts v = (k, pts1) ->
  (k < length pts /\ pts1 = pts) \/ (k = length pts /\ pts1 = pts ++ [v]).
Proof.
  intros pts v k pts1 H. unfold add_pt in H. destruct (find_pt close v pts <? length pts) eqn:E; injection H as <- <-.
  - left. apply Nat.ltb_lt in E. auto.
  - auto.
Qed.

Lemma add_pts_spec : forall vs pts ks pts1, add_pts close pts vs = (ks, pts1) ->
  length pts <= length pts1 /\ (forall v, In v ks -> v < length pts1) /\
  (forall v, length pts <= v -> v < length pts1 -> In v ks).
Proof.
  induction vs as [|v vs IH]; intros pts ks pts1 H; cbn [add_pts] in H.
  - injection H as <- <-. split; [lia|]. split; [intros ? []|lia].
  - destruct (add_pt close pts v) as [k p1] eqn:E1. destruct (add_pts close p1 vs) as [ks' p2] eqn:E2. injection H as <- <-.
    destruct (IH _ _ _ E2) as [L [B U]]. destruct (add_pt_spec _ _ _ _ E1) as [[Hk ->]|[Hk ->]].
    + split; [assumption|]. split; [intros w [<-|Hw]; [lia|auto]|]. intros w H1 H2. right. auto.
    + rewrite app_length in *. simpl in *. split; [lia|]. split; [intros w [<-|Hw]; [lia|auto]|].
      intros w H1 H2. destruct (Nat.eq_dec w (length pts)) as [->|]; [left; auto|right; apply U; lia].
Qed.

Lemma patch_vertices_spec : forall cs pts kss pts1, patch_vertices close pts cs = (kss, pts1) ->
  length pts <= length pts1 /\ (forall ks v, In ks kss -> In v ks -> v < length pts1) /\
  (forall v, length pts <= v -> v < length pts1 -> exists ks, In ks kss /\ In v ks).
Proof.
  induction cs as [|c cs IH]; intros pts kss pts1 H; cbn [patch_vertices] in H.
  - injection H as <- <-. split; [lia|]. split; [intros ? ? []|lia].
  - destruct (add_pts close pts c) as [ks p1] eqn:E1. destruct (patch_vertices close p1 cs) as [kss' p2] eqn:E2. injection H as <- <-.
    destruct (IH _ _ _ E2) as [L [B U]]. destruct (add_pts_spec _ _ _ _ E1) as [L1 [B1 U1]].
    split; [lia|]. split.
    + intros ks' w [<-|Hk] Hw; [specialize (B1 _ Hw); lia|eauto].
    + intros w H1 H2. destruct (lt_dec w (length p1)) as [Hw|Hw].
      * exists ks. split; [left; reflexivity|apply U1; assumption].
      * destruct (U w) as [ks' [I1 I2]]; [lia|lia|]. exists ks'. split; [right; assumption|assumption].
Qed.

Lemma patch_vertices_numbered : forall cs kss pts, patch_vertices close [] cs = (kss, pts) -> numbered kss (length pts).
Proof.
  intros cs kss pts H v. destruct (patch_vertices_spec _ _ _ _ H) as [_ [B U]]. split.
  - intros Hv. apply U; [simpl; lia|assumption].
  - intros [ks [H1 H2]]. eauto.
Qed.
End Corners.

Lemma refine_times_run : forall k t, refine_times k t = run t (repeat OpUniform k).
Proof.
  assert (R : forall os t o, run t (os ++ [o]) = bind (run t os) (fun t' => run_op t' o)).
  { induction os as [|x os IH]; intros t o; cbn [run app].
    - cbn [bind]. destruct (run_op t o); reflexivity.
    - destruct (run_op t x) as [t1|]; [|reflexivity]. cbn [bind]. apply IH. }
  intros k t. unfold refine_times. induction k as [|k IH]; [reflexivity|].
  cbn [for_opt]. rewrite IH. replace (repeat OpUniform (S k)) with (repeat OpUniform k ++ [OpUniform]).
  - rewrite R. reflexivity.
  - clear. induction k as [|k IH]; [reflexivity|]. simpl in *. rewrite IH. reflexivity.
Qed.

Lemma run_app : forall os os' t, run t (os ++ os') = bind (run t os) (fun t' => run t' os').
Proof.
  induction os as [|x os IH]; intros os' t; cbn [run app]; [reflexivity|].
  destruct (run_op t x) as [t1|]; [|reflexivity]. cbn [bind]. apply IH.
Qed.
Lemma ops_valid_app : forall os os' t, ops_valid t os -> (forall t', run t os = Some t' -> ops_valid t' os') -> ops_valid t (os ++ os').
Proof.
  induction os as [|x os IH]; intros os' t V H; cbn [ops_valid app] in *; [apply H; reflexivity|].
  destruct V as [V1 V2]. split; [assumption|]. intros t' E. apply IH; [auto|]. intros t'' E'. apply H. cbn [run]. rewrite E. assumption.
Qed.
Lemma ops_valid_uniform : forall k t, ops_valid t (repeat OpUniform k).
Proof. induction k as [|k IH]; intros t; simpl; auto. Qed.

Lemma from_geometry_over : forall {Pt} (close : Pt -> Pt -> bool) corners verts t, from_geometry close corners verts t ->
  exists npts, numbered verts npts /\ reachable_over verts npts t.
Proof.
  intros Pt close corners verts t [M [os [t0 [Hv [H4 [E0 [V E]]]]]]]. unfold init_tree in E0.
  destruct (patch_vertices close [] corners) as [vs pts] eqn:Ep. simpl in Hv. subst vs.
  destruct (init_patches verts (length pts) M) as [t1|] eqn:E1; [|discriminate]. cbn [bind] in E0. rewrite refine_times_run in E0.
  exists (length pts). split; [eapply patch_vertices_numbered; eassumption|].
  exists M, (repeat OpUniform M ++ os), t1. split; [assumption|]. split.
  - apply ops_valid_app; [apply ops_valid_uniform|]. intros t' E'. assert (t' = t0) by congruence. subst; assumption.
  - rewrite run_app, E0. cbn [bind]. assumption.
Qed.

Section Over.
Variable verts : list (list nat).
Hypothesis M : mesh_ok verts.
Variable t : tree.
Variable l : list addr.
Hypothesis W : WF t l.
Hypothesis Ov : over verts t.
Let P := length verts.
Let s := t_store t.

Lemma patch_exists : forall p, p < P -> exists n, s [p] = Some n /\ n_id n = p /\ length (n_adj n) = 4.
Proof.
  intros p Hp. destruct Ov as [_ [_ E]]. assert (H : t_store t [p] <> None) by (apply (wf_patch t l W); lia).
  unfold s. destruct (t_store t [p]) as [n|] eqn:En; [|congruence]. exists n. split; [reflexivity|].
  pose proof (wf_node t l W [p] n En) as K. split; [rewrite (nk_id _ _ K); simpl; lia|apply (nk_adj _ _ K)].
Qed.
Lemma patch_exs : forall b, exs s b -> length b = 1 -> exists q, b = [q] /\ q < P.
Proof.
  intros [|q [|]] Hb L; try discriminate. exists q. split; [reflexivity|]. destruct Ov as [_ [_ E]].
  unfold P. rewrite <- E. apply (wf_patch t l W). assumption.
Qed.
Lemma patch_exs' : forall p, p < P -> exs s [p].
Proof. intros p Hp. destruct (patch_exists p Hp) as [n [E _]]. unfold exs. congruence. Qed.

Lemma se_glued : forall p i q j, p < P -> q < P -> se s [p] i [q] j <-> glued verts p i q j.
Proof.
  intros p i q j Hp Hq. destruct Ov as [_ [V _]]. fold s in V. unfold same_edge, glued, aligned, opposed, nx.
  rewrite !V by assumption. tauto.
Qed.

Lemma patch_adj : forall p i q, p < P -> i < 4 ->
  (adj_at s [p] i = Some [q] <-> q < P /\ exists j, j < 4 /\ (q, j) <> (p, i) /\ glued verts p i q j).
Proof.
  intros p i q Hp Hi. destruct Ov as [K _]. pose proof (cf_adj t K [p] i [q] (patch_exs' p Hp) Hi) as A. fold s in A. rewrite A. split.
  - intros [j [Hj [Hb [L [Ne Hs]]]]]. destruct (patch_exs [q] Hb eq_refl) as [q' [E Hq]]. injection E as <-.
    split; [assumption|]. exists j. split; [assumption|]. split; [congruence|]. apply se_glued; assumption.
  - intros [Hq [j [Hj [Ne G]]]]. exists j. split; [assumption|]. split; [apply patch_exs'; assumption|]. split; [reflexivity|].
    split; [congruence|]. apply se_glued; assumption.
Qed.
Lemma patch_adj_some : forall p i b, p < P -> i < 4 -> adj_at s [p] i = Some b -> exists q, b = [q] /\ q < P.
Proof.
  intros p i b Hp Hi E. destruct Ov as [K _]. apply (cf_adj t K [p] i b (patch_exs' p Hp) Hi) in E. fold s in E.
  destruct E as [j [_ [Hb [L _]]]]. apply patch_exs; assumption.
Qed.
Lemma glued_ne : forall p i q j, p < P -> i < 4 -> j < 4 -> (q, j) <> (p, i) -> glued verts p i q j -> q <> p.
Proof.
  intros p i q j Hp Hi Hj Ne [G|G] ->.
  - apply Ne. f_equal. symmetry. apply (aligned_self verts M p i j); assumption.
  - destruct G as [A B]. apply (pvert_inj verts M) in A; [|assumption|assumption|apply (nx_lt j)].
    apply (pvert_inj verts M) in B; [|assumption|apply (nx_lt i)|assumption].
    subst i. clear -Hj B. unfold nx in *. four Hj; simpl in B; discriminate.
Qed.
Lemma glued_sym : forall p i q j, glued verts p i q j -> glued verts q j p i.
Proof. intros p i q j [[A B]|[A B]]; [left|right]; split; auto. Qed.

Lemma find_adj_id_spec : forall q n j id ks, q < P -> s [q] = Some n -> length (n_adj n) = 4 -> (forall k, In k ks -> k < 4) ->
  In j ks -> adj_at s [q] j = Some [id] -> id < P -> (forall k, In k ks -> adj_at s [q] k = Some [id] -> k = j) ->
  find_adj_id s (n_adj n) id ks = Some j.
Proof.
  intros q n j id ks Hq En L. induction ks as [|k ks IH]; intros Hlt Hj Ej Hid U; [destruct Hj|]. cbn [find_adj_id].
  rewrite (get_nth _ k None) by (rewrite L; apply Hlt; left; reflexivity). cbn [bind].
  assert (Ek : adj_at s [q] k = nth k (n_adj n) None) by (unfold adj_at; rewrite En; reflexivity).
  rewrite <- Ek. destruct (adj_at s [q] k) as [b|] eqn:Eb.
  - destruct (patch_adj_some q k b Hq ltac:(apply Hlt; left; reflexivity) Eb) as [r [-> Hr]].
    destruct (patch_exists r Hr) as [nr [Enr [Ir _]]]. rewrite Enr. cbn [bind]. rewrite Ir.
    destruct (r =? id) eqn:Er.
    + apply Nat.eqb_eq in Er. rewrite Er in Eb. f_equal. apply U; [left; reflexivity|assumption].
    + apply IH; auto; [intros; apply Hlt; right; assumption| |intros; apply U; [right; assumption|assumption]].
      destruct Hj as [->|Hj]; [|assumption]. apply Nat.eqb_neq in Er. congruence.
  - apply IH; auto; [intros; apply Hlt; right; assumption| |intros; apply U; [right; assumption|assumption]].
    destruct Hj as [->|Hj]; [congruence|assumption].
Qed.

(** the entry reported at edge i of patch p *)
Definition reported (p i : nat) (x : interface) : Prop :=
  (exists q j, p < q /\ q < P /\ j < 4 /\ glued verts p i q j /\ x = (p, Some q, i, Some j)) \/
  ((~ exists q j, q < P /\ j < 4 /\ (q, j) <> (p, i) /\ glued verts p i q j) /\ x = (p, None, i, None)).

Lemma reported_pi : forall p i p' i' x, reported p i x -> reported p' i' x -> p = p' /\ i = i'.
Proof.
  intros p i p' i' x [[q [j [_ [_ [_ [_ ->]]]]]]|[_ ->]] [[q' [j' [_ [_ [_ [_ E]]]]]]|[_ E]]; injection E; auto.
Qed.
Lemma reported_unique : forall p i x y, p < P -> i < 4 -> reported p i x -> reported p i y -> x = y.
Proof.
  intros p i x y Hp Hi [[q [j [Hq [HqP [Hj [G ->]]]]]]|[N ->]] [[q' [j' [Hq' [HqP' [Hj' [G' ->]]]]]]|[N' ->]].
  - destruct (mo_two verts M p i q j q' j' Hp HqP HqP' Hi Hj Hj' G G') as [E|[E|E]]; injection E; intros; subst; try lia. reflexivity.
  - exfalso. apply N'. exists q, j. split; [assumption|]. split; [assumption|]. split; [intros E; injection E; lia|assumption].
  - exfalso. apply N. exists q', j'. split; [assumption|]. split; [assumption|]. split; [intros E; injection E; lia|assumption].
  - reflexivity.
Qed.

Lemma NoDup_snoc : forall {A} (m : list A) x, NoDup m -> ~ In x m -> NoDup (m ++ [x]).
Proof.
  intros A m x N H. induction m as [|y m IH]; simpl; [repeat constructor; auto|]. inversion N; subst. constructor.
  - rewrite in_app_iff. intros [?|[<-|[]]]; [contradiction|]. apply H. left. reflexivity.
  - apply IH; [assumption|]. intros ?. apply H. right. assumption.
Qed.

Definition before (p i p' i' : nat) : Prop := i' < 4 /\ p' < P /\ (p' < p \/ p' = p /\ i' < i).
Definition by_patch (out : list interface) : Prop :=
  forall l1 e l2 f l3, out = l1 ++ e :: l2 ++ f :: l3 -> fst (fst (fst e)) <= fst (fst (fst f)).
Lemma by_patch_snoc : forall out x, by_patch out -> (forall y, In y out -> fst (fst (fst y)) <= fst (fst (fst x))) -> by_patch (out ++ [x]).
Proof.
  intros out x H Hx l1 e l2 f l3 E. destruct l3 as [|z l3 _] using rev_ind.
  - replace (l1 ++ e :: l2 ++ [f]) with ((l1 ++ e :: l2) ++ [f]) in E by (rewrite <- app_assoc; reflexivity).
    apply app_inj_tail in E. destruct E as [-> ->]. apply Hx. apply in_app_iff. right. left. reflexivity.
  - replace (l1 ++ e :: l2 ++ f :: l3 ++ [z]) with ((l1 ++ e :: l2 ++ f :: l3) ++ [z]) in E
      by (rewrite <- app_assoc; simpl; rewrite <- app_assoc; reflexivity).
    apply app_inj_tail in E. destruct E as [E _]. eapply H. exact E.
Qed.
Definition listed (p i : nat) (out : list interface) : Prop :=
  (NoDup out /\ by_patch out) /\ forall x, In x out <-> exists p' i', before p i p' i' /\ reported p' i' x.

Lemma listed_skip : forall p i out, p < P -> i < 4 -> listed p i out -> (forall x, ~ reported p i x) -> listed p (S i) out.
Proof.
  intros p i out Hp Hi [N H] Q. split; [assumption|]. intros x. rewrite H. split; intros [p' [i' [B R]]].
  - exists p', i'. split; [unfold before in *; lia|assumption].
  - exists p', i'. split; [|assumption]. unfold before in *. destruct (Nat.eq_dec p' p) as [->|]; [|lia].
    destruct (Nat.eq_dec i' i) as [->|]; [|lia]. exfalso. eapply Q; eassumption.
Qed.
Lemma listed_add : forall p i out x, p < P -> i < 4 -> listed p i out -> reported p i x -> listed p (S i) (out ++ [x]).
Proof.
  intros p i out x Hp Hi [[N Sd] H] R. split.
  - split; [|apply by_patch_snoc; [assumption|]].
    2: { intros y Hy. apply H in Hy. destruct Hy as [p' [i' [B R']]].
         assert (Ex : fst (fst (fst x)) = p) by (destruct R as [[? [? [_ [_ [_ [_ ->]]]]]]|[_ ->]]; reflexivity).
         assert (Ey : fst (fst (fst y)) = p') by (destruct R' as [[? [? [_ [_ [_ [_ ->]]]]]]|[_ ->]]; reflexivity).
         rewrite Ex, Ey. unfold before in B. lia. }
    apply NoDup_snoc; [assumption|]. rewrite H. intros [p' [i' [B R']]].
    destruct (reported_pi _ _ _ _ _ R R') as [<- <-]. unfold before in B. lia.
  - intros y. rewrite in_app_iff, H. split.
    + intros [[p' [i' [B R']]]|[<-|[]]].
      * exists p', i'. split; [unfold before in *; lia|assumption].
      * exists p, i. split; [unfold before; lia|assumption].
    + intros [p' [i' [B R']]]. destruct (Nat.eq_dec p' p) as [->|Hpp]; [destruct (Nat.eq_dec i' i) as [->|Hii]|].
      * right. left. eapply reported_unique; eassumption.
      * left. exists p, i'. split; [unfold before in *; lia|assumption].
      * left. exists p', i'. split; [unfold before in *; lia|assumption].
Qed.

Lemma step_listed : forall p n i out, p < P -> s [p] = Some n -> n_id n = p -> length (n_adj n) = 4 -> i < 4 -> listed p i out ->
  exists out', topo_info_step s n i out = Some out' /\ listed p (S i) out'.
Proof.
  intros p n i out Hp En Ip L Hi H. unfold topo_info_step. rewrite (get_nth _ i None) by lia. cbn [bind].
  assert (Ei : adj_at s [p] i = nth i (n_adj n) None) by (unfold adj_at; rewrite En; reflexivity). rewrite <- Ei.
  destruct (adj_at s [p] i) as [b|] eqn:Eb.
  - destruct (patch_adj_some p i b Hp Hi Eb) as [q [-> Hq]]. apply patch_adj in Eb; [|assumption|assumption].
    destruct Eb as [_ [j [Hj [Ne G]]]]. destruct (patch_exists q Hq) as [nq [Enq [Iq Lq]]]. rewrite Enq. cbn [bind].
    rewrite Ip, Iq. pose proof (glued_ne p i q j Hp Hi Hj Ne G) as Hne.
    destruct (p <? q) eqn:Epq.
    + apply Nat.ltb_lt in Epq.
      rewrite (find_adj_id_spec q nq j p [0;1;2;3] Hq Enq Lq); [| | | |assumption|].
      * cbn [bind]. eexists. split; [reflexivity|]. apply listed_add; [assumption|assumption|assumption|].
        left. exists q, j. auto.
      * simpl. lia.
      * simpl. lia.
      * apply patch_adj; [assumption|assumption|]. split; [assumption|]. exists i. split; [assumption|]. split; [congruence|].
        apply glued_sym; assumption.
      * intros k Hk Ek. assert (Hk4 : k < 4) by (simpl in Hk; lia). apply patch_adj in Ek; [|assumption|assumption].
        destruct Ek as [_ [m [Hm [_ G']]]].
        apply (mo_one verts M q k m p j i Hq Hp ltac:(lia) Hk4 Hm Hj Hi G'). apply glued_sym; assumption.
    + apply Nat.ltb_ge in Epq. eexists. split; [reflexivity|]. apply listed_skip; auto.
      intros x [[q' [j' [Hq' [HqP' [Hj' [G' _]]]]]]|[N _]].
      * destruct (mo_two verts M p i q j q' j' Hp Hq HqP' Hi Hj Hj' G G') as [E|[E|E]]; injection E; intros; subst; lia.
      * apply N. exists q, j. auto.
  - eexists. split; [reflexivity|]. rewrite Ip. apply listed_add; auto. right. split; [|reflexivity].
    intros [q [j [Hq [Hj [Ne G]]]]]. assert (adj_at s [p] i = Some [q]) by (apply patch_adj; eauto 6). congruence.
Qed.

Lemma info_listed : exists out, patch_topology_info t = Some out /\ listed P 0 out.
Proof.
  unfold patch_topology_info. fold s. destruct Ov as [_ [_ EP]]. rewrite EP. fold P.
  apply (for_opt_inv (fun p out => listed p 0 out)).
  - split.
    + split; [constructor|]. intros l1 e l2 f l3 E. destruct l1; discriminate.
    + intros x. split; [intros []|]. intros [p' [i' [B _]]]. unfold before in B. lia.
  - intros p out Hp H. destruct (patch_exists p Hp) as [n [En [Ip L]]]. rewrite En. cbn [bind].
    destruct (for_opt_inv (fun i o => listed p i o) 4 (topo_info_step s n) out H) as [out' [E' [N' H']]].
    + intros i o Hi Ho. eapply step_listed; eassumption.
    + exists out'. split; [assumption|]. split; [assumption|]. intros x. rewrite H'.
      split; intros [p' [i' [B R]]]; exists p', i'; (split; [unfold before in *; lia|assumption]).
Qed.
End Over.
