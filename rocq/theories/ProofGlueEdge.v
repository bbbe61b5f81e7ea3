(** Edge degrees of freedom, their pairing, and the groups of a list of edges (C19, C20, C22). *)
From Coq Require Import List Arith Bool ZArith Lia Permutation Relations.
From Verif Require Import ModelBase ModelTree ModelGlue SpecTree SpecMesh SpecGlue ProofConf ProofGlueMat ProofGlueId.
Import ListNotations.
Local Open Scope nat_scope.

Definition edge_dof (e nx ny shift k : nat) : nat :=
  grid_dof nx shift (fst (edge_point e nx ny k)) (snd (edge_point e nx ny k)).

Lemma edge_list_spec : forall e nx ny sh, e < 4 -> (e = 1 -> 1 <= ny -> 1 <= nx) ->
  edge_list e nx ny sh = map (edge_dof e nx ny sh) (seq 0 (edge_len e nx ny)).
Proof.
  intros e nx ny sh He H1. unfold edge_dof, grid_dof.
  apply lt4 in He. destruct He as [-> | [-> | [-> | -> ] ] ]; cbn [edge_list edge_len edge_point fst snd];
    apply map_ext_in; intros k Hk; apply in_seq in Hk; [nia| |nia|nia].
  assert (1 <= nx) by (apply H1; lia). nia.
Qed.
Lemma edge_dofs_spec : forall e nx ny sh, e < 4 ->
  (e = 0 \/ e = 2 -> nx <= ny) -> (e = 1 \/ e = 3 -> ny <= nx) ->
  edge_dofs e nx ny sh = Some (map (edge_dof e nx ny sh) (seq 0 (edge_len e nx ny))).
Proof.
  intros e nx ny sh He H1 H2. unfold edge_dofs. rewrite edge_list_spec; [|assumption|intros; lia].
  replace (match e with 0 | 2 => nx <=? ny | 1 | 3 => ny <=? nx | _ => true end) with true; [reflexivity|].
  symmetry. apply lt4 in He. destruct He as [-> | [-> | [-> | -> ] ] ]; apply Nat.leb_le; auto.
Qed.

Lemma edge_dof_lt : forall e nx ny sh k k', e < 4 -> 1 <= nx -> k < k' -> edge_dof e nx ny sh k < edge_dof e nx ny sh k'.
Proof.
  intros e nx ny sh k k' He Hn Hk. unfold edge_dof, grid_dof.
  apply lt4 in He. destruct He as [-> | [-> | [-> | -> ] ] ]; cbn [edge_point fst snd]; nia.
Qed.
Lemma edge_dof_range : forall e nx ny sh k, e < 4 -> 1 <= nx -> 1 <= ny -> k < edge_len e nx ny ->
  sh <= edge_dof e nx ny sh k < sh + nx * ny.
Proof.
  intros e nx ny sh k He Hx Hy Hk. unfold edge_dof, grid_dof.
  apply lt4 in He. destruct He as [-> | [-> | [-> | -> ] ] ]; cbn [edge_point edge_len fst snd] in *; nia.
Qed.
Lemma grid_inj : forall nx sh X Y X' Y', X < nx -> X' < nx -> grid_dof nx sh X Y = grid_dof nx sh X' Y' -> X = X' /\ Y = Y'.
Proof.
  intros nx sh X Y X' Y' HX HX' E. unfold grid_dof in E.
  assert (nx * Y + X = nx * Y' + X') by lia.
  assert (Y = Y') by nia. subst. lia.
Qed.

(** the grid points of an edge in the counter-clockwise numbering *)
Definition ccw (e n k : nat) : nat := match e with 0 | 1 => k | _ => n - 1 - k end.
Lemma on_edge_point : forall e n k, e < 4 -> k < n ->
  on_edge (n - 1) e (ccw e n k) (fst (edge_point e n n k)) (snd (edge_point e n n k)).
Proof.
  intros e n k He Hk. apply lt4 in He. destruct He as [-> | [-> | [-> | -> ] ] ]; unfold on_edge; cbn [edge_point ccw fst snd]; lia.
Qed.
Lemma on_edge_fun : forall E e s X Y X' Y', e < 4 -> on_edge E e s X Y -> on_edge E e s X' Y' -> X = X' /\ Y = Y'.
Proof.
  intros E e s X Y X' Y' He. apply lt4 in He. destruct He as [-> | [-> | [-> | -> ] ] ]; unfold on_edge; lia.
Qed.
Lemma ccw_inv : forall e n s, 1 <= n -> s <= n - 1 -> exists k, k < n /\ ccw e n k = s.
Proof.
  intros e n s Hn Hs. destruct e as [|[|e]]; [exists s|exists s|exists (n - 1 - s)]; simpl; lia.
Qed.
Definition partner (i j n k : nat) : nat := if reverse_parametrized i j then n - 1 - k else k.
Lemma partner_lt : forall i j n k, k < n -> partner i j n k < n.
Proof. intros. unfold partner. destruct (reverse_parametrized i j); lia. Qed.
Lemma ccw_partner : forall i j n k, i < 4 -> j < 4 -> k < n -> ccw i n k + ccw j n (partner i j n k) = n - 1.
Proof.
  intros i j n k Hi Hj Hk. apply lt4 in Hi, Hj.
  destruct Hi as [-> | [-> | [-> | -> ] ] ], Hj as [-> | [-> | [-> | -> ] ] ]; cbn [partner reverse_parametrized edge_forward Nat.eqb orb andb negb ccw]; unfold partner; simpl; lia.
Qed.
Lemma ccw_inj : forall e n k k', k < n -> k' < n -> ccw e n k = ccw e n k' -> k = k'.
Proof. intros [|[|e]] n k k' H H'; simpl; lia. Qed.

(** ** pairs of an edge *)
Definition epair (n p q i j k : nat) : nat * nat :=
  (edge_dof i n n (p * (n * n)) k, edge_dof j n n (q * (n * n)) (partner i j n k)).
Definition epairs (n : nat) (e : interface) : list (nat * nat) :=
  match e with
  | (p, Some q, i, Some j) => map (epair n p q i j) (seq 0 n)
  | _ => []
  end.

Lemma epairs_ident : forall n edges x y, 1 <= n ->
  (forall p q i j, In (p, Some q, i, Some j) edges -> i < 4 /\ j < 4) ->
  In (x, y) (flat_map (epairs n) edges) <-> edge_ident n edges x y.
Proof.
  intros n edges x y Hn H. rewrite in_flat_map. split.
  - intros [[[[p [q|]] i] [j|]] [He Hxy]]; cbn [epairs] in Hxy; try (destruct Hxy).
    destruct (H _ _ _ _ He) as [Hi Hj].
    apply in_map_iff in Hxy. destruct Hxy as [k [Ek Hk]]. apply in_seq in Hk. unfold epair in Ek. injection Ek as <- <-.
    pose proof (partner_lt i j n k ltac:(lia)) as Hp.
    exists p, q, i, j, (ccw i n k), (ccw j n (partner i j n k)), (fst (edge_point i n n k)), (snd (edge_point i n n k)),
      (fst (edge_point j n n (partner i j n k))), (snd (edge_point j n n (partner i j n k))).
    split; [assumption|]. split; [apply on_edge_point; [assumption|lia]|]. split; [apply on_edge_point; [assumption|lia]|].
    split; [apply ccw_partner; [assumption|assumption|lia]|]. split; reflexivity.
  - intros (p & q & i & j & s & s' & X & Y & X' & Y' & He & H1 & H2 & Hs & -> & ->). destruct (H _ _ _ _ He) as [Hi Hj].
    exists (p, Some q, i, Some j). split; [assumption|]. cbn [epairs]. apply in_map_iff.
    destruct (ccw_inv i n s Hn) as [k [Hk Ek]]; [destruct H1; lia|].
    exists k. split; [|apply in_seq; lia]. unfold epair.
    pose proof (partner_lt i j n k Hk) as Hp.
    pose proof (ccw_partner i j n k Hi Hj Hk) as Hc.
    pose proof (on_edge_point i n k Hi Hk) as O1. pose proof (on_edge_point j n _ Hj Hp) as O2.
    rewrite Ek in O1. replace (ccw j n (partner i j n k)) with s' in O2 by lia.
    destruct (on_edge_fun _ _ _ _ _ _ _ Hi O1 H1) as [E1 E2]. destruct (on_edge_fun _ _ _ _ _ _ _ Hj O2 H2) as [E3 E4].
    unfold edge_dof. rewrite E1, E2, E3, E4. reflexivity.
Qed.

Lemma connected_identified : forall n edges x y, 1 <= n ->
  (forall p q i j, In (p, Some q, i, Some j) edges -> i < 4 /\ j < 4) ->
  connected (flat_map (epairs n) edges) x y <-> identified n edges x y.
Proof.
  intros n edges x y Hn H. unfold connected, identified. split; intros C; induction C.
  - apply rst_step. apply epairs_ident; assumption.
  - apply rst_refl.
  - apply rst_sym; assumption.
  - eapply rst_trans; eassumption.
  - apply rst_step. apply epairs_ident; assumption.
  - apply rst_refl.
  - apply rst_sym; assumption.
  - eapply rst_trans; eassumption.
Qed.

(** ** the loops *)
Section Loop.
Variables n P D : nat.
Hypothesis Hn : 1 <= n.
Hypothesis HD : D = P * (n * n).
Variable blk : nat -> nat.
Hypothesis blk_mono : forall x y, x <= y -> blk x <= blk y.
(** all dofs of a patch have the same block *)
Variable patch_blk : nat -> nat.
Hypothesis blk_patch : forall p d, p * (n * n) <= d < p * (n * n) + n * n -> blk d = patch_blk p.

Lemma get_map_seq : forall {A} (f : nat -> A) m k, k < m -> get (map f (seq 0 m)) k = Some (f k).
Proof.
  intros A f m k Hk. unfold get. rewrite nth_error_map, nth_error_nth' with (d := 0) by (rewrite seq_length; assumption).
  rewrite seq_nth by assumption. reflexivity.
Qed.
Lemma seq_snoc : forall m, seq 0 (S m) = seq 0 m ++ [m].
Proof. intros. rewrite seq_S. reflexivity. Qed.

Lemma cont_edge_ok : forall e ps B st, inv D blk ps B st -> edges_ok P [e] -> B <= patch_blk (fst (fst (fst e))) ->
  exists st' B', cont_edge n e st = Some st' /\ inv D blk (ps ++ epairs n e) B' st' /\ B' <= patch_blk (fst (fst (fst e))).
Proof.
  intros [[[p q] i] j] ps B st I Ok HB. destruct (Ok p q i j (or_introl eq_refl)) as [Hp [Hi [Hq Hj]]].
  cbn [fst] in HB. unfold cont_edge. rewrite edge_dofs_spec by (auto; lia). cbn [bind].
  assert (Li : forall e, e < 4 -> edge_len e n n = n). { intros e He. apply lt4 in He. destruct He as [-> | [-> | [-> | -> ] ] ]; reflexivity. }
  destruct q as [q|]; [destruct j as [j|]|].
  - destruct (Hq q eq_refl) as [Hpq HqP]. specialize (Hj j eq_refl). rewrite edge_dofs_spec by (auto; lia). cbn [bind]. rewrite !Li by assumption.
    unfold edge_pairs.
    destruct (for_opt_inv (fun k st => exists B', inv D blk (ps ++ map (epair n p q i j) (seq 0 k)) B' st /\ B' <= patch_blk p) n
      (fun k st => x <- get (map (edge_dof i n n (p * (n * n))) (seq 0 n)) k ;;
          y <- get (map (edge_dof j n n (q * (n * n))) (seq 0 n)) (if reverse_parametrized i j then n - 1 - k else k) ;;
          _ <- assert (negb (x =? y)) ;; identify (Nat.min x y) (Nat.max x y) st) st) as [st' [E [B' [I' HB']]]].
    + exists B. cbn [seq map]. rewrite app_nil_r. auto.
    + intros k st1 Hk [B1 [I1 HB1]]. pose proof (partner_lt i j n k Hk) as Hpk. fold (partner i j n k).
      rewrite !get_map_seq by assumption. cbn [bind].
      pose proof (edge_dof_range i n n (p * (n * n)) k Hi Hn Hn ltac:(rewrite Li; auto)) as R1.
      pose proof (edge_dof_range j n n (q * (n * n)) (partner i j n k) Hj Hn Hn ltac:(rewrite Li; auto)) as R2.
      set (x := edge_dof i n n (p * (n * n)) k) in *. set (y := edge_dof j n n (q * (n * n)) (partner i j n k)) in *.
      assert (Hxy : x < y) by nia.
      assert (HyD : y < D) by (rewrite HD; nia).
      rewrite (proj2 (Nat.eqb_neq x y)) by lia. cbn [negb assert bind].
      rewrite Nat.min_l, Nat.max_r by lia.
      assert (Hb : blk x = patch_blk p) by (apply blk_patch; assumption).
      destruct (identify_ok D blk blk_mono _ B1 st1 x y I1 Hxy HyD ltac:(lia)) as [st2 [E2 I2]].
      exists st2. split; [assumption|]. exists (blk x). split; [|lia]. rewrite seq_snoc, map_app, app_assoc. exact I2.
    + exists st', B'. split; [exact E|]. split; assumption.
  - exists st, B. split; [reflexivity|]. cbn [epairs]. rewrite app_nil_r. auto.
  - exists st, B. split; [reflexivity|]. cbn [epairs]. rewrite app_nil_r. auto.
Qed.

Lemma fold_groups : forall edges ps B st, inv D blk ps B st -> edges_ok P edges ->
  (forall e, In e edges -> B <= patch_blk (fst (fst (fst e)))) ->
  (forall l1 e l2 f l3, edges = l1 ++ e :: l2 ++ f :: l3 -> patch_blk (fst (fst (fst e))) <= patch_blk (fst (fst (fst f)))) ->
  exists st' B', fold_opt (cont_edge n) edges st = Some st' /\ inv D blk (ps ++ flat_map (epairs n) edges) B' st'.
Proof.
  induction edges as [|e edges IH]; intros ps B st I Ok HB Hs; cbn [fold_opt flat_map].
  - exists st, B. rewrite app_nil_r. auto.
  - destruct (cont_edge_ok e ps B st I) as [st1 [B1 [E1 [I1 HB1]]]].
    + intros p q i j [E|[]]. apply Ok. left. assumption.
    + apply HB. left. reflexivity.
    + rewrite E1. cbn [bind]. destruct (IH (ps ++ epairs n e) B1 st1 I1) as [st2 [B2 [E2 I2]]].
      * intros p q i j H. apply Ok. right. assumption.
      * intros f Hf. apply in_split in Hf. destruct Hf as [l2 [l3 E]]. specialize (Hs [] e l2 f l3). rewrite E in Hs. specialize (Hs eq_refl). lia.
      * intros l1 f l2 g l3 E. apply (Hs (e :: l1) f l2 g l3). rewrite E. reflexivity.
      * exists st2, B2. split; [assumption|]. rewrite app_assoc. assumption.
Qed.

Lemma inv_start : inv D blk [] 0 ([], repeat None D).
Proof.
  assert (L : forall d, lab (repeat None D) d = None).
  { intros d. unfold lab, get. destruct (nth_error (repeat None D) d) eqn:E; [|reflexivity].
    apply nth_error_In, repeat_spec in E. subst. reflexivity. }
  assert (G : forall a, get (@nil group) a = None) by (intros [|a]; reflexivity).
  split; cbn [fst snd].
  - apply repeat_length.
  - intros d a. rewrite L, G. split; [discriminate|]. intros [g [? _]]. discriminate.
  - intros a g. rewrite G. discriminate.
  - intros a g. rewrite G. discriminate.
  - intros x y. unfold same. rewrite L. split; [intros [->|[? _]]; [apply conn_refl|congruence]|].
    intros C. left. induction C; try congruence. destruct H.
  - intros a g d. rewrite G. discriminate.
  - intros a g. rewrite G. discriminate.
  - intros a b g h. rewrite G. discriminate.
Qed.

Lemma cont_groups_inv : forall edges, edges_ok P edges ->
  (forall l1 e l2 f l3, edges = l1 ++ e :: l2 ++ f :: l3 -> patch_blk (fst (fst (fst e))) <= patch_blk (fst (fst (fst f)))) ->
  exists st B, cont_groups n D edges = Some st /\ inv D blk (flat_map (epairs n) edges) B st.
Proof.
  intros edges Ok Hs. apply (fold_groups edges [] 0 ([], repeat None D) inv_start Ok); [intros; lia|assumption].
Qed.
End Loop.

(** ** the groups *)
Lemma concat_nodup : forall (out : list group),
  (forall a g, get out a = Some g -> NoDup (fst g)) ->
  (forall a b g h d, get out a = Some g -> get out b = Some h -> In d (fst g) -> In d (fst h) -> a = b) ->
  NoDup (concat (map fst out)).
Proof.
  induction out as [|g out IH]; intros H1 H2; cbn [map concat]; [constructor|].
  assert (App : forall p q : list nat, NoDup p -> NoDup q -> (forall x, In x p -> ~ In x q) -> NoDup (p ++ q)).
  { induction p as [|x p IHp]; intros q Np Nq Dd; simpl; [assumption|]. apply NoDup_cons_iff in Np. destruct Np as [N1 N2]. constructor.
    - rewrite in_app_iff. intros [?|?]; [contradiction|]. apply (Dd x); [left; reflexivity|assumption].
    - apply IHp; auto. intros y Hy. apply Dd. right. assumption. }
  apply App.
  - apply (H1 0). reflexivity.
  - apply IH.
    + intros a h Gh. apply (H1 (S a)). exact Gh.
    + intros a b h k d Gh Gk Ih Ik. assert (S a = S b) by (apply (H2 (S a) (S b) h k d); assumption). lia.
  - intros x Hx Hy. apply in_concat in Hy. destruct Hy as [l [Hl Hy]]. apply in_map_iff in Hl. destruct Hl as [h [<- Hh]].
    apply In_nth_error in Hh. destruct Hh as [b Hb]. assert (0 = S b) by (apply (H2 0 (S b) g h x); auto). lia.
Qed.

Lemma in_get : forall {A} (l : list A) x, In x l <-> exists a, get l a = Some x.
Proof.
  intros A l x. split; [apply In_nth_error|]. intros [a H]. eapply nth_error_In. exact H.
Qed.

Lemma inv_disjoint : forall D blk ps B st, inv D blk ps B st -> NoDup (concat (map fst (fst st))).
Proof.
  intros D blk ps B st I. apply concat_nodup.
  - apply (in_nodup D blk ps B st I).
  - intros a b g h d Ga Gb Ig Ih. assert (lab (snd st) d = Some a) by (apply (in_mem D blk ps B st I); eauto).
    assert (lab (snd st) d = Some b) by (apply (in_mem D blk ps B st I); eauto). congruence.
Qed.
Lemma inv_same : forall D blk ps B st x y, inv D blk ps B st -> (x = y \/ same_group (fst st) x y <-> connected ps x y).
Proof.
  intros D blk ps B st x y I. rewrite <- (in_conn D blk ps B st I). unfold same, same_group. split; intros [E|H]; auto; right.
  - destruct H as [g [Hg [Hx Hy]]]. apply in_get in Hg. destruct Hg as [a Ha].
    assert (lab (snd st) x = Some a) by (apply (in_mem D blk ps B st I); eauto).
    assert (lab (snd st) y = Some a) by (apply (in_mem D blk ps B st I); eauto). split; congruence.
  - destruct H as [Nx E]. destruct (lab (snd st) x) as [a|] eqn:Ex; [|congruence].
    apply (in_mem D blk ps B st I) in Ex. symmetry in E. apply (in_mem D blk ps B st I) in E.
    destruct Ex as [g [Ga Ig]], E as [h [Gh Ih]]. assert (g = h) by congruence. subst h. exists g. split; [apply in_get; eauto|auto].
Qed.
Lemma inv_lt : forall D blk ps B st g d, inv D blk ps B st -> In g (fst st) -> In d (fst g) -> d < D.
Proof.
  intros D blk ps B st g d I Hg Hd. apply in_get in Hg. destruct Hg as [a Ha]. rewrite <- (in_D D blk ps B st I).
  apply (lab_lt (snd st) d a). apply (in_mem D blk ps B st I). eauto.
Qed.

(** the clean-up *)
Lemma cleanup_ok_n : forall m (out : list group), length out <= m -> no_gap out -> cleanup out = Some (filter nonempty out).
Proof.
  induction m as [|m IH]; intros [|g r] L H; cbn [cleanup filter]; try reflexivity; [simpl in L; lia|].
  destruct (fst g) as [|d ds] eqn:E.
  - assert (F : nonempty g = false) by (unfold nonempty; rewrite E; reflexivity). rewrite F.
    destruct r as [|h r2]; cbn [no_gap] in H; [congruence|]. destruct H as [[?|Hh] H]; [congruence|].
    rewrite IH.
    + cbn [bind filter]. rewrite Hh. reflexivity.
    + simpl in L. lia.
    + cbn [no_gap] in H. destruct r2; [exact I|destruct H; assumption].
  - assert (F : nonempty g = true) by (unfold nonempty; rewrite E; reflexivity). rewrite F, IH.
    + reflexivity.
    + simpl in L. lia.
    + cbn [no_gap] in H. destruct r; [exact I|destruct H; assumption].
Qed.
Lemma cleanup_ok : forall out : list group, no_gap out -> cleanup out = Some (filter nonempty out).
Proof. intros out. apply (cleanup_ok_n (length out)). lia. Qed.

(** conversely *)
Lemma cleanup_only_n : forall m (out : list group) out', length out <= m -> cleanup out = Some out' -> (forall g, In g out' -> fst g <> []) -> no_gap out.
Proof.
  induction m as [|m IH]; intros [|g r] out' L H N; cbn [cleanup no_gap] in *; auto; [simpl in L; lia|].
  destruct (fst g) as [|d ds] eqn:E.
  - destruct r as [|h r2]; [discriminate|]. apply bind_some in H. destruct H as [r' [E1 E2]]. injection E2 as <-.
    assert (Hh : nonempty h = true). { unfold nonempty. specialize (N h (or_introl eq_refl)). destruct (fst h); [congruence|reflexivity]. }
    split; [auto|]. assert (G : no_gap r2). { apply (IH r2 r'); [simpl in L; lia|assumption|]. intros k Hk. apply N. right. assumption. }
    cbn [no_gap]. destruct r2; [assumption|]. auto.
  - apply bind_some in H. destruct H as [r' [E1 E2]]. injection E2 as <-.
    assert (F : nonempty g = true) by (unfold nonempty; rewrite E; reflexivity).
    assert (G : no_gap r). { apply (IH r r'); [simpl in L; lia|assumption|]. intros k Hk. apply N. right. assumption. }
    destruct r; [assumption|auto].
Qed.
Lemma cleanup_only : forall (out : list group) out', cleanup out = Some out' -> (forall g, In g out' -> fst g <> []) -> no_gap out.
Proof. intros out out'. apply (cleanup_only_n (length out)). lia. Qed.
