(** No group is emptied on meshes with few patches around each corner (C23). *)
From Coq Require Import List Arith Bool ZArith Lia Permutation Relations.
From Verif Require Import ModelBase ModelTree ModelGlue SpecTree SpecMesh SpecGlue SpecTame ProofTreeWF ProofTreeHist ProofConf ProofConfTree ProofConfHist ProofConfPts ProofTopoInfo ProofGlueMat ProofGlueId ProofGlueEdge ProofGlueMesh.
Import ListNotations.
Local Open Scope nat_scope.

(** ** a merge happens only if both dofs already have partners *)
Definition full (out : list group) : Prop := forall g, In g out -> fst g <> [].
Lemma full_get : forall out, full out <-> forall a g, get out a = Some g -> fst g <> [].
Proof. intros out. split; intros H; [intros a g E; apply H, in_get; eauto|intros g E; apply in_get in E; destruct E; eauto]. Qed.
Lemma identify_full : forall D blk ps B st s l st', inv D blk ps B st -> s < l -> l < D -> full (fst st) -> identify s l st = Some st' ->
  (forall u v, u <> s -> connected ps s u -> v <> l -> connected ps l v -> connected ps s l) -> full (fst st').
Proof.
  intros D blk ps B [out stored] s l st' I Hsl Hl F E Safe. cbn [fst] in *.
  assert (Hgs : forall i, i < D -> get stored i = Some (lab stored i)).
  { intros i Hi. unfold lab. rewrite (get_nth stored i None) by (rewrite <- (in_D _ _ _ _ _ I) in Hi; exact Hi). destruct (nth i stored None); reflexivity. }
  assert (Mem : forall d a, lab stored d = Some a <-> exists g, get out a = Some g /\ In d (fst g)) by exact (in_mem _ _ _ _ _ I).
  assert (Sh : forall a g, get out a = Some g -> fst g = [] \/ (2 <= length (fst g) /\ snd g = 1%Z)) by exact (in_shape _ _ _ _ _ I).
  assert (Nd : forall a g, get out a = Some g -> NoDup (fst g)) by exact (in_nodup _ _ _ _ _ I).
  assert (Cn : forall x y, (x = y \/ same (lab stored) x y) <-> connected ps x y) by exact (in_conn _ _ _ _ _ I).
  unfold identify in E. rewrite !Hgs in E by lia. cbn [bind] in E.
  assert (Push : forall a g x out', get out a = Some g -> set out a (fst g ++ [x], snd g) = Some out' -> full out').
  { intros a g x out' G E1. destruct (set_get out a (fst g ++ [x], snd g) (get_lt _ _ _ G)) as [o [E2 [_ G2]]]. assert (o = out') by congruence. subst o.
    apply full_get. intros b h Gb. rewrite G2 in Gb. destruct (b =? a); [injection Gb as <-; cbn [fst]; destruct (fst g); discriminate|]. apply F, in_get. eauto. }
  destruct (lab stored s) as [a|] eqn:Es, (lab stored l) as [b|] eqn:El.
  - destruct (a =? b) eqn:Eab; [injection E as <-; exact F|]. exfalso. apply Nat.eqb_neq in Eab.
    assert (Other : forall d c, lab stored d = Some c -> exists d', d' <> d /\ connected ps d d').
    { intros d c Ed. pose proof (proj1 (Mem d c) Ed) as [g [Gg Ig]]. destruct (Sh c g Gg) as [E0|[L _]]; [rewrite E0 in Ig; destruct Ig|].
      pose proof (Nd c g Gg) as N. destruct (fst g) as [|x [|y r]] eqn:Eg; cbn in L; [lia|lia|]. apply NoDup_cons_iff in N. destruct N as [N _].
      assert (Q : forall z, In z (fst g) -> connected ps d z). { intros z Hz. apply Cn. right. assert (lab stored z = Some c) by (apply Mem; eauto). split; congruence. } rewrite Eg in Q.
      destruct (Nat.eq_dec x d) as [->|Ne]; [exists y|exists x]; (split; [|apply Q; cbn; auto]); [|exact Ne]. intros ->. apply N. left. reflexivity. }
    destruct (Other s a Es) as [u [Hu Cu]]. destruct (Other l b El) as [v [Hv Cv]]. pose proof (Safe u v Hu Cu Hv Cv) as C. apply Cn in C. destruct C as [C|[_ C]]; [lia|congruence].
  - destruct (get out a) as [g|] eqn:G; cbn [bind] in E; [|discriminate]. destruct (set out a (fst g ++ [l], snd g)) as [o|] eqn:E1; cbn [bind] in E; [|discriminate].
    destruct (set stored l (Some a)); cbn [bind] in E; [|discriminate]. injection E as <-. apply (Push a g l o G E1).
  - destruct (get out b) as [g|] eqn:G; cbn [bind] in E; [|discriminate]. destruct (set out b (fst g ++ [s], snd g)) as [o|] eqn:E1; cbn [bind] in E; [|discriminate].
    destruct (set stored s (Some b)); cbn [bind] in E; [|discriminate]. injection E as <-. apply (Push b g s o G E1).
  - destruct (set stored s (Some (length out))) as [s1|]; cbn [bind] in E; [|discriminate]. destruct (set s1 l (Some (length out))); cbn [bind] in E; [|discriminate]. injection E as <-.
    intros g Hg. apply in_app_iff in Hg. destruct Hg as [Hg|[<-|[]]]; [apply F; exact Hg|discriminate].
Qed.

(** ** the loops as one loop over the pairs *)
Definition ident (xy : nat * nat) (st : gstate) : option gstate := identify (fst xy) (snd xy) st.
Lemma fold_app : forall {A S} (f : A -> S -> option S) l1 l2 s, fold_opt f (l1 ++ l2) s = (s' <- fold_opt f l1 s ;; fold_opt f l2 s').
Proof. intros A S f l1. induction l1 as [|a l1 IH]; intros l2 s; [reflexivity|]. cbn [app fold_opt]. destruct (f a s); cbn [bind]; [apply IH|reflexivity]. Qed.
Lemma for_fold : forall {S} n (f : nat -> S -> option S) s, for_opt n f s = fold_opt f (seq 0 n) s.
Proof.
  intros S n f s. induction n as [|n IH]; [reflexivity|]. rewrite seq_snoc, fold_app, <- IH. cbn [for_opt fold_opt].
  destruct (for_opt n f s); cbn [bind]; [|reflexivity]. destruct (f n s0); reflexivity.
Qed.
Lemma fold_map_eq : forall {A C S} (f : A -> S -> option S) (g : C -> S -> option S) (h : C -> A) l s, (forall c s, In c l -> g c s = f (h c) s) -> fold_opt g l s = fold_opt f (map h l) s.
Proof.
  intros A C S f g h l. induction l as [|c l IH]; intros s E; [reflexivity|]. cbn [map fold_opt]. rewrite (E c s (or_introl eq_refl)). destruct (f (h c) s); cbn [bind]; [|reflexivity].
  apply IH. intros d t Hd. apply E. right. exact Hd.
Qed.
Lemma epair_lt : forall n P p q i j k, 1 <= n -> p < q -> q < P -> i < 4 -> j < 4 -> k < n ->
  let xy := epair n p q i j k in p * (n * n) <= fst xy < p * (n * n) + n * n /\ q * (n * n) <= snd xy < q * (n * n) + n * n /\ fst xy < snd xy /\ snd xy < P * (n * n).
Proof.
  intros n P p q i j k Hn Hpq Hq Hi Hj Hk. cbn zeta. unfold epair. cbn [fst snd].
  assert (Li : forall e, e < 4 -> edge_len e n n = n). { intros e He. apply lt4 in He. destruct He as [-> | [-> | [-> | -> ] ] ]; reflexivity. }
  pose proof (edge_dof_range i n n (p * (n * n)) k Hi Hn Hn ltac:(rewrite Li; auto)) as R1.
  pose proof (edge_dof_range j n n (q * (n * n)) (partner i j n k) Hj Hn Hn ltac:(rewrite Li; auto using partner_lt)) as R2.
  split; [exact R1|]. split; [exact R2|]. split; nia.
Qed.
Lemma cont_edge_fold : forall n P e st, 1 <= n -> edges_ok P [e] -> cont_edge n e st = fold_opt ident (epairs n e) st.
Proof.
  intros n P [[[p q] i] j] st Hn Ok. destruct (Ok p q i j (or_introl eq_refl)) as [Hp [Hi [Hq Hj]]].
  unfold cont_edge. rewrite edge_dofs_spec by (auto; lia). cbn [bind].
  assert (Li : forall e, e < 4 -> edge_len e n n = n). { intros e He. apply lt4 in He. destruct He as [-> | [-> | [-> | -> ] ] ]; reflexivity. }
  destruct q as [q|]; [destruct j as [j|]|]; [|reflexivity|reflexivity].
  destruct (Hq q eq_refl) as [Hpq HqP]. specialize (Hj j eq_refl). rewrite edge_dofs_spec by (auto; lia). cbn [bind]. rewrite !Li by assumption.
  unfold edge_pairs. rewrite for_fold. cbn [epairs]. apply fold_map_eq. intros k s Hk. apply in_seq in Hk. fold (partner i j n k).
  rewrite !get_map_seq by (try apply partner_lt; lia). cbn [bind]. pose proof (epair_lt n P p q i j k Hn Hpq HqP Hi Hj ltac:(lia)) as [_ [_ [L _]]]. unfold epair in L. cbn [fst snd] in L.
  rewrite (proj2 (Nat.eqb_neq _ _)) by lia. cbn [negb assert bind]. rewrite Nat.min_l, Nat.max_r by lia. reflexivity.
Qed.
Lemma cont_groups_fold : forall n P D edges, 1 <= n -> edges_ok P edges -> cont_groups n D edges = fold_opt ident (flat_map (epairs n) edges) ([], repeat None D).
Proof.
  intros n P D edges Hn. unfold cont_groups. generalize (@nil group, @repeat (option nat) None D). induction edges as [|e edges IH]; intros st Ok; [reflexivity|].
  cbn [fold_opt flat_map]. rewrite fold_app, (cont_edge_fold n P e st Hn). 2:{ intros p q i j [E|[]]. apply Ok. left. exact E. }
  destruct (fold_opt ident (epairs n e) st); cbn [bind]; [|reflexivity]. apply IH. intros p q i j Hin. apply Ok. right. exact Hin.
Qed.

(** no pair joins two dofs that both have other partners *)
Definition safe (qs : list (nat * nat)) : Prop :=
  forall ps s l rest u v, qs = ps ++ (s, l) :: rest -> u <> s -> connected ps s u -> v <> l -> connected ps l v -> connected ps s l.
Lemma fold_full : forall D qs st, (forall x y, In (x, y) qs -> x < y /\ y < D) -> safe qs ->
  fold_opt ident qs ([], repeat None D) = Some st -> full (fst st) /\ inv D (fun _ => 0) qs 0 st.
Proof.
  intros D qs. induction qs as [|[s l] qs IH] using rev_ind; intros st Hlt Sf E.
  - cbn in E. injection E as <-. split; [intros g []|]. apply inv_start.
  - rewrite fold_app in E. destruct (fold_opt ident qs ([], repeat None D)) as [st0|] eqn:E0; cbn [bind] in E; [|discriminate].
    destruct (IH st0) as [F I]; [intros x y Hin; apply Hlt, in_app_iff; auto| |reflexivity|].
    { intros ps s' l' rest u v Eq. apply (Sf ps s' l' (rest ++ [(s, l)])). rewrite Eq, <- app_assoc. reflexivity. }
    cbn [fold_opt] in E. unfold ident in E. cbn [fst snd] in E. destruct (identify s l st0) as [st1|] eqn:E1; cbn [bind] in E; [|discriminate]. injection E as ->.
    destruct (Hlt s l) as [L1 L2]; [apply in_app_iff; right; left; reflexivity|]. split.
    + apply (identify_full D _ qs 0 st0 s l st I L1 L2 F E1). intros u v Hu Cu Hv Cv. apply (Sf qs s l [] u v eq_refl Hu Cu Hv Cv).
    + destruct (identify_ok D (fun _ => 0) ltac:(auto) qs 0 st0 s l I L1 L2 (le_n 0)) as [st2 [E2 I2]]. assert (st2 = st) by congruence. subst st2. exact I2.
Qed.

(** connectedness is decidable *)
Lemma conn_dec : forall ps x y, connected ps x y \/ ~ connected ps x y.
Proof.
  induction ps as [|[s l] ps IH] using rev_ind; intros x y.
  - destruct (Nat.eq_dec x y) as [->|N]; [left; apply conn_refl|right]. intros C. apply N. clear N. induction C; try congruence. destruct H.
  - rewrite conn_snoc. destruct (IH x y), (IH x s), (IH l y), (IH x l), (IH s y); tauto.
Qed.

(** ** lists of pairs sorted by a key with small classes *)
Section Safe.
Variables (key : nat -> nat) (qs : list (nat * nat)).
Hypothesis Hkey : forall x y, In (x, y) qs -> key x < key y.
Hypothesis Once : forall x y, connected qs x y -> key x = key y -> x = y.
Hypothesis Sorted : forall l1 a l2 b l3, qs = l1 ++ a :: l2 ++ b :: l3 -> key (fst a) <= key (fst b).
(** a class with four elements has no other, and its first element has two partners *)
Hypothesis Four : forall a b c d, NoDup [a; b; c; d] -> connected qs a b -> connected qs a c -> connected qs a d ->
  (forall e, connected qs a e -> In e [a; b; c; d]) /\
  ((forall e, connected qs a e -> key a <= key e) -> exists n1 n2, n1 <> n2 /\ In (a, n1) qs /\ In (a, n2) qs).

Lemma touched : forall ps z w, connected ps z w -> z <> w -> exists z', z' <> z /\ connected ps z z' /\ (In (z, z') ps \/ In (z', z) ps) \/ z' = z /\ In (z, z) ps.
Proof.
  intros ps z w C. apply clos_rst_rst1n in C. induction C as [|x y z0 [A|A] C IH]; intros Ne; [congruence| |].
  - destruct (Nat.eq_dec y x) as [->|N]; [exists x; right; auto|]. exists y. left. split; [exact N|]. split; [apply rst_step; exact A|auto].
  - destruct (Nat.eq_dec y x) as [->|N]; [exists x; right; auto|]. exists y. left. split; [exact N|]. split; [apply rst_sym, rst_step; exact A|auto].
Qed.
Lemma safe_sorted : safe qs.
Proof.
  intros ps s l rest u v Eq Hu Cu Hv Cv. pose proof Eq as Eq0.
  assert (Up : forall x y, connected ps x y -> connected qs x y) by (intros x y; apply conn_mono; rewrite Eq; intros z Hz; apply in_app_iff; auto).
  assert (Dec : forall x y, connected ps x y \/ ~ connected ps x y) by (intros x y; apply conn_dec).
  destruct (Dec s l) as [C|C]; [exact C|exfalso].
  assert (Csl : connected qs s l) by (apply rst_step; rewrite Eq; apply in_app_iff; right; left; reflexivity).
  assert (Main : forall m y z w, (forall e, connected qs m e -> key m <= key e) -> connected ps m y -> m <> y -> connected ps z w -> z <> w -> ~ connected ps m z -> connected qs m z -> False).
  { intros m y z w Min C1 N1 C2 N2 No Cq.
    assert (ND : NoDup [m; y; z; w]).
    { assert (m <> z) by (intros ->; apply No, conn_refl). assert (m <> w) by (intros ->; apply No, conn_sym, C2).
      assert (y <> z) by (intros ->; apply No, C1). assert (y <> w) by (intros ->; apply No; eapply conn_trans; [exact C1|apply conn_sym, C2]).
      repeat constructor; cbn; intuition congruence. }
    destruct (Four m y z w ND (Up _ _ C1) Cq (conn_trans _ _ _ _ Cq (Up _ _ C2))) as [All Two]. destruct (Two Min) as [n1 [n2 [Nn [I1 I2]]]].
    assert (Pz : exists a, In a ps /\ connected ps z (fst a)).
    { destruct (touched ps z w C2 N2) as [z' [[_ [Q [I|I]]]|[_ I]]]; [exists (z, z')|exists (z', z)|exists (z, z)]; (split; [exact I|]); cbn [fst]; [apply conn_refl|exact Q|apply conn_refl]. }
    destruct Pz as [a [Ia Ca]].
    assert (Ka : key m < key (fst a)).
    { assert (Cm : connected qs m (fst a)) by (eapply conn_trans; [exact Cq|apply Up, Ca]). pose proof (Min _ Cm) as L. destruct (Nat.eq_dec (key m) (key (fst a))) as [E|E]; [|lia].
      exfalso. apply No. rewrite (Once _ _ Cm E). apply conn_sym, Ca. }
    assert (Early : forall n', In (m, n') qs -> connected ps m n').
    { intros n' I. rewrite Eq in I. apply in_app_iff in I. destruct I as [I|I]; [apply rst_step, I|]. exfalso.
      apply in_split in Ia. destruct Ia as [p1 [p2 Ep]]. apply in_split in I. destruct I as [r1 [r2 Er]].
      assert (Q : qs = p1 ++ a :: (p2 ++ r1) ++ (m, n') :: r2) by (rewrite Eq, Er, Ep; rewrite <- ?app_assoc; cbn [app]; rewrite <- ?app_assoc; reflexivity).
      apply Sorted in Q. cbn [fst] in Q. lia. }
    assert (Is : forall n', In (m, n') qs -> n' = y).
    { intros n' I. pose proof (Early n' I) as Cn. pose proof (Hkey _ _ I) as K. destruct (All n' (Up _ _ Cn)) as [E|[E|[E|[E|[]]]]]; subst.
      - lia.
      - reflexivity.
      - exfalso. apply No, Cn.
      - exfalso. apply No. eapply conn_trans; [exact Cn|apply conn_sym, C2]. }
    apply Nn. rewrite (Is n1 I1), (Is n2 I2). reflexivity. }
  assert (ND : NoDup [s; u; l; v]).
  { assert (s <> l) by (intros E; apply C; rewrite E; apply conn_refl). assert (s <> v) by (intros ->; apply C, conn_sym, Cv).
    assert (u <> l) by (intros ->; apply C, Cu). assert (u <> v) by (intros ->; apply C; eapply conn_trans; [exact Cu|apply conn_sym, Cv]).
    repeat constructor; cbn; intuition congruence. }
  pose proof (Up _ _ Cu) as Cu'. pose proof (conn_trans _ _ _ _ Csl (Up _ _ Cv)) as Cv'.
  destruct (Four s u l v ND Cu' Csl Cv') as [All _].
  assert (MinE : exists m, In m [s; u; l; v] /\ forall e, In e [s; u; l; v] -> key m <= key e).
  { clear. assert (G : forall r : list nat, r <> [] -> exists m, In m r /\ forall e, In e r -> key m <= key e).
    { induction r as [|a r IH]; [congruence|]. intros _. destruct r as [|b r]; [exists a; split; [left; reflexivity|intros e [<-|[]]; lia]|].
      destruct (IH ltac:(discriminate)) as [m [Im Lm]]. destruct (le_lt_dec (key a) (key m)) as [L|L].
      - exists a. split; [left; reflexivity|]. intros e [<-|He]; [lia|]. specialize (Lm e He). lia.
      - exists m. split; [right; exact Im|]. intros e [<-|He]; [lia|]. apply Lm, He. }
    apply G. discriminate. }
  destruct MinE as [m [Im Lm]].
  assert (Cm : connected qs s m). { destruct Im as [<-|[<-|[<-|[<-|[]]]]]; [apply conn_refl|exact Cu'|exact Csl|exact Cv']. }
  assert (Min : forall e, connected qs m e -> key m <= key e) by (intros e Ce; apply Lm, All; eapply conn_trans; [exact Cm|exact Ce]).
  assert (Ns : ~ connected ps l s) by (intros Q; apply C, conn_sym, Q).
  destruct Im as [E|[E|[E|[E|[]]]]]; subst m.
  - apply (Main s u l v Min Cu ltac:(congruence) Cv ltac:(congruence) C Csl).
  - apply (Main u s l v Min (conn_sym _ _ _ Cu) Hu Cv ltac:(congruence)).
    + intros Q. apply C. eapply conn_trans; [exact Cu|exact Q].
    + eapply conn_trans; [apply conn_sym, Cu'|exact Csl].
  - apply (Main l v s u Min Cv ltac:(congruence) Cu ltac:(congruence) Ns (conn_sym _ _ _ Csl)).
  - apply (Main v l s u Min (conn_sym _ _ _ Cv) Hv Cu ltac:(congruence)).
    + intros Q. apply Ns. eapply conn_trans; [exact Cv|exact Q].
    + apply conn_sym. exact Cv'.
Qed.
End Safe.

(** ** meshes *)
Section Mesh.
Variable verts : list (list nat).
Hypothesis M : mesh_ok verts.
Hypothesis O : oriented verts.
Hypothesis T : tame verts.
Notation P := (length verts).
Variable n : nat.
Hypothesis Hn : 2 <= n.
Variable edges : list interface.
Hypothesis Hedges : forall p q i j, In (p, Some q, i, Some j) edges <-> p < q /\ q < P /\ i < 4 /\ j < 4 /\ opposed verts p i q j.
Notation dp := (dpatch n).
Notation X := (dX n).
Notation Y := (dY n).
Notation E := (n - 1).
Notation idn := (identified n edges).

Lemma place : forall x y, idn x y -> same_place verts n x y.
Proof. intros x y. apply (identified_same_place verts M n Hn edges). intros p q i j Hin. apply Hedges. exact Hin. Qed.
Lemma once : forall x y, idn x y -> dp x = dp y -> x = y.
Proof. intros x y. apply (identified_patch verts M n Hn edges). intros p q i j Hin. apply Hedges. exact Hin. Qed.
(** an identified dof of another patch is at the same corner or on the other side of an edge *)
Lemma partner_place : forall x y, idn x y -> dp x <> dp y -> dp x < P /\ dp y < P /\
  ((exists k m, k < 4 /\ m < 4 /\ corner_pos E k (X x) (Y x) /\ corner_pos E m (X y) (Y y) /\ pvert verts (dp x) k = pvert verts (dp y) m) \/
   (exists i j, i < 4 /\ j < 4 /\ on_glue verts E (dp x) (X x) (Y x) (dp y) (X y) (Y y) i j)).
Proof.
  intros x y H N. destruct (place x y H) as [->|[L1 [L2 S]]]; [congruence|]. split; [exact L1|]. split; [exact L2|].
  destruct S as [[S _]|[S|[i [j [s [s' [Hi [Hj [O1 [O2 G]]]]]]]]]]; [congruence|left; exact S|right]. exists i, j. split; [exact Hi|]. split; [exact Hj|]. exists s, s'. auto.
Qed.
(** three dofs are identified only at a corner *)
Lemma at_corner : forall x y z, idn x y -> idn x z -> dp x <> dp y -> dp x <> dp z -> dp y <> dp z -> exists k, k < 4 /\ corner_pos E k (X x) (Y x).
Proof.
  intros x y z H1 H2 N1 N2 N3. destruct (partner_place x y H1 N1) as [L1 [L2 [[k [m [Hk [_ [C _]]]]]|[i [j [Hi [Hj G1]]]]]]]; [eauto|].
  destruct (partner_place x z H2 N2) as [_ [L3 [[k [m [Hk [_ [C _]]]]]|[i' [j' [Hi' [Hj' G2]]]]]]]; [eauto|].
  destruct (Nat.eq_dec i i') as [<-|Ne].
  - destruct (mo_two verts M (dp x) i (dp y) j (dp z) j' L1 L2 L3 Hi Hj Hj' (on_glue_glued _ _ _ _ _ _ _ _ _ _ G1) (on_glue_glued _ _ _ _ _ _ _ _ _ _ G2)) as [F|[F|F]]; injection F; congruence.
  - destruct G1 as (s & s' & O1 & _). destruct G2 as (t & t' & O2 & _). apply (two_edges_corner verts E i i' s t (X x) (Y x)); auto. lia.
Qed.
Lemma corner_vertex : forall x y k, k < 4 -> corner_pos E k (X x) (Y x) -> idn x y -> dp x < P -> around verts (pvert verts (dp x) k) (dp y).
Proof.
  intros x y k Hk C H Lx. destruct (Nat.eq_dec (dp x) (dp y)) as [Eq|N].
  - rewrite <- Eq. split; [exact Lx|]. unfold pvert. apply nth_In. rewrite (mo_len verts M); [exact Hk|]. apply nth_In. exact Lx.
  - assert (In4 : forall q m, q < P -> m < 4 -> In (pvert verts q m) (nth q verts [])) by (intros q m Hq Hm; unfold pvert; apply nth_In; rewrite (mo_len verts M); [exact Hm|apply nth_In; exact Hq]).
    destruct (partner_place x y H N) as [L1 [L2 [[k' [m [Hk' [Hm [C' [_ V]]]]]]|[i [j [Hi [Hj G]]]]]]].
    + assert (k' = k) by (eapply (corner_unique verts E); try eassumption; lia). subst k'. split; [exact L2|]. rewrite V. apply In4; assumption.
    + destruct (glue_to_corner verts E (dp x) (dp y) k (X x) (Y x) (X y) (Y y) i j ltac:(lia) Hk Hi Hj C G) as [m [Hm [_ V]]]. split; [exact L2|]. rewrite V. apply In4; assumption.
Qed.

(** the dof across a shared edge *)
Lemma across : forall x i s, i < 4 -> on_edge E i s (X x) (Y x) -> dp x < P -> (exists q j, q < P /\ j < 4 /\ (q, j) <> (dp x, i) /\ glued verts (dp x) i q j) ->
  exists y j, j < 4 /\ dp y < P /\ dp y <> dp x /\ idn x y /\ opposed verts (dp x) i (dp y) j /\ (dp x < dp y -> edge_ident n edges x y).
Proof.
  intros x i s Hi O1 Lx [q [j [Hq [Hj [Ne G]]]]]. assert (Op : opposed verts (dp x) i q j) by (apply O; auto).
  assert (Nq : q <> dp x) by (intros ->; apply (opposed_self verts M (dp x) i j Lx Hi Hj Op)).
  assert (Ex : exists X' Y', on_edge E j (E - s) X' Y').
  { unfold on_edge. apply lt4 in Hj. destruct Hj as [-> | [-> | [-> | -> ] ] ]; [exists (E - s), 0|exists E, (E - s)|exists s, E|exists 0, s]; destruct O1; lia. }
  destruct Ex as [X' [Y' O2]]. destruct (on_edge_lt verts n Hn j _ _ _ Hj O2) as [LX LY]. destruct (coords verts n Hn q X' Y' LX LY) as [E1 [E2 E3]]. cbv zeta in *.
  assert (Hs : s <= E) by apply O1.
  set (y := grid_dof n (q * (n * n)) X' Y') in *. exists y, j. rewrite E1. split; [exact Hj|]. split; [exact Hq|]. split; [exact Nq|].
  assert (Id : dp x < q -> edge_ident n edges x y).
  { intros L. exists (dp x), q, i, j, s, (E - s), (X x), (Y x), X', Y'. split; [apply Hedges; auto|]. split; [exact O1|]. split; [exact O2|]. split; [lia|]. split; [apply (dof_of_coords verts n Hn)|reflexivity]. }
  split; [|split; [exact Op|exact Id]]. destruct (lt_eq_lt_dec (dp x) q) as [[L|L]|L]; [apply rst_step, Id, L|congruence|].
  apply rst_sym, rst_step. exists q, (dp x), j, i, (E - s), s, X', Y', (X x), (Y x). split.
  { apply Hedges. repeat (split; [assumption|]). destruct Op as [A B]. split; congruence. }
  split; [exact O2|]. split; [exact O1|]. split; [lia|]. split; [reflexivity|apply (dof_of_coords verts n Hn)].
Qed.
Lemma four_class : forall a b c d, NoDup [a; b; c; d] -> idn a b -> idn a c -> idn a d ->
  (forall e, idn a e -> In e [a; b; c; d]) /\ ((forall e, idn a e -> dp a <= dp e) -> exists n1 n2, n1 <> n2 /\ edge_ident n edges a n1 /\ edge_ident n edges a n2).
Proof.
  intros a b c d ND Hb Hc Hd.
  assert (NDp : NoDup [dp a; dp b; dp c; dp d]).
  { assert (Inj : forall x y, idn a x -> idn a y -> dp x = dp y -> x = y) by (intros x y Hx Hy; apply once; eapply rst_trans; [apply rst_sym, Hx|exact Hy]).
    pose proof (rst_refl _ (edge_ident n edges) a) as Ha.
    apply NoDup_cons_iff in ND. destruct ND as [N1 ND]. apply NoDup_cons_iff in ND. destruct ND as [N2 ND]. apply NoDup_cons_iff in ND. destruct ND as [N3 _]. cbn in N1, N2, N3.
    repeat constructor; cbn; intros F; repeat (destruct F as [F|F]; [apply Inj in F; try assumption; subst; tauto|]); exact F. }
  pose proof NDp as NDq. apply NoDup_cons_iff in NDq. destruct NDq as [N1 NDq]. apply NoDup_cons_iff in NDq. destruct NDq as [N2 NDq]. cbn in N1, N2.
  destruct (at_corner a b c Hb Hc ltac:(intuition congruence) ltac:(intuition congruence) ltac:(intuition congruence)) as [k [Hk C]].
  assert (La : dp a < P) by (apply (partner_place a b Hb); intuition congruence).
  set (V := pvert verts (dp a) k).
  assert (Ar : forall e, idn a e -> around verts V (dp e)) by (intros e He; apply (corner_vertex a e k Hk C He La)).
  split.
  - intros e He. destruct (in_dec Nat.eq_dec (dp e) [dp a; dp b; dp c; dp d]) as [I|I].
    + assert (Inj : forall y, idn a y -> dp y = dp e -> y = e) by (intros y Hy; apply once; eapply rst_trans; [apply rst_sym, Hy|exact He]).
      pose proof (rst_refl _ (edge_ident n edges) a) as Ha. cbn in I |- *. destruct I as [I|[I|[I|[I|[]]]]]; apply Inj in I; auto.
    + exfalso. destruct (T V (dp e :: [dp a; dp b; dp c; dp d])) as [L _]; [constructor; assumption| |cbn in L; lia].
      pose proof (rst_refl _ (edge_ident n edges) a) as Ha. intros p [<-|[<-|[<-|[<-|[<-|[]]]]]]; apply Ar; assumption.
  - intros Min. destruct (T V [dp a; dp b; dp c; dp d] NDp) as [_ Sh].
    { pose proof (rst_refl _ (edge_ident n edges) a) as Ha. intros p [<-|[<-|[<-|[<-|[]]]]]; apply Ar; assumption. }
    specialize (Sh eq_refl (dp a)).
    assert (K : exists i0 s0 i1 s1, i0 < 4 /\ i1 < 4 /\ i0 <> i1 /\ on_edge E i0 s0 (X a) (Y a) /\ on_edge E i1 s1 (X a) (Y a) /\ pvert verts (dp a) i0 = V /\ pvert verts (dp a) ((i1 + 1) mod 4) = V).
    { unfold V. destruct C as [C1 C2]. apply lt4 in Hk. destruct Hk as [-> | [-> | [-> | -> ] ] ]; cbn [quad_x quad_y] in C1, C2;
        [exists 0, 0, 3, E|exists 1, 0, 0, E|exists 2, 0, 1, E|exists 3, 0, 2, E]; unfold on_edge; repeat (split; [lia|]); split; reflexivity. }
    destruct K as [i0 [s0 [i1 [s1 [Hi0 [Hi1 [Ni [O0 [O1 [V0 V1]]]]]]]]]].
    assert (Aa : around verts V (dp a)) by (apply Ar, rst_refl).
    destruct (across a i0 s0 Hi0 O0 La (Sh i0 Aa Hi0 (or_introl V0))) as [y0 [j0 [Hj0 [Ly0 [Ny0 [Id0 [Op0 Ed0]]]]]]].
    destruct (across a i1 s1 Hi1 O1 La (Sh i1 Aa Hi1 (or_intror V1))) as [y1 [j1 [Hj1 [Ly1 [Ny1 [Id1 [Op1 Ed1]]]]]]].
    exists y0, y1. split; [|split; [apply Ed0|apply Ed1]].
    + intros ->. apply Ni. apply (mo_one verts M (dp a) i0 j0 (dp y1) i1 j1); auto; right; assumption.
    + specialize (Min y0 Id0). lia.
    + specialize (Min y1 Id1). lia.
Qed.

Lemma groups_full : forall D st, D = P * (n * n) -> edges_ok P edges -> edges_sorted edges -> cont_groups n D edges = Some st -> full (fst st).
Proof.
  intros D st HD Ok Sd Eg. rewrite (cont_groups_fold n P D edges ltac:(lia) Ok) in Eg.
  assert (Hij : forall p q i j, In (p, Some q, i, Some j) edges -> i < 4 /\ j < 4) by (intros p q i j Hin; apply Hedges in Hin; tauto).
  set (qs := flat_map (epairs n) edges) in *.
  assert (Pr : forall e xy, In e edges -> In xy (epairs n e) -> dp (fst xy) = fst (fst (fst e)) /\ dp (fst xy) < dp (snd xy) /\ fst xy < snd xy /\ snd xy < D).
  { intros [[[p q] i] j] xy He Hxy. destruct q as [q|]; [destruct j as [j|]|]; [|destruct Hxy|destruct Hxy]. cbn [epairs] in Hxy. apply in_map_iff in Hxy. destruct Hxy as [k [<- Hk]]. apply in_seq in Hk.
    pose proof (proj1 (Hedges p q i j) He) as [Hpq [Hq [Hi [Hj _]]]]. destruct (epair_lt n P p q i j k ltac:(lia) Hpq Hq Hi Hj ltac:(lia)) as [R1 [R2 [R3 R4]]]. cbn [fst].
    assert (Q : forall z m, z * (n * n) <= m < z * (n * n) + n * n -> dp m = z) by (intros z m Hz; unfold dpatch; symmetry; apply (Nat.div_unique _ _ z (m - z * (n * n))); lia).
    rewrite (Q p _ R1), (Q q _ R2). subst D. auto. }
  refine (proj1 (fold_full D qs st _ _ Eg)).
  - intros x y Hin. apply in_flat_map in Hin. destruct Hin as [e [He Hxy]]. destruct (Pr e _ He Hxy) as [_ [_ [A B]]]. auto.
  - assert (CI : forall x y, connected qs x y <-> idn x y) by (intros x y; apply connected_identified; [lia|exact Hij]).
    assert (PI : forall x y, In (x, y) qs <-> edge_ident n edges x y) by (intros x y; apply epairs_ident; [lia|exact Hij]).
    apply (safe_sorted dp).
    + intros x y Hin. apply in_flat_map in Hin. destruct Hin as [e [He Hxy]]. apply (Pr e _ He Hxy).
    + intros x y C. apply once, CI, C.
    + assert (SL : forall es : list interface, incl es edges -> edges_sorted es -> forall l1 a l2 b l3, flat_map (epairs n) es = l1 ++ a :: l2 ++ b :: l3 -> dp (fst a) <= dp (fst b)).
      { clear Eg Sd Ok. induction es as [|e es IH]; intros Inc Sd l1 a l2 b l3 Eq; [destruct l1; discriminate|]. cbn [flat_map] in Eq.
        assert (Later : forall y, In y (flat_map (epairs n) es) -> forall x, In x (epairs n e) -> dp (fst x) <= dp (fst y)).
        { intros y Hy x Hx. apply in_flat_map in Hy. destruct Hy as [f [Hf Hy]]. rewrite (proj1 (Pr e x (Inc e (or_introl eq_refl)) Hx)), (proj1 (Pr f y (Inc f (or_intror Hf)) Hy)).
          apply in_split in Hf. destruct Hf as [r1 [r2 Ef]]. apply (Sd [] e r1 f r2). rewrite Ef. reflexivity. }
        assert (Same : forall x y, In x (epairs n e) -> In y (epairs n e) -> dp (fst x) <= dp (fst y)).
        { intros x y Hx Hy. rewrite (proj1 (Pr e x (Inc e (or_introl eq_refl)) Hx)), (proj1 (Pr e y (Inc e (or_introl eq_refl)) Hy)). lia. }
        assert (Rest : forall m1, flat_map (epairs n) es = m1 ++ a :: l2 ++ b :: l3 -> dp (fst a) <= dp (fst b)).
        { intros m1. apply IH; [intros z Hz; apply Inc; right; exact Hz|]. intros r1 f r2 g r3 Er. apply (Sd (e :: r1) f r2 g r3). rewrite Er. reflexivity. }
        apply app_eq_app in Eq. destruct Eq as [m [[E1 E2]|[E1 E2]]]; [|apply (Rest m); symmetry; exact (eq_sym E2) || exact E2].
        destruct m as [|a' m]; [apply (Rest []); symmetry; exact E2|]. cbn [app] in E2. injection E2 as <- E2.
        assert (Ia : In a (epairs n e)) by (rewrite E1; apply in_app_iff; right; left; reflexivity).
        assert (Ib : In b (m ++ flat_map (epairs n) es)) by (rewrite <- E2; apply in_app_iff; right; left; reflexivity).
        apply in_app_iff in Ib. destruct Ib as [Ib|Ib]; [apply Same; [exact Ia|rewrite E1; apply in_app_iff; right; right; exact Ib]|apply Later; assumption]. }
      apply (SL edges (incl_refl _) Sd).
    + intros a b c d ND Cb Cc Cd. apply CI in Cb, Cc, Cd. destruct (four_class a b c d ND Cb Cc Cd) as [All Two]. split.
      * intros e Ce. apply All, CI, Ce.
      * intros Min. destruct Two as [n1 [n2 [N [I1 I2]]]]; [intros e He; apply Min, CI, He|]. exists n1, n2. split; [exact N|]. split; apply PI; assumption.
Qed.
End Mesh.
