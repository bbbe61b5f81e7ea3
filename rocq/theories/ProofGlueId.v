(** Identification groups of the continuous case (C19, C20, C22, C23). *)
From Coq Require Import List Arith Bool ZArith Lia Permutation Relations.
From Verif Require Import ModelBase ModelTree ModelGlue SpecTree SpecMesh SpecGlue ProofConf ProofGlueMat.
Import ListNotations.
Local Open Scope nat_scope.

(** ** generated equivalence *)
Lemma conn_refl : forall ps x, connected ps x x.
Proof. intros. apply rst_refl. Qed.
Lemma conn_sym : forall ps x y, connected ps x y -> connected ps y x.
Proof. intros. apply rst_sym. assumption. Qed.
Lemma conn_trans : forall ps x y z, connected ps x y -> connected ps y z -> connected ps x z.
Proof. intros. eapply rst_trans; eassumption. Qed.
Lemma conn_mono : forall ps qs x y, incl ps qs -> connected ps x y -> connected qs x y.
Proof.
  intros ps qs x y I H. induction H; [apply rst_step; auto|apply rst_refl|apply rst_sym; assumption|eapply rst_trans; eassumption].
Qed.
Lemma conn_snoc : forall ps u v x y, connected (ps ++ [(u, v)]) x y <->
  connected ps x y \/ (connected ps x u /\ connected ps v y) \/ (connected ps x v /\ connected ps u y).
Proof.
  intros ps u v x y. split.
  - intros H. induction H as [x y H|x|x y H IH|x y z H1 IH1 H2 IH2].
    + apply in_app_iff in H. destruct H as [H|[H|[]]]; [left; apply rst_step; assumption|]. injection H as <- <-.
      right; left. split; apply conn_refl.
    + left. apply conn_refl.
    + destruct IH as [H1|[[H1 H2]|[H1 H2]]]; [left; apply conn_sym; assumption|right; right|right; left]; split; apply conn_sym; assumption.
    + destruct IH1 as [A|[[A A']|[A A']]], IH2 as [B|[[B B']|[B B']]].
      * left. eapply conn_trans; eassumption.
      * right; left. split; [eapply conn_trans; eassumption|assumption].
      * right; right. split; [eapply conn_trans; eassumption|assumption].
      * right; left. split; [assumption|eapply conn_trans; eassumption].
      * right; left. split; assumption.
      * left. eapply conn_trans; eassumption.
      * right; right. split; [assumption|eapply conn_trans; eassumption].
      * left. eapply conn_trans; eassumption.
      * right; right. split; assumption.
  - assert (M : forall a b, connected ps a b -> connected (ps ++ [(u, v)]) a b).
    { intros a b. apply conn_mono. intros e He. apply in_app_iff. auto. }
    assert (E : connected (ps ++ [(u, v)]) u v) by (apply rst_step, in_app_iff; right; left; reflexivity).
    intros [H|[[H1 H2]|[H1 H2]]]; [auto| |].
    + eapply conn_trans; [apply M; eassumption|]. eapply conn_trans; [exact E|auto].
    + eapply conn_trans; [apply M; eassumption|]. eapply conn_trans; [apply conn_sym; exact E|auto].
Qed.

(** ** classes given by a labelling *)
Definition same (c : nat -> option nat) (x y : nat) : Prop := c x <> None /\ c x = c y.
Definition joined (c : nat -> option nat) (s l x y : nat) : Prop :=
  (x = y \/ same c x y) \/ ((x = s \/ same c x s) /\ (l = y \/ same c l y)) \/ ((x = l \/ same c x l) /\ (s = y \/ same c s y)).

Lemma label_add : forall c c' s l a, s <> l -> c s = Some a -> c l = None ->
  (forall d, c' d = if d =? l then Some a else c d) -> forall x y, (x = y \/ same c' x y) <-> joined c s l x y.
Proof.
  intros c c' s l a Hne Hs Hl H x y. unfold joined, same. rewrite !H, Hs, Hl.
  destruct (x =? l) eqn:Ex, (y =? l) eqn:Ey; rewrite ?Nat.eqb_eq, ?Nat.eqb_neq in *; subst; rewrite ?Hl.
  - tauto.
  - split; [intros [?|[_ E]]; [congruence|]|].
    + right; right. split; [auto|]. right. split; congruence.
    + intros [[?|[? _]]|[[[?|[? _]] _]|[_ [<-|[_ E]]]]]; try congruence.
      * right. split; congruence.
      * right. split; congruence.
  - split; [intros [?|[N E]]; [congruence|]|].
    + right; left. split; [right; split; congruence|auto].
    + intros [[?|[? E]]|[[[->|[? E]] _]|[[?|[? E]] _]]]; try congruence; right; split; congruence.
  - split; [auto|]. intros [?|[[_ [?|[? _]]]|[[?|[? E]] _]]]; try congruence; auto.
Qed.

Lemma joined_sym_args : forall c s l x y, joined c s l x y <-> joined c l s x y.
Proof. intros. unfold joined. tauto. Qed.

Lemma label_same : forall c s l, same c s l -> forall x y, (x = y \/ same c x y) <-> joined c s l x y.
Proof.
  intros c s l [N E] x y. unfold joined, same. split; [auto|].
  intros [?|[[[->|[N1 E1]] [<-|[N2 E2]]]|[[->|[N1 E1]] [<-|[N2 E2]]]]]; auto; right; split; congruence.
Qed.

Lemma label_merge : forall c c' s l a b, c s = Some a -> c l = Some b -> a <> b ->
  (forall d, c' d = if match c d with Some k => k =? Nat.max a b | None => false end then Some (Nat.min a b) else c d) ->
  forall x y, (x = y \/ same c' x y) <-> joined c s l x y.
Proof.
  intros c c' s l a b Hs Hl Hne H x y. unfold joined, same. rewrite !H, Hs, Hl.
  destruct (c x) as [u|] eqn:Ex, (c y) as [v|] eqn:Ey.
  - destruct (u =? Nat.max a b) eqn:Eu, (v =? Nat.max a b) eqn:Ev; rewrite ?Nat.eqb_eq, ?Nat.eqb_neq in *.
    + subst u v. split; [intros _; left; right; split; congruence|intros _; right; split; congruence].
    + split.
      * intros [?|[_ E]]; [congruence|]. injection E as E.
        destruct (Nat.max_spec a b) as [[? M]|[? M]]; [right; right|right; left]; rewrite M in *.
        -- split; right; split; try congruence. f_equal. lia.
        -- split; right; split; try congruence. f_equal. lia.
      * intros [[?|[_ E]]|[[A B]|[A B]]]; [congruence|congruence| |].
        -- right. split; [discriminate|]. f_equal. assert (u = a) by (destruct A as [->|[_ E]]; congruence).
           assert (v = b) by (destruct B as [<-|[_ E]]; congruence). lia.
        -- right. split; [discriminate|]. f_equal. assert (u = b) by (destruct A as [->|[_ E]]; congruence).
           assert (v = a) by (destruct B as [<-|[_ E]]; congruence). lia.
    + split.
      * intros [?|[_ E]]; [congruence|]. injection E as E.
        destruct (Nat.max_spec a b) as [[? M]|[? M]]; [right; left|right; right]; rewrite M in *.
        -- split; right; split; try congruence. f_equal. lia.
        -- split; right; split; try congruence. f_equal. lia.
      * intros [[?|[_ E]]|[[A B]|[A B]]]; [congruence|congruence| |].
        -- right. split; [discriminate|]. f_equal. assert (u = a) by (destruct A as [->|[_ E]]; congruence).
           assert (v = b) by (destruct B as [<-|[_ E]]; congruence). lia.
        -- right. split; [discriminate|]. f_equal. assert (u = b) by (destruct A as [->|[_ E]]; congruence).
           assert (v = a) by (destruct B as [<-|[_ E]]; congruence). lia.
    + split; [intros [?|[_ E]]; [auto|left; right; split; congruence]|].
      intros [[?|[_ E]]|[[A B]|[A B]]]; [auto|right; split; congruence| |]; exfalso.
      * assert (u = a) by (destruct A as [->|[_ E]]; congruence). assert (v = b) by (destruct B as [<-|[_ E]]; congruence). lia.
      * assert (u = b) by (destruct A as [->|[_ E]]; congruence). assert (v = a) by (destruct B as [<-|[_ E]]; congruence). lia.
  - split; [intros [?|[_ E]]; [congruence|destruct (u =? Nat.max a b); discriminate]|].
    intros [[?|[_ E]]|[[A [<-|[_ B]]]|[A [<-|[_ B]]]]]; congruence.
  - split; [intros [?|[E _]]; [congruence|congruence]|].
    intros [[?|[E _]]|[[[->|[E _]] _]|[[->|[E _]] _]]]; congruence.
  - split; [intros [?|[E _]]; [auto|congruence]|].
    intros [[?|[E _]]|[[[->|[E _]] _]|[[->|[E _]] _]]]; auto; congruence.
Qed.

Lemma label_new : forall c c' s l a, s <> l -> c s = None -> c l = None -> (forall d, c d <> Some a) ->
  (forall d, c' d = if d =? l then Some a else if d =? s then Some a else c d) ->
  forall x y, (x = y \/ same c' x y) <-> joined c s l x y.
Proof.
  intros c c' s l a Hne Hs Hl Hf H x y. unfold joined, same. rewrite !H, Hs, Hl.
  assert (X : forall d, c d <> Some a) by assumption. pose proof (X x) as Xx. pose proof (X y) as Xy.
  destruct (x =? l) eqn:Ex, (y =? l) eqn:Ey; rewrite ?Nat.eqb_eq, ?Nat.eqb_neq in *; subst; rewrite ?Hl.
  - tauto.
  - destruct (y =? s) eqn:Ey'; rewrite ?Nat.eqb_eq, ?Nat.eqb_neq in *; subst; rewrite ?Hs.
    + split; auto. intros _. right. split; congruence.
    + split; [intros [?|[_ E]]; congruence|]. intros [[?|[E _]]|[[[?|[E _]] _]|[_ [?|[E _]]]]]; congruence.
  - destruct (x =? s) eqn:Ex'; rewrite ?Nat.eqb_eq, ?Nat.eqb_neq in *; subst; rewrite ?Hs.
    + split; auto. intros _. right. split; congruence.
    + split; [intros [?|[_ E]]; congruence|]. intros [[?|[E E']]|[[[?|[E E']] _]|[[?|[E E']] _]]]; congruence.
  - destruct (x =? s) eqn:Ex', (y =? s) eqn:Ey'; rewrite ?Nat.eqb_eq, ?Nat.eqb_neq in *; subst; rewrite ?Hs.
    + tauto.
    + split; [intros [?|[_ E]]; congruence|]. intros [[?|[E _]]|[[_ [?|[E _]]]|[[?|[E _]] _]]]; congruence.
    + split; [intros [?|[_ E]]; congruence|]. intros [[?|[E E']]|[[_ [?|[E _]]]|[[?|[E E']] _]]]; congruence.
    + split; [auto|]. intros [?|[[_ [?|[E _]]]|[_ [?|[E _]]]]]; try congruence; auto.
Qed.

(** ** the state *)
Definition lab (stored : list (option nat)) (d : nat) : option nat :=
  match get stored d with Some (Some a) => Some a | _ => None end.
Definition firstdof (g : group) : nat := hd 0 (fst g).

Section Id.
Variable D : nat.
Variable blk : nat -> nat.
Hypothesis blk_mono : forall x y, x <= y -> blk x <= blk y.

Record inv (ps : list (nat * nat)) (B : nat) (st : gstate) : Prop := {
  in_D : length (snd st) = D;
  in_mem : forall d a, lab (snd st) d = Some a <-> exists g, get (fst st) a = Some g /\ In d (fst g);
  in_nodup : forall a g, get (fst st) a = Some g -> NoDup (fst g);
  in_shape : forall a g, get (fst st) a = Some g -> fst g = [] \/ (2 <= length (fst g) /\ snd g = 1%Z);
  in_conn : forall x y, (x = y \/ same (lab (snd st)) x y) <-> connected ps x y;
  in_first : forall a g d, get (fst st) a = Some g -> In d (fst g) -> blk (firstdof g) <= blk d;
  in_bound : forall a g, get (fst st) a = Some g -> fst g <> [] -> blk (firstdof g) <= B;
  in_order : forall a b g h, get (fst st) a = Some g -> get (fst st) b = Some h -> fst g <> [] -> fst h <> [] -> a < b ->
     blk (firstdof g) <= blk (firstdof h) }.

Lemma lab_lt : forall stored d a, lab stored d = Some a -> d < length stored.
Proof.
  intros stored d a H. unfold lab, get in H. apply nth_error_Some. destruct (nth_error stored d); [discriminate|discriminate].
Qed.
Lemma lab_set : forall stored i x stored', set stored i (Some x) = Some stored' -> i < length stored ->
  length stored' = length stored /\ forall d, lab stored' d = if d =? i then Some x else lab stored d.
Proof.
  intros stored i x stored' E Hi. destruct (set_get stored i (Some x) Hi) as [v [E' [L G]]]. rewrite E in E'. injection E' as <-.
  split; [assumption|]. intros d. unfold lab. rewrite G. destruct (d =? i); reflexivity.
Qed.
Lemma get_app_last : forall {A} (l : list A) x a, get (l ++ [x]) a = if a =? length l then Some x else get l a.
Proof.
  intros A l x a. unfold get. destruct (lt_eq_lt_dec a (length l)) as [[H|H]|H].
  - rewrite nth_error_app1 by assumption. destruct (a =? length l) eqn:E; [apply Nat.eqb_eq in E; lia|reflexivity].
  - subst a. rewrite nth_error_app2, Nat.sub_diag, Nat.eqb_refl by lia. reflexivity.
  - destruct (a =? length l) eqn:E; [apply Nat.eqb_eq in E; lia|].
    rewrite (proj2 (nth_error_None l a)) by lia. apply nth_error_None. rewrite app_length. simpl. lia.
Qed.
Lemma get_lt : forall {A} (l : list A) a x, get l a = Some x -> a < length l.
Proof. intros A l a x H. apply nth_error_Some. unfold get in H. congruence. Qed.

Lemma move_ok : forall ds a (g : group) (out : list group) (stored : list (option nat)), get out a = Some g -> NoDup (fst g ++ ds) -> (forall d, In d ds -> d < length stored) ->
  exists (out' : list group) (stored' : list (option nat)), move_dofs a ds (out, stored) = Some (out', stored') /\ length stored' = length stored /\ length out' = length out /\
    (forall b, get out' b = if b =? a then Some ((fst g ++ ds, snd g) : group) else get out b) /\
    (forall d, lab stored' d = if existsb (Nat.eqb d) ds then Some a else lab stored d).
Proof.
  induction ds as [|d ds IH]; intros a g out stored Ha N Hlt; cbn [move_dofs].
  - exists out, stored. split; [reflexivity|]. split; [reflexivity|]. split; [reflexivity|]. split; [|reflexivity].
    intros b. rewrite app_nil_r. destruct (b =? a) eqn:E; [|reflexivity]. apply Nat.eqb_eq in E. subst b. rewrite Ha. destruct g; reflexivity.
  - assert (Hd : d < length stored) by (apply Hlt; left; reflexivity).
    destruct (set_get stored d (Some a) Hd) as [st1 [E1 [L1 _]]]. rewrite E1. cbn [bind].
    destruct (lab_set _ _ _ _ E1 Hd) as [_ G1]. rewrite Ha. cbn [bind].
    assert (Nd : existsb (Nat.eqb d) (fst g) = false).
    { destruct (existsb (Nat.eqb d) (fst g)) eqn:E; [|reflexivity]. apply existsb_exists in E. destruct E as [y [Hy Ey]]. apply Nat.eqb_eq in Ey. subst y.
      exfalso. apply NoDup_remove_2 in N. apply N. apply in_app_iff. left. assumption. }
    rewrite Nd. cbn [negb assert bind].
    destruct (set_get out a (fst g ++ [d], snd g) (get_lt _ _ _ Ha)) as [o1 [E2 [L2 G2]]]. rewrite E2. cbn [bind].
    destruct (IH a (fst g ++ [d], snd g) o1 st1) as [o2 [st2 [E3 [L3 [L4 [G3 G4]]]]]].
    + rewrite G2, Nat.eqb_refl. reflexivity.
    + simpl. rewrite <- app_assoc. assumption.
    + intros e He. rewrite L1. apply Hlt. right. assumption.
    + exists o2, st2. split; [assumption|]. split; [congruence|]. split; [congruence|]. split.
      * intros b. rewrite G3, G2. simpl. rewrite <- app_assoc. destruct (b =? a); reflexivity.
      * intros e. rewrite G4, G1. simpl. destruct (e =? d) eqn:E; simpl; [|reflexivity]. destruct (existsb (Nat.eqb e) ds); reflexivity.
Qed.

Lemma two_first : forall (g : group), fst g <> [] -> exists d r, fst g = d :: r /\ firstdof g = d.
Proof. intros [[|d r] z] H; [exfalso; apply H; reflexivity|]. exists d, r. split; reflexivity. Qed.

Lemma firstdof_app : forall (g : group) l z, fst g <> [] -> firstdof (fst g ++ l, z) = firstdof g.
Proof. intros [[|d r] w] l z H; [exfalso; apply H; reflexivity|reflexivity]. Qed.

Lemma identify_ok : forall ps B st s l, inv ps B st -> s < l -> l < D -> B <= blk s ->
  exists st', identify s l st = Some st' /\ inv (ps ++ [(s, l)]) (blk s) st'.
Proof.
  intros ps B [out stored] s l I Hsl HlD HB. destruct I as [HD Mem Nd Sh Cn Fi Bo Or]. cbn [fst snd] in *.
  assert (Conn : forall c', (forall x y, (x = y \/ same c' x y) <-> joined (lab stored) s l x y) ->
     forall x y, (x = y \/ same c' x y) <-> connected (ps ++ [(s, l)]) x y).
  { intros c' H x y. rewrite H, conn_snoc, <- !Cn. unfold joined. tauto. }
  assert (Hgs : forall i, i < D -> get stored i = Some (lab stored i)).
  { intros i Hi. unfold lab. rewrite (get_nth stored i None) by lia. destruct (nth i stored None); reflexivity. }
  unfold identify. rewrite !Hgs by lia. cbn [bind].
  assert (Push : forall x a g, x < D -> lab stored x = None -> get out a = Some g -> fst g <> [] -> blk (firstdof g) <= blk x ->
     (forall c', (forall d, c' d = if d =? x then Some a else lab stored d) -> forall u v, (u = v \/ same c' u v) <-> joined (lab stored) s l u v) ->
     exists st', (g0 <- get out a ;; out' <- set out a (fst g0 ++ [x], snd g0) ;; stored' <- set stored x (Some a) ;; Some (out', stored')) = Some st' /\
       inv (ps ++ [(s, l)]) (blk s) st').
  { intros x a g Hx Lx Ga Gne Gb Jn. rewrite Ga. cbn [bind]. destruct (set_get out a (fst g ++ [x], snd g) (get_lt _ _ _ Ga)) as [o1 [E1 [L1 G1]]].
    rewrite E1. cbn [bind]. destruct (set_get stored x (Some a)) as [s1 [E2 [L2 _]]]; [lia|]. rewrite E2. cbn [bind].
    destruct (lab_set _ _ _ _ E2 ltac:(lia)) as [_ G2]. eexists. split; [reflexivity|].
    assert (Nx : ~ In x (fst g)). { intros Ix. assert (lab stored x = Some a) by (apply Mem; eauto). congruence. }
    split; cbn [fst snd].
    - lia.
    - intros d b. rewrite G2. destruct (d =? x) eqn:Ed.
      + apply Nat.eqb_eq in Ed. subst d. split.
        * intros E. injection E as <-. exists (fst g ++ [x], snd g). rewrite G1, Nat.eqb_refl. split; [reflexivity|]. simpl. apply in_app_iff. right; left; reflexivity.
        * intros [h [Gh Ih]]. rewrite G1 in Gh. destruct (b =? a) eqn:Eb; [apply Nat.eqb_eq in Eb; congruence|].
          assert (lab stored x = Some b) by (apply Mem; eauto). congruence.
      + apply Nat.eqb_neq in Ed. rewrite Mem. split.
        * intros [h [Gh Ih]]. rewrite G1. destruct (b =? a) eqn:Eb.
          -- apply Nat.eqb_eq in Eb. subst b. eexists. split; [reflexivity|]. simpl. apply in_app_iff. left. congruence.
          -- exists h. auto.
        * intros [h [Gh Ih]]. rewrite G1 in Gh. destruct (b =? a) eqn:Eb.
          -- apply Nat.eqb_eq in Eb. subst b. injection Gh as <-. simpl in Ih. apply in_app_iff in Ih. destruct Ih as [Ih|[Ih|[]]]; [eauto|congruence].
          -- exists h. auto.
    - intros b h Gh. rewrite G1 in Gh. destruct (b =? a); [|eauto]. injection Gh as <-. simpl.
      apply (Permutation_NoDup (l := x :: fst g)); [apply Permutation_cons_append|]. constructor; eauto.
    - intros b h Gh. rewrite G1 in Gh. destruct (b =? a); [|eauto]. injection Gh as <-. right. simpl. rewrite app_length. simpl.
      destruct (Sh a g Ga) as [?|[? ?]]; [contradiction|]. split; [lia|assumption].
    - apply Conn. apply Jn. assumption.
    - intros b h d Gh Ih. rewrite G1 in Gh. destruct (b =? a); [|eauto]. injection Gh as <-. rewrite firstdof_app by assumption.
      simpl in Ih. apply in_app_iff in Ih. destruct Ih as [Ih|[<-|[]]]; eauto.
    - intros b h Gh Hh. rewrite G1 in Gh. destruct (b =? a).
      + injection Gh as <-. rewrite firstdof_app by assumption. specialize (Bo a g Ga Gne). lia.
      + specialize (Bo b h Gh Hh). lia.
    - intros b c h k Gh Gk Hh Hk Hbc. rewrite G1 in Gh, Gk.
      destruct (b =? a) eqn:Eb, (c =? a) eqn:Ec; rewrite ?Nat.eqb_eq, ?Nat.eqb_neq in *; subst; try lia.
      + injection Gh as <-. rewrite firstdof_app by assumption. eauto.
      + injection Gk as <-. rewrite firstdof_app by assumption. eauto.
      + eauto. }
  destruct (lab stored s) as [a|] eqn:Es, (lab stored l) as [b|] eqn:El.
  - destruct (a =? b) eqn:Eab.
    + (* already together *)
      apply Nat.eqb_eq in Eab. subst b. eexists. split; [reflexivity|].
      split; cbn [fst snd]; auto.
      * apply Conn. apply label_same. split; congruence.
      * intros a' g Ga Gne. specialize (Bo a' g Ga Gne). lia.
    + (* merge *)
      apply Nat.eqb_neq in Eab. unfold merge_groups. cbn [fst].
      set (u := Nat.min a b). set (w := Nat.max a b).
      assert (Huw : u < w) by (unfold u, w; lia).
      assert (Xu : exists g, get out u = Some g /\ exists d, In d (fst g)).
      { destruct (Nat.min_spec a b) as [[_ M]|[_ M]]; unfold u; rewrite M.
        - destruct (proj1 (Mem s a) Es) as [g [Gg Ig]]. eauto.
        - destruct (proj1 (Mem l b) El) as [g [Gg Ig]]. eauto. }
      assert (Xw : exists g, get out w = Some g /\ exists d, In d (fst g)).
      { destruct (Nat.max_spec a b) as [[_ M]|[_ M]]; unfold w; rewrite M.
        - destruct (proj1 (Mem l b) El) as [g [Gg Ig]]. eauto.
        - destruct (proj1 (Mem s a) Es) as [g [Gg Ig]]. eauto. }
      destruct Xu as [gu [Gu [du Du]]], Xw as [gw [Gw [dw Dw]]]. rewrite Gw. cbn [bind].
      assert (Nu : fst gu <> []) by (intros E; rewrite E in Du; destruct Du).
      assert (Nw : fst gw <> []) by (intros E; rewrite E in Dw; destruct Dw).
      assert (Dis : forall d, In d (fst gu) -> ~ In d (fst gw)).
      { intros d H1 H2. assert (lab stored d = Some u) by (apply Mem; eauto). assert (lab stored d = Some w) by (apply Mem; eauto). assert (u = w) by congruence. lia. }
      assert (Nuw : NoDup (fst gu ++ fst gw)).
      { assert (App : forall p q : list nat, NoDup p -> NoDup q -> (forall x, In x p -> ~ In x q) -> NoDup (p ++ q)).
        { induction p as [|x p IHp]; intros q Np Nq Dd; simpl; [assumption|]. apply NoDup_cons_iff in Np. destruct Np as [N1 N2]. constructor.
          - rewrite in_app_iff. intros [?|?]; [contradiction|]. apply (Dd x); [left; reflexivity|assumption].
          - apply IHp; auto. intros y Hy. apply Dd. right. assumption. }
        apply App; eauto. }
      destruct (move_ok (fst gw) u gu out stored Gu Nuw) as [o1 [s1 [E1 [L1 [L2 [G1 G2]]]]]].
      { intros d Hd. apply (lab_lt stored d w). apply Mem. eauto. }
      rewrite E1. cbn [bind fst snd]. destruct (set_get o1 w ([], 0%Z)) as [o2 [E2 [L3 G3]]]; [rewrite L2; eapply get_lt; eassumption|].
      rewrite E2. cbn [bind]. eexists. split; [reflexivity|].
      assert (InW : forall d, existsb (Nat.eqb d) (fst gw) = true <-> lab stored d = Some w).
      { intros d. rewrite existsb_exists. rewrite Mem. split.
        - intros [x [Hx E]]. apply Nat.eqb_eq in E. subst x. eauto.
        - intros [h [Gh Ih]]. exists d. split; [congruence|apply Nat.eqb_refl]. }
      assert (Lab : forall d, lab s1 d = if match lab stored d with Some k => k =? w | None => false end then Some u else lab stored d).
      { intros d. rewrite G2. destruct (existsb (Nat.eqb d) (fst gw)) eqn:E.
        - apply InW in E. rewrite E, Nat.eqb_refl. reflexivity.
        - destruct (lab stored d) as [k|] eqn:Ek; [|reflexivity]. destruct (k =? w) eqn:Ew; [|reflexivity]. apply Nat.eqb_eq in Ew. subst k.
          apply InW in Ek. congruence. }
      assert (Get : forall c, get o2 c = if c =? w then Some ([], 0%Z) else if c =? u then Some (fst gu ++ fst gw, snd gu) else get out c).
      { intros c. rewrite G3, G1. reflexivity. }
      assert (Huo : blk (firstdof gu) <= blk (firstdof gw)) by (apply (Or u w); auto).
      split; cbn [fst snd].
      * lia.
      * intros d c. rewrite Lab, Get. destruct (lab stored d) as [k|] eqn:Ek.
        -- destruct (k =? w) eqn:Ew; rewrite ?Nat.eqb_eq, ?Nat.eqb_neq in *.
           ++ subst k. split.
              ** intros E. injection E as <-. replace (u =? w) with false by (symmetry; apply Nat.eqb_neq; lia). rewrite Nat.eqb_refl.
                 eexists. split; [reflexivity|]. simpl. apply in_app_iff. right. apply Mem in Ek. destruct Ek as [h [Gh Ih]]. congruence.
              ** intros [h [Gh Ih]]. destruct (c =? w) eqn:Ec; rewrite ?Nat.eqb_eq, ?Nat.eqb_neq in *; [injection Gh as <-; destruct Ih|].
                 destruct (c =? u) eqn:Ec'; rewrite ?Nat.eqb_eq, ?Nat.eqb_neq in *; [congruence|].
                 assert (lab stored d = Some c) by (apply Mem; eauto). congruence.
           ++ split.
              ** intros E. injection E as <-. replace (k =? w) with false by (symmetry; apply Nat.eqb_neq; lia).
                 apply Mem in Ek. destruct Ek as [h [Gh Ih]]. destruct (k =? u) eqn:Eu; rewrite ?Nat.eqb_eq, ?Nat.eqb_neq in *.
                 --- subst k. eexists. split; [reflexivity|]. simpl. apply in_app_iff. left. congruence.
                 --- eauto.
              ** intros [h [Gh Ih]]. destruct (c =? w) eqn:Ec; rewrite ?Nat.eqb_eq, ?Nat.eqb_neq in *; [injection Gh as <-; destruct Ih|].
                 destruct (c =? u) eqn:Ec'; rewrite ?Nat.eqb_eq, ?Nat.eqb_neq in *.
                 --- subst c. injection Gh as <-. simpl in Ih. apply in_app_iff in Ih. destruct Ih as [Ih|Ih].
                     +++ rewrite <- Ek. apply Mem. eauto.
                     +++ assert (lab stored d = Some w) by (apply Mem; eauto). congruence.
                 --- rewrite <- Ek. apply Mem. eauto.
        -- split; [discriminate|]. intros [h [Gh Ih]]. exfalso.
           destruct (c =? w) eqn:Ec; rewrite ?Nat.eqb_eq, ?Nat.eqb_neq in *; [injection Gh as <-; destruct Ih|].
           destruct (c =? u) eqn:Ec'; rewrite ?Nat.eqb_eq, ?Nat.eqb_neq in *.
           ++ injection Gh as <-. simpl in Ih. apply in_app_iff in Ih. destruct Ih as [Ih|Ih].
              ** assert (lab stored d = Some u) by (apply Mem; eauto). congruence.
              ** assert (lab stored d = Some w) by (apply Mem; eauto). congruence.
           ++ assert (lab stored d = Some c) by (apply Mem; eauto). congruence.
      * intros c h Gh. rewrite Get in Gh. destruct (c =? w); [injection Gh as <-; constructor|]. destruct (c =? u); [injection Gh as <-; assumption|eauto].
      * intros c h Gh. rewrite Get in Gh. destruct (c =? w); [injection Gh as <-; left; reflexivity|].
        destruct (c =? u); [|eauto]. injection Gh as <-. right. simpl. rewrite app_length. destruct (Sh u gu Gu) as [?|[? ?]]; [contradiction|]. split; [lia|assumption].
      * apply Conn. apply (label_merge (lab stored) (lab s1) s l a b Es El Eab Lab).
      * intros c h d Gh Ih. rewrite Get in Gh. destruct (c =? w); [injection Gh as <-; destruct Ih|].
        destruct (c =? u); [|eauto]. injection Gh as <-. rewrite firstdof_app by assumption. simpl in Ih. apply in_app_iff in Ih.
        destruct Ih as [Ih|Ih]; [eauto|]. specialize (Fi w gw d Gw Ih). lia.
      * intros c h Gh Hh. rewrite Get in Gh. destruct (c =? w); [injection Gh as <-; exfalso; apply Hh; reflexivity|].
        destruct (c =? u).
        -- injection Gh as <-. rewrite firstdof_app by assumption. specialize (Bo u gu Gu Nu). lia.
        -- specialize (Bo c h Gh Hh). lia.
      * intros c c' h h' Gh Gh' Hh Hh' Hcc. rewrite Get in Gh, Gh'.
        destruct (c =? w) eqn:Ec; [injection Gh as <-; exfalso; apply Hh; reflexivity|].
        destruct (c' =? w) eqn:Ec'; [injection Gh' as <-; exfalso; apply Hh'; reflexivity|].
        destruct (c =? u) eqn:Eu, (c' =? u) eqn:Eu'; rewrite ?Nat.eqb_eq, ?Nat.eqb_neq in *.
        -- lia.
        -- injection Gh as <-. rewrite firstdof_app by assumption. subst c. eauto.
        -- injection Gh' as <-. rewrite firstdof_app by assumption. subst c'. eauto.
        -- eauto.
  - (* s known, l new *)
    destruct (proj1 (Mem s a) Es) as [g [Ga Ig]]. assert (Gne : fst g <> []) by (intros E; rewrite E in Ig; destruct Ig).
    apply (Push l a g); auto.
    + specialize (Bo a g Ga Gne). pose proof (blk_mono s l). lia.
    + intros c' H. apply (label_add (lab stored) c' s l a); auto. lia.
  - (* l known, s new *)
    destruct (proj1 (Mem l b) El) as [g [Ga Ig]]. assert (Gne : fst g <> []) by (intros E; rewrite E in Ig; destruct Ig).
    apply (Push s b g); auto.
    + lia.
    + specialize (Bo b g Ga Gne). lia.
    + intros c' H u v. rewrite joined_sym_args. apply (label_add (lab stored) c' l s b); auto. lia.
  - (* both new *)
    destruct (set_get stored s (Some (length out))) as [s1 [E1 [L1 _]]]; [lia|]. rewrite E1. cbn [bind].
    destruct (lab_set _ _ _ _ E1 ltac:(lia)) as [_ G1].
    destruct (set_get s1 l (Some (length out))) as [s2 [E2 [L2 _]]]; [lia|]. rewrite E2. cbn [bind].
    destruct (lab_set _ _ _ _ E2 ltac:(lia)) as [_ G2]. eexists. split; [reflexivity|].
    assert (Lab : forall d, lab s2 d = if d =? l then Some (length out) else if d =? s then Some (length out) else lab stored d).
    { intros d. rewrite G2, G1. reflexivity. }
    assert (Fresh : forall d, lab stored d <> Some (length out)).
    { intros d E. apply Mem in E. destruct E as [g [Gg _]]. apply get_lt in Gg. lia. }
    assert (Get := fun c => get_app_last out ([s; l], 1%Z) c).
    split; cbn [fst snd].
    + lia.
    + intros d c. rewrite Lab, Get. destruct (d =? l) eqn:Ed, (d =? s) eqn:Ed'; rewrite ?Nat.eqb_eq, ?Nat.eqb_neq in *; subst.
      * lia.
      * split; [intros E; injection E as <-; rewrite Nat.eqb_refl; eexists; split; [reflexivity|]; simpl; auto|].
        intros [h [Gh Ih]]. destruct (c =? length out) eqn:Ec; [apply Nat.eqb_eq in Ec; congruence|].
        assert (lab stored l = Some c) by (apply Mem; eauto). congruence.
      * split; [intros E; injection E as <-; rewrite Nat.eqb_refl; eexists; split; [reflexivity|]; simpl; auto|].
        intros [h [Gh Ih]]. destruct (c =? length out) eqn:Ec; [apply Nat.eqb_eq in Ec; congruence|].
        assert (lab stored s = Some c) by (apply Mem; eauto). congruence.
      * destruct (c =? length out) eqn:Ec; rewrite ?Nat.eqb_eq, ?Nat.eqb_neq in *.
        -- subst c. split; [intros E; exfalso; eapply Fresh; eassumption|]. intros [h [Gh Ih]]. injection Gh as <-. simpl in Ih. intuition congruence.
        -- apply Mem.
    + intros c h Gh. rewrite Get in Gh. destruct (c =? length out); [|eauto]. injection Gh as <-. simpl. constructor; [simpl; intros [?|[]]; lia|]. constructor; [intros []|constructor].
    + intros c h Gh. rewrite Get in Gh. destruct (c =? length out); [|eauto]. injection Gh as <-. right. simpl. auto.
    + apply Conn. apply (label_new (lab stored) (lab s2) s l (length out)); auto. lia.
    + intros c h d Gh Ih. rewrite Get in Gh. destruct (c =? length out); [|eauto]. injection Gh as <-. simpl in Ih. unfold firstdof. simpl.
      destruct Ih as [<-|[<-|[]]]; [lia|]. apply blk_mono. lia.
    + intros c h Gh Hh. rewrite Get in Gh. destruct (c =? length out).
      * injection Gh as <-. unfold firstdof. simpl. lia.
      * specialize (Bo c h Gh Hh). lia.
    + intros c c' h h' Gh Gh' Hh Hh' Hcc. rewrite Get in Gh, Gh'.
      destruct (c =? length out) eqn:Ec, (c' =? length out) eqn:Ec'; rewrite ?Nat.eqb_eq, ?Nat.eqb_neq in *; subst; try lia.
      * apply get_lt in Gh'. lia.
      * injection Gh' as <-. unfold firstdof at 2. simpl. specialize (Bo c h Gh Hh). lia.
      * eauto.
Qed.
End Id.
