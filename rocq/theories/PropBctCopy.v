(** C72: copies and moves of block cluster trees. *)
From Coq Require Import List Arith Lia Bool ZArith.
From Verif Require Import ModelBase ModelTree ModelBlock SpecTree PropTree ModelBctCopy SpecBctCopy ProofBctCopy PropBlock.
Import ListNotations.
Local Open Scope nat_scope.

Section History.
Context {C : Type} (empty : C).
Notation value := (value (C := C)).
Notation heap := (heap (C := C)).
Notation state := (state (C := C)).
Notation op := (op (C := C)).
Notation slot := (value * option bct)%type.

Definition knows (h : heap) (o : bct) (b : btree) (cs : list C) : Prop :=
  shows o b /\ root_block b /\ NoDup (leaf_ids o) /\ Forall (fun i => i < nx h) (leaf_ids o) /\ map_opt (hl h) (leaf_ids o) = Some cs /\
  exists l, o_lp o = Some l /\ l < nx h /\ hp h l = Some (map o_self (leaf_objs o)).
Definition addr_ok (h : heap) (o : bct) : Prop := NoDup (addrs o) /\ Forall (fun i => i < nx h) (addrs o).
Definition fits (h : heap) (p : slot) : Prop :=
  match p with
  | (OutOfScope, None) => True
  | (Unspecified, Some o) => addr_ok h o
  | (Known b cs, Some o) => addr_ok h o /\ knows h o b cs
  | _ => False
  end.
Lemma nth_error_ext' : forall {A} (l l' : list A), (forall z, nth_error l z = nth_error l' z) -> l' = l.
Proof.
  intros A. induction l as [|a l IH]; intros [|a' l'] E; [reflexivity|specialize (E 0); discriminate|specialize (E 0); discriminate|].
  pose proof (E 0) as E0. cbn in E0. injection E0 as <-. f_equal. apply IH. intros z. exact (E (S z)).
Qed.
Definition known (v : value) : Prop := match v with Known _ _ => True | _ => False end.
Definition apart (p q : slot) : Prop :=
  match snd p, snd q with
  | Some a, Some b => (forall i, In i (addrs a) -> ~ In i (addrs b)) /\
      (known (fst p) -> known (fst q) -> (forall i, In i (leaf_ids a) -> ~ In i (leaf_ids b)) /\ o_lp a <> o_lp b)
  | _, _ => True
  end.
Definition Inv (h : heap) (ps : list slot) : Prop :=
  (forall x p, nth_error ps x = Some p -> fits h p) /\ (forall x y p q, x <> y -> nth_error ps x = Some p -> nth_error ps y = Some q -> apart p q).
Lemma apart_sym : forall p q, apart p q -> apart q p.
Proof.
  intros [v [a|]] [w [b|]] H; cbn in *; auto. destruct H as [H1 H2]. split; [intros i I1 I2; exact (H1 i I2 I1)|]. intros K1 K2. destruct (H2 K2 K1) as [H3 H4].
  split; [intros i I1 I2; exact (H3 i I2 I1)|congruence].
Qed.
Lemma inv_put : forall h h' ps x p, Inv h ps -> x < length ps -> fits h' p -> (forall z q, z <> x -> nth_error ps z = Some q -> fits h' q /\ apart p q) -> Inv h' (update ps x p).
Proof.
  intros h h' ps x p [_ I2] Hx F O. split.
  - intros z q E. rewrite nth_update in E by exact Hx. destruct (Nat.eqb_spec z x); [congruence|apply (O z q n E)].
  - intros y z q r Ne E1 E2. rewrite nth_update in E1, E2 by exact Hx. destruct (Nat.eqb_spec y x) as [->|Ny], (Nat.eqb_spec z x) as [->|Nz].
    + congruence.
    + injection E1 as <-. apply (O z r Nz E2).
    + injection E2 as <-. apply apart_sym. apply (O y q Ny E1).
    + apply (I2 y z); assumption.
Qed.
Lemma inv_push : forall h h' ps p, Inv h ps -> fits h' p -> (forall z q, nth_error ps z = Some q -> fits h' q /\ apart p q) -> Inv h' (ps ++ [p]).
Proof.
  intros h h' ps p [_ I2] F O.
  assert (N : forall z q, nth_error (ps ++ [p]) z = Some q -> (z = length ps /\ q = p) \/ nth_error ps z = Some q).
  { intros z q E. destruct (lt_dec z (length ps)) as [L|L]; [right; rewrite nth_error_app1 in E by exact L; exact E|left].
    rewrite nth_error_app2 in E by lia. destruct (z - length ps) as [|m] eqn:Ez; [cbn in E; split; [lia|congruence]|destruct m; discriminate E]. }
  split.
  - intros z q E. destruct (N z q E) as [[_ ->]|E']; [exact F|apply (O z q E')].
  - intros y z q r Ne E1 E2. destruct (N y q E1) as [[-> ->]|E1'], (N z r E2) as [[-> ->]|E2'].
    + congruence.
    + apply (O z r E2').
    + apply apart_sym. apply (O y q E1').
    + apply (I2 y z); assumption.
Qed.
(** changes of the heap that do not concern an object *)
Lemma fits_heap : forall h h' p, fits h p -> nx h <= nx h' ->
  (forall b cs o, p = (Known b cs, Some o) -> (forall i, In i (leaf_ids o) -> hl h' i = hl h i) /\ (forall l, o_lp o = Some l -> hp h' l = hp h l)) -> fits h' p.
Proof.
  intros h h' [v [o|]] F N K; destruct v as [b cs| |]; cbn in *; auto.
  - destruct F as [[A1 A2] [Sh [Rb [Nd [Lt [Mo [l [El [Ll Hl']]]]]]]]]. destruct (K b cs o eq_refl) as [K1 K2].
    split; [split; [exact A1|eapply Forall_impl; [|exact A2]; cbn; intros; lia]|]. split; [exact Sh|]. split; [exact Rb|]. split; [exact Nd|].
    split; [eapply Forall_impl; [|exact Lt]; cbn; intros; lia|]. split; [rewrite <- Mo; apply map_opt_ext_in; exact K1|].
    exists l. split; [exact El|]. split; [lia|]. rewrite (K2 l El). exact Hl'.
  - destruct F as [A1 A2]. split; [exact A1|eapply Forall_impl; [|exact A2]; cbn; intros; lia].
Qed.
Lemma fits_ext : forall h h' p, fits h p -> ext h h' -> fits h' p.
Proof.
  intros h h' p F [N E]. apply (fits_heap h h' p F N). intros b cs o ->. cbn in F. destruct F as [_ [_ [_ [_ [Lt [_ [l [El [Ll _]]]]]]]]]. rewrite Forall_forall in Lt.
  split; [intros i Hi; apply E; apply Lt; exact Hi|]. intros l' E'. assert (l' = l) by congruence. subst l'. apply E. exact Ll.
Qed.
Lemma fits_addrs : forall h v o, fits h (v, Some o) -> addr_ok h o.
Proof. intros h v o F. destruct v; cbn in F; [apply F|exact F|destruct F]. Qed.
(** an object made in new memory is apart from all the others *)
Lemma made_fits : forall (h0 h h' : heap) a o b cs l, a < nx h -> made h h' a o b cs -> root_block b -> o_lp o = Some l -> nx h <= l < nx h' -> hp h' l = Some (map o_self (leaf_objs o)) ->
  a = nx h0 -> nx h = nx h0 + 1 -> fits h' (Known b cs, Some o).
Proof.
  intros h0 h h' a o b cs l Ha [Sh [Se [X1 [Ba [Bi Mi]]]]] Rb El Ll Hl Ea En. pose proof (proj1 X1) as N. cbn [fits]. split.
  - rewrite <- Se in Ha, Ea. unfold addr_ok. rewrite addrs_hd. destruct Ba as [Na Fa]. rewrite Forall_forall in Fa. split.
    + constructor; [|exact Na]. intros I. apply Fa in I. lia.
    + constructor; [lia|]. apply Forall_forall. intros i I. apply Fa in I. lia.
  - split; [exact Sh|]. split; [exact Rb|]. destruct Bi as [Ni Fi]. split; [exact Ni|]. split; [eapply Forall_impl; [|exact Fi]; cbn; intros; lia|]. split; [exact Mi|].
    exists l. split; [exact El|]. split; [lia|exact Hl].
Qed.
Lemma made_apart : forall (h0 h h' : heap) a o b cs l v q, made h h' a o b cs -> o_lp o = Some l -> nx h <= l -> a = nx h0 -> nx h = nx h0 + 1 -> fits h0 (v, q) -> apart (Known b cs, Some o) (v, q).
Proof.
  intros h0 h h' a o b cs l v q [Sh [Se [X1 [Ba [Bi Mi]]]]] El Ll Ea En F. unfold apart. cbn [fst snd]. destruct q as [o2|]; [|auto]. pose proof (fits_addrs h0 v o2 F) as [_ A2]. rewrite Forall_forall in A2. split.
  - intros i I1 I2. apply A2 in I2. rewrite addrs_hd, Se, Ea in I1. destruct I1 as [<-|I1]; [lia|]. destruct Ba as [_ Fa]. rewrite Forall_forall in Fa. apply Fa in I1. lia.
  - intros _ K2. destruct v as [b2 cs2| |]; cbn in K2; try contradiction. cbn in F. destruct F as [_ [_ [_ [_ [Lt [_ [l2 [El2 [Ll2 _]]]]]]]]]. rewrite Forall_forall in Lt. split.
    + intros i I1 I2. apply Lt in I2. destruct Bi as [_ Fi]. rewrite Forall_forall in Fi. apply Fi in I1. lia.
    + rewrite El, El2. intros Q. injection Q as ->. lia.
Qed.

(** ** programs *)
Definition state_of (ps : list slot) (h : heap) : state := mkState (map snd ps) h.
Lemma slot_of : forall (ps : list slot) x v, nth_error (map fst ps) x = Some v -> exists q, nth_error ps x = Some (v, q).
Proof. intros ps x v E. rewrite nth_error_map in E. destruct (nth_error ps x) as [[w q]|]; [|discriminate]. cbn in E. injection E as ->. eauto. Qed.
Lemma source_slot : forall h (ps : list slot) y v, Inv h ps -> source (map fst ps) y = Some v -> exists b cs o, v = Known b cs /\ nth_error ps y = Some (Known b cs, Some o) /\ y < length ps /\
  variable (state_of ps h) y = Some o.
Proof.
  intros h ps y v [I1 _] E. unfold source in E. destruct (nth_error (map fst ps) y) as [w|] eqn:Ew; [|discriminate]. destruct w as [b cs| |]; try discriminate. injection E as <-.
  destruct (slot_of ps y _ Ew) as [q Eq]. pose proof (I1 y _ Eq) as F. destruct q as [o|]; [|destruct F]. exists b, cs, o. split; [reflexivity|]. split; [exact Eq|]. split; [apply nth_error_Some; congruence|].
  unfold variable. cbn [vars state_of]. rewrite nth_error_map, Eq. reflexivity.
Qed.
Lemma scope_slot : forall h ps x, Inv h ps -> in_scope (map fst ps) x = true -> exists v o, nth_error ps x = Some (v, Some o) /\ x < length ps /\ variable (state_of ps h) x = Some o.
Proof.
  intros h ps x [I1 _] E. unfold in_scope in E. destruct (nth_error (map fst ps) x) as [w|] eqn:Ew; [|discriminate].
  destruct (slot_of ps x _ Ew) as [q Eq]. pose proof (I1 x _ Eq) as F. destruct q as [o|]; [|destruct w; try destruct F; discriminate].
  exists w, o. split; [exact Eq|]. split; [apply nth_error_Some; congruence|]. unfold variable. cbn [vars state_of]. rewrite nth_error_map, Eq. reflexivity.
Qed.
Lemma put_update : forall (ps : list slot) h x p, put (state_of ps h) x (snd p) = map snd (update ps x p).
Proof. intros ps h x p. rewrite map_update. reflexivity. Qed.
Lemma state_ext : forall ps h h', Inv h ps -> ext h h' -> Inv h' ps.
Proof. intros ps h h' [I1 I2] X. split; [intros x p E; apply (fits_ext h); [apply (I1 x p E)|exact X]|exact I2]. Qed.
Lemma deref_ok : forall h ps x v o b, Inv h ps -> nth_error ps x = Some (v, Some o) -> In b (objects o) -> deref (state_of ps h) (o_self b) = Some b.
Proof.
  intros h ps x v o b [I1 I2] E Hb. unfold deref. cbn [vars state_of]. set (all := flat_map _ (map snd ps)).
  assert (Ib : In b all) by (unfold all; apply in_flat_map; exists (Some o); split; [apply in_map_iff; exists (v, Some o); split; [reflexivity|apply (nth_error_In _ _ E)]|exact Hb]).
  destruct (find (fun o => o_self o =? o_self b) all) as [b'|] eqn:F.
  - apply find_some in F. destruct F as [Ib' Q]. apply Nat.eqb_eq in Q. f_equal. unfold all in Ib'. apply in_flat_map in Ib'. destruct Ib' as [oo [Ho Ib']]. apply in_map_iff in Ho. destruct Ho as [[w q] [Eq Iq]]. cbn in Eq. subst q.
    destruct oo as [o'|]; [|destruct Ib']. apply In_nth_error in Iq. destruct Iq as [y Ey]. destruct (Nat.eq_dec x y) as [->|Ne].
    + assert (o' = o) by congruence. subst o'. apply (NoDup_map_inj o_self (objects o)); auto. apply (fits_addrs h v o (I1 y _ E)).
    + exfalso. destruct (I2 x y _ _ Ne E Ey) as [D _]. apply (D (o_self b)); [apply in_map; exact Hb|rewrite <- Q; apply in_map; exact Ib'].
  - pose proof (find_none _ _ F b Ib) as Q. cbn in Q. rewrite Nat.eqb_refl in Q. discriminate.
Qed.

Lemma addrs_at : forall o a, addrs (at_address a o) = a :: tl (addrs o).
Proof. intros [a0 c1 c2 cc lf lp r c sr sc sons] a. cbn [at_address]. rewrite !addrs_node. reflexivity. Qed.
Lemma move_at : forall (h : heap) a o, move h a o = (h1 <- update_lp h (at_address a o) ;; Some (h1, at_address a o, moved o)).
Proof. intros h a [a0 c1 c2 cc lf lp r c sr sc sons]. reflexivity. Qed.
Lemma addrs_moved : forall o, addrs (moved o) = [o_self o].
Proof. intros [a0 c1 c2 cc lf lp r c sr sc sons]. reflexivity. Qed.
(** an object taken over at another address, with its leaf pointers updated *)
Lemma take_over : forall h o b cs a l, knows h o b cs -> o_lp o = Some l -> exists h', update_lp h (at_address a o) = Some h' /\ hl h' = hl h /\ nx h' = nx h /\ (forall i, i <> l -> hp h' i = hp h i) /\ knows h' (at_address a o) b cs.
Proof.
  intros h o b cs a l [Sh [Rb [Nd [Lt [Mo [l' [El [Ll Hl]]]]]]]] El'. assert (l' = l) by congruence. subst l'. destruct (shows_moved_address o b a Sh) as [Sh' [Ei [Ep Es]]].
  destruct (update_ok h (at_address a o) b l _ Sh' ltac:(congruence) Hl) as [h' [Eu [E1 [E2 [E3 E4]]]]]. exists h'. split; [exact Eu|]. split; [exact E1|]. split; [exact E2|]. split; [exact E3|].
  split; [exact Sh'|]. split; [exact Rb|]. rewrite Ei, E1, E2. split; [exact Nd|]. split; [exact Lt|]. split; [exact Mo|]. exists l. split; [congruence|]. split; [exact Ll|apply E4; exact Rb].
Qed.
Lemma fits_next : forall (h : heap) p, fits h p -> fits (mkHeap (hl h) (hp h) (nx h + 1)) p.
Proof. intros h p F. apply (fits_ext h); [exact F|]. split; [cbn; lia|]. intros; split; reflexivity. Qed.
Lemma step_ok : forall (h : heap) ps p vs', Inv h ps -> meaning empty (map fst ps) p = Some vs' ->
  exists h' ps', step empty (state_of ps h) p = Some (state_of ps' h') /\ map fst ps' = vs' /\ Inv h' ps'.
Proof.
  intros h ps p vs' I E. pose proof I as [I1 I2]. set (h1 := mkHeap (hl h) (hp h) (nx h + 1)) in *.
  assert (X1 : ext h h1) by (split; [cbn; lia|intros; split; reflexivity]).
  assert (Nh1 : nx h1 = nx h + 1) by reflexivity.
  destruct p as [t near mincl| |y|y|x y|x y|x k c|x]; cbn [meaning] in E; cbn [step].
  - (* Build *)
    apply bind_some in E. destruct E as [b [Eb E]]. injection E as <-. cbn [mem state_of]. rewrite Eb. cbn [bind new_address]. fold h1.
    destruct (append_sized _ _ _ _ _ _ _ _ _ Eb) as [Sz [R1 R2]]. assert (Rb : root_block b) by (split; assumption).
    destruct (init_ok empty t b h1 (nx h) Sz Rb) as [h' [o [E1 [Md [l [El [Ll Hl]]]]]]]. rewrite E1. cbn [bind fst snd]. specialize (Hl Rb).
    exists h', (ps ++ [(Known b (repeat empty (length (leaves b))), Some o)]). split; [unfold declare, state_of; cbn [vars]; rewrite map_app; reflexivity|]. split; [rewrite map_app; reflexivity|].
    apply (inv_push h); [exact I|apply (made_fits h h1 h' (nx h) o b _ l); auto; lia|]. intros z [v q] Ez. pose proof (I1 z _ Ez) as F. split.
    + apply (fits_ext h); [exact F|]. eapply ext_trans; [exact X1|apply Md].
    + apply (made_apart h h1 h' (nx h) o b _ l v q); auto; lia.
  - (* Default *)
    injection E as <-. exists h1, (ps ++ [(Unspecified, Some (default_object (nx h)))]). split; [unfold declare, state_of; cbn [vars mem new_address]; rewrite map_app; reflexivity|]. split; [rewrite map_app; reflexivity|].
    apply (inv_push h); [exact I| |].
    + cbn. split; [constructor; [intros []|constructor]|constructor; [cbn; lia|constructor]].
    + intros z [v q] Ez. pose proof (I1 z _ Ez) as F. split; [apply (fits_ext h); assumption|]. unfold apart. cbn [fst snd]. destruct q as [o2|]; [|exact Logic.I]. split; [|intros []].
      intros i [<-|[]] Q. pose proof (fits_addrs h v o2 F) as [_ A2]. rewrite Forall_forall in A2. apply A2 in Q. cbn in Q. lia.
  - (* Copy *)
    apply bind_some in E. destruct E as [v0 [Ev E]]. injection E as <-. destruct (source_slot h ps y v0 I Ev) as [b [cs [o [-> [Ey [Ly Vy]]]]]]. rewrite Vy. cbn [bind new_address mem state_of]. fold h1.
    pose proof (I1 y _ Ey) as Fy. cbn in Fy. destruct Fy as [Ay [Sh [Rb [Nd [Lt [Mo _]]]]]].
    destruct (copy_ok o b h1 (nx h) cs Sh) as [h' [o' [E1 [Md [l [El [Ll Hl]]]]]]]; [eapply Forall_impl; [|exact Lt]; cbn; intros; lia|exact Mo|]. rewrite E1. cbn [bind fst snd]. specialize (Hl Rb).
    exists h', (ps ++ [(Known b cs, Some o')]). split; [unfold declare, state_of; cbn [vars]; rewrite map_app; reflexivity|]. split; [rewrite map_app; reflexivity|].
    apply (inv_push h); [exact I|apply (made_fits h h1 h' (nx h) o' b _ l); auto; lia|]. intros z [v q] Ez. pose proof (I1 z _ Ez) as F. split.
    + apply (fits_ext h); [exact F|]. eapply ext_trans; [exact X1|apply Md].
    + apply (made_apart h h1 h' (nx h) o' b _ l v q); auto; lia.
  - (* Move *)
    apply bind_some in E. destruct E as [v0 [Ev E]]. injection E as <-. destruct (source_slot h ps y v0 I Ev) as [b [cs [o [-> [Ey [Ly Vy]]]]]]. rewrite Vy. cbn [bind new_address mem state_of]. fold h1.
    pose proof (I1 y _ Ey) as Fy. pose proof (fits_next h _ Fy) as Fy1. fold h1 in Fy1. cbn in Fy, Fy1. destruct Fy as [[Na La] Ky]. destruct Fy1 as [_ Ky1].
    assert (exists l, o_lp o = Some l) as [l El] by (destruct Ky as [_ [_ [_ [_ [_ [l [El _]]]]]]]; eauto).
    destruct (take_over h1 o b cs (nx h) l Ky1 El) as [h' [Eu [E1 [E2 [E3 Kn]]]]]. rewrite move_at, Eu. cbn [bind]. unfold declare. cbn [vars].
    exists h', (update ps y (Unspecified, Some (moved o)) ++ [(Known b cs, Some (at_address (nx h) o))]).
    split; [unfold state_of; rewrite map_app, <- (put_update ps h y (Unspecified, Some (moved o))); reflexivity|]. split; [rewrite map_app, map_update; reflexivity|].
    assert (Oth : forall z v q, z <> y -> nth_error ps z = Some (v, q) -> fits h' (v, q)).
    { intros z v q Nz Ez. pose proof (I1 z _ Ez) as F. apply (fits_heap h); [exact F|rewrite E2; cbn; lia|]. intros b2 cs2 o2 Q. injection Q as -> ->. rewrite E1. split; [reflexivity|].
      intros l2 El2. rewrite E3; [reflexivity|]. intros ->. destruct (I2 y z _ _ ltac:(congruence) Ey Ez) as [_ D]. destruct (D Logic.I Logic.I) as [_ D2]. congruence. }
    rewrite Forall_forall in La. rewrite (addrs_hd o) in Na. inversion Na as [|? ? Ns Nt]; subst.
    assert (Fm : fits h' (Unspecified, Some (moved o))).
    { cbn. unfold addr_ok. rewrite addrs_moved. split; [constructor; [intros []|constructor]|constructor; [rewrite E2; cbn; assert (o_self o < nx h) by (apply La; rewrite addrs_hd; left; reflexivity); lia|constructor]]. }
    apply (inv_push h').
    + apply (inv_put h); [exact I|exact Ly|exact Fm|]. intros z [v q] Nz Ez. split; [apply (Oth z v q Nz Ez)|]. unfold apart. cbn [fst snd]. destruct q as [o2|]; [|exact Logic.I]. split; [|intros []].
      intros i Hi Q. rewrite addrs_moved in Hi. destruct Hi as [<-|[]]. destruct (I2 y z _ _ ltac:(congruence) Ey Ez) as [D _]. apply (D (o_self o)); [rewrite addrs_hd; left; reflexivity|exact Q].
    + cbn [fits]. split; [|exact Kn]. unfold addr_ok. rewrite addrs_at. split.
      * constructor; [|exact Nt]. intros Q. assert (nx h < nx h) by (apply La; rewrite addrs_hd; right; exact Q). lia.
      * constructor; [rewrite E2; cbn; lia|]. apply Forall_forall. intros i Q. rewrite E2. cbn. assert (i < nx h) by (apply La; rewrite addrs_hd; right; exact Q). lia.
    + intros z [v q] Ez. rewrite nth_update in Ez by exact Ly. destruct (Nat.eqb_spec z y) as [->|Nz].
      * injection Ez as <- <-. split; [exact Fm|]. unfold apart. cbn [fst snd]. split; [|intros _ []]. intros i Q1 Q2. rewrite addrs_moved in Q2. destruct Q2 as [<-|[]]. rewrite addrs_at in Q1.
        destruct Q1 as [Q1|Q1]; [|exact (Ns Q1)]. assert (o_self o < nx h) by (apply La; rewrite addrs_hd; left; reflexivity). lia.
      * split; [apply (Oth z v q Nz Ez)|]. pose proof (I2 y z _ _ ltac:(congruence) Ey Ez) as D. pose proof (I1 z _ Ez) as F. unfold apart in *. cbn [fst snd] in *. destruct q as [o2|]; [|exact Logic.I]. destruct D as [D1 D2].
        pose proof (fits_addrs h v o2 F) as [_ A2]. rewrite Forall_forall in A2. split.
        -- intros i Q1 Q2. rewrite addrs_at in Q1. destruct Q1 as [<-|Q1]; [apply A2 in Q2; lia|]. apply (D1 i); [rewrite addrs_hd; right; exact Q1|exact Q2].
        -- destruct Ky as [Sh _]. destruct (shows_moved_address o b (nx h) Sh) as [_ [Ei [Ep _]]]. rewrite Ei, Ep. exact D2.
  - (* Assign *)
    apply bind_some in E. destruct E as [v0 [Ev E]]. destruct (in_scope (map fst ps) x) eqn:Sx; [|discriminate]. injection E as <-.
    destruct (source_slot h ps y v0 I Ev) as [b [cs [o [-> [Ey [Ly Vy]]]]]]. destruct (scope_slot h ps x I Sx) as [vx [tg [Ex [Lx Vx]]]]. rewrite Vy. cbn [bind]. rewrite Vx. cbn [bind new_address mem state_of]. fold h1.
    pose proof (I1 y _ Ey) as Fy. cbn in Fy. destruct Fy as [Ay [Sh [Rb [Nd [Lt [Mo _]]]]]].
    destruct (copy_ok o b h1 (nx h) cs Sh) as [h2 [o' [Ec [Md [l [El [Ll Hl]]]]]]]; [eapply Forall_impl; [|exact Lt]; cbn; intros; lia|exact Mo|]. rewrite Ec. cbn [bind fst snd]. specialize (Hl Rb).
    pose proof (made_fits h h1 h2 (nx h) o' b cs l ltac:(lia) Md Rb El Ll Hl eq_refl eq_refl) as Fo. cbn [fits] in Fo. destruct Fo as [[No Lo] Ko].
    unfold assign. destruct (take_over h2 o' b cs (o_self tg) l Ko El) as [h' [Eu [E1 [E2 [E3 Kn]]]]]. rewrite Eu. cbn [bind fst snd].
    exists h', (update ps x (Known b cs, Some (at_address (o_self tg) o'))). split; [unfold state_of; rewrite <- (put_update ps h x); reflexivity|]. split; [rewrite map_update; reflexivity|].
    pose proof (fits_addrs h vx tg (I1 x _ Ex)) as [_ At]. rewrite Forall_forall in At. assert (Tg : o_self tg < nx h) by (apply At; rewrite addrs_hd; left; reflexivity).
    assert (X2 : ext h h2) by (eapply ext_trans; [exact X1|apply Md]).
    destruct Md as [Sh' [Se [_ [[Nb Fb] [[_ Fi] _]]]]]. rewrite Forall_forall in Fb, Fi. pose proof (proj1 X2) as L2.
    apply (inv_put h); [exact I|exact Lx| |].
    + cbn [fits]. split; [|exact Kn]. unfold addr_ok. rewrite addrs_at. split.
      * constructor; [|exact Nb]. intros Q. apply Fb in Q. cbn in Q. lia.
      * constructor; [rewrite E2; lia|]. apply Forall_forall. intros i Q. apply Fb in Q. rewrite E2. lia.
    + intros z [v q] Nz Ez. pose proof (I1 z _ Ez) as F. split.
      * apply (fits_heap h2); [apply (fits_ext h); assumption|lia|]. intros b2 cs2 o2 Q. injection Q as -> ->. rewrite E1. split; [reflexivity|]. intros l2 El2. apply E3.
        cbn in F. destruct F as [_ [_ [_ [_ [_ [_ [l3 [El3 [Ll3 _]]]]]]]]]. assert (l3 = l2) by congruence. subst l3. cbn in Ll. lia.
      * pose proof (I2 x z _ _ ltac:(congruence) Ex Ez) as D. unfold apart in *. cbn [fst snd] in *. destruct q as [o2|]; [|exact Logic.I]. destruct D as [D1 _].
        pose proof (fits_addrs h v o2 F) as [_ A2]. rewrite Forall_forall in A2. split.
        -- intros i Q1 Q2. rewrite addrs_at in Q1. destruct Q1 as [<-|Q1]; [apply (D1 (o_self tg)); [rewrite addrs_hd; left; reflexivity|exact Q2]|]. apply Fb in Q1. apply A2 in Q2. cbn in Q1. lia.
        -- intros _ Kv. destruct v as [b2 cs2| |]; cbn in Kv; try contradiction. cbn in F. destruct F as [_ [_ [_ [_ [Lt2 [_ [l3 [El3 [Ll3 _]]]]]]]]]. rewrite Forall_forall in Lt2.
           destruct (shows_moved_address o' b (o_self tg) Sh') as [_ [Ei [Ep _]]]. rewrite Ei, Ep. split.
           ++ intros i Q1 Q2. apply Lt2 in Q2. apply Fi in Q1. cbn in Q1. lia.
           ++ rewrite El, El3. intros Q. injection Q as ->. cbn in Ll. lia.
  - (* MoveAssign *)
    apply bind_some in E. destruct E as [v0 [Ev E]]. destruct (in_scope (map fst ps) x) eqn:Sx; [|discriminate]. injection E as <-.
    destruct (source_slot h ps y v0 I Ev) as [b [cs [o [-> [Ey [Ly Vy]]]]]]. destruct (scope_slot h ps x I Sx) as [vx [tg [Ex [Lx Vx]]]]. rewrite Vy. cbn [bind new_address mem state_of]. fold h1.
    pose proof (I1 y _ Ey) as Fy. pose proof (fits_next h _ Fy) as Fy1. fold h1 in Fy1. cbn in Fy, Fy1. destruct Fy as [[Na La] Ky]. destruct Fy1 as [_ Ky1].
    assert (exists l, o_lp o = Some l) as [l El] by (destruct Ky as [_ [_ [_ [_ [_ [l [El _]]]]]]]; eauto).
    destruct (take_over h1 o b cs (nx h) l Ky1 El) as [h2 [Eu [E1 [E2 [E3 Kn]]]]]. rewrite move_at, Eu. cbn [bind].
    set (ps1 := update ps y (Unspecified, Some (moved o))). assert (P1 : put (state_of ps h) y (Some (moved o)) = map snd ps1) by (unfold ps1; rewrite <- (put_update ps h y); reflexivity). rewrite P1.
    assert (L1 : length ps1 = length ps) by (unfold ps1; apply update_length; exact Ly).
    assert (exists t1, variable (mkState (map snd ps1) h2) x = Some t1 /\ o_self t1 = o_self tg) as [t1 [Vt St]].
    { unfold variable. cbn [vars]. rewrite nth_error_map. unfold ps1. rewrite nth_update by exact Ly. destruct (Nat.eqb_spec x y) as [->|Nxy].
      - cbn [option_map snd bind]. exists (moved o). split; [reflexivity|]. assert (tg = o) by congruence. subst tg. destruct o; reflexivity.
      - rewrite Ex. cbn [option_map snd bind]. exists tg. split; reflexivity. }
    rewrite Vt. cbn [bind]. unfold assign. rewrite St.
    destruct Ky as [Sh Ky']. destruct (shows_moved_address o b (nx h) Sh) as [_ [_ [Ep _]]].
    destruct (take_over h2 (at_address (nx h) o) b cs (o_self tg) l Kn ltac:(congruence)) as [h' [Eu' [E1' [E2' [E3' Kn']]]]]. rewrite Eu'. cbn [bind fst snd].
    assert (Ea : at_address (o_self tg) (at_address (nx h) o) = at_address (o_self tg) o) by (destruct o; reflexivity). rewrite Ea in *.
    exists h', (update ps1 x (Known b cs, Some (at_address (o_self tg) o))). split; [unfold state_of; rewrite <- (put_update ps1 h2 x); reflexivity|]. split; [unfold ps1; rewrite !map_update; reflexivity|].
    assert (N' : nx h' = nx h + 1) by (rewrite E2', E2; reflexivity).
    assert (Oth : forall z v q, z <> y -> nth_error ps z = Some (v, q) -> fits h' (v, q)).
    { intros z v q Nz Ez. pose proof (I1 z _ Ez) as F. apply (fits_heap h); [exact F|lia|]. intros b2 cs2 o2 Q. injection Q as -> ->. rewrite E1', E1. split; [reflexivity|].
      intros l2 El2. assert (Nl : l2 <> l) by (intros ->; destruct (I2 y z _ _ ltac:(congruence) Ey Ez) as [_ D]; destruct (D Logic.I Logic.I) as [_ D2]; congruence). rewrite E3', E3 by exact Nl. reflexivity. }
    rewrite Forall_forall in La. rewrite (addrs_hd o) in Na. inversion Na as [|? ? Ns Nt]; subst.
    assert (So : o_self o < nx h) by (apply La; rewrite addrs_hd; left; reflexivity).
    assert (Fm : fits h' (Unspecified, Some (moved o))) by (cbn; unfold addr_ok; rewrite addrs_moved; split; [constructor; [intros []|constructor]|constructor; [lia|constructor]]).
    pose proof (fits_addrs h vx tg (I1 x _ Ex)) as [_ At]. rewrite Forall_forall in At. assert (Tg : o_self tg < nx h) by (apply At; rewrite addrs_hd; left; reflexivity).
    assert (Tn : ~ In (o_self tg) (tl (addrs o))).
    { intros Q. destruct (Nat.eq_dec x y) as [->|Nxy]; [assert (tg = o) by congruence; subst tg; exact (Ns Q)|]. destruct (I2 x y _ _ Nxy Ex Ey) as [D _]. apply (D (o_self tg)); [rewrite addrs_hd; left; reflexivity|rewrite addrs_hd; right; exact Q]. }
    apply (inv_put h').
    + unfold ps1. apply (inv_put h); [exact I|exact Ly|exact Fm|]. intros z [v q] Nz Ez. split; [apply (Oth z v q Nz Ez)|]. unfold apart. cbn [fst snd]. destruct q as [o2|]; [|exact Logic.I]. split; [|intros []].
      intros i Hi Q. rewrite addrs_moved in Hi. destruct Hi as [<-|[]]. destruct (I2 y z _ _ ltac:(congruence) Ey Ez) as [D _]. apply (D (o_self o)); [rewrite addrs_hd; left; reflexivity|exact Q].
    + rewrite L1. exact Lx.
    + cbn [fits]. split; [|exact Kn']. unfold addr_ok. rewrite addrs_at. split; [constructor; assumption|]. constructor; [lia|]. apply Forall_forall. intros i Q. assert (i < nx h) by (apply La; rewrite addrs_hd; right; exact Q). lia.
    + intros z [v q] Nz Ez. unfold ps1 in Ez. rewrite nth_update in Ez by exact Ly. destruct (Nat.eqb_spec z y) as [->|Nzy].
      * injection Ez as <- <-. split; [exact Fm|]. unfold apart. cbn [fst snd]. split; [|intros _ []]. intros i Q1 Q2. rewrite addrs_moved in Q2. destruct Q2 as [<-|[]]. rewrite addrs_at in Q1.
        destruct Q1 as [Q1|Q1]; [|exact (Ns Q1)]. destruct (I2 x y _ _ ltac:(congruence) Ex Ey) as [D _]. apply (D (o_self o)); [rewrite <- Q1, addrs_hd; left; reflexivity|rewrite addrs_hd; left; reflexivity].
      * split; [apply (Oth z v q Nzy Ez)|]. pose proof (I2 y z _ _ ltac:(congruence) Ey Ez) as D. pose proof (I2 x z _ _ ltac:(congruence) Ex Ez) as D'. unfold apart in *. cbn [fst snd] in *. destruct q as [o2|]; [|exact Logic.I]. destruct D as [D1 D2]. destruct D' as [D1' _]. split.
        -- intros i Q1 Q2. rewrite addrs_at in Q1. destruct Q1 as [<-|Q1]; [apply (D1' (o_self tg)); [rewrite addrs_hd; left; reflexivity|exact Q2]|]. apply (D1 i); [rewrite addrs_hd; right; exact Q1|exact Q2].
        -- destruct (shows_moved_address o b (o_self tg) Sh) as [_ [Ei [Ep' _]]]. rewrite Ei, Ep'. exact D2.
  - (* SetLeaf *)
    apply bind_some in E. destruct E as [v0 [Ev E]]. destruct (source_slot h ps x v0 I Ev) as [b [cs [o [-> [Ex [Lx Vx]]]]]]. destruct (Nat.ltb_spec k (length cs)) as [Lk|Lk]; [|discriminate]. injection E as <-.
    rewrite Vx. cbn [bind mem state_of]. pose proof (I1 x _ Ex) as Fx. cbn in Fx. destruct Fx as [Ax [Sh [Rb [Nd [Lt [Mo [l [El [Ll Hl]]]]]]]]]. rewrite El. cbn [bind]. rewrite Hl. cbn [bind].
    rewrite nth_error_map. pose proof (map_opt_length _ _ _ Mo) as Lc. destruct (leaf_ids_length o b Sh) as [Li Lo].
    destruct (nth_error (leaf_objs o) k) as [bk|] eqn:Ek; [|apply nth_error_None in Ek; lia]. cbn [option_map bind].
    rewrite (deref_ok h ps x _ o bk I Ex (leaf_objs_in o bk (nth_error_In _ _ Ek))). cbn [bind]. destruct (leaf_ids_nth o b k bk Sh Ek) as [lf [Elf Ekl]]. rewrite Elf. cbn [bind].
    assert (exists c0, hl h lf = Some c0) as [c0 Ec0].
    { clear -Mo Ekl. apply nth_error_In in Ekl. revert cs Mo Ekl. generalize (leaf_ids o). induction l as [|i l IH]; intros cs Mo Q; [destruct Q|]. cbn [map_opt] in Mo. apply bind_some in Mo. destruct Mo as [c [Ec Mo]]. apply bind_some in Mo. destruct Mo as [cs' [Ecs _]]. destruct Q as [<-|Q]; [eauto|apply (IH cs' Ecs Q)]. }
    rewrite Ec0. cbn [bind]. set (h' := mkHeap (set_at (hl h) lf c) (hp h) (nx h)). exists h', (update ps x (Known b (update cs k c), Some o)).
    split; [unfold state_of; f_equal; f_equal; rewrite map_update; cbn [snd]|].
    { cbn [vars]. apply nth_error_ext'. intros z. rewrite nth_update by (rewrite map_length; exact Lx). destruct (Nat.eqb_spec z x) as [->|Nz]; [rewrite (nth_error_map snd x ps), Ex; reflexivity|reflexivity]. }
    split; [rewrite map_update; reflexivity|].
    apply (inv_put h); [exact I|exact Lx| |].
    + cbn [fits]. split; [exact Ax|]. split; [exact Sh|]. split; [exact Rb|]. split; [exact Nd|]. split; [exact Lt|]. split; [|exists l; auto].
      cbn [h' hl]. clear -Mo Ekl Nd Lk. revert cs k Mo Ekl Lk. induction (leaf_ids o) as [|i r IH]; intros cs k Mo Ekl Lk; [destruct k; discriminate|]. cbn [map_opt] in *. apply bind_some in Mo. destruct Mo as [c1 [Ec Mo]]. apply bind_some in Mo. destruct Mo as [cs' [Ecs Mo]]. injection Mo as <-.
      inversion Nd as [|? ? Ni Nr]; subst. destruct k as [|k].
      * injection Ekl as ->. unfold set_at at 1. rewrite Nat.eqb_refl. cbn [bind]. rewrite (map_opt_ext_in (set_at (hl h) lf c) (hl h)); [rewrite Ecs; reflexivity|]. intros j Hj. unfold set_at. destruct (Nat.eqb_spec j lf) as [->|_]; [contradiction|reflexivity].
      * cbn in Ekl. unfold set_at at 1. destruct (Nat.eqb_spec i lf) as [->|_]; [exfalso; apply Ni; apply (nth_error_In _ _ Ekl)|]. rewrite Ec. cbn [bind]. cbn in Lk. rewrite (IH Nr cs' k Ecs Ekl ltac:(lia)). reflexivity.
    + intros z [v q] Nz Ez. pose proof (I1 z _ Ez) as F. pose proof (I2 x z _ _ ltac:(congruence) Ex Ez) as D. split.
      * apply (fits_heap h); [exact F|cbn; lia|]. intros b2 cs2 o2 Q. injection Q as -> ->. split; [|reflexivity]. intros i Hi. cbn [h' hl]. unfold set_at. destruct (Nat.eqb_spec i lf) as [->|_]; [|reflexivity].
        exfalso. destruct D as [_ D]. destruct (D Logic.I Logic.I) as [D2 _]. apply (D2 lf); [apply (nth_error_In _ _ Ekl)|exact Hi].
      * exact D.
  - (* Leave *)
    destruct (in_scope (map fst ps) x) eqn:Sx; [|discriminate]. injection E as <-. destruct (scope_slot h ps x I Sx) as [vx [tg [Ex [Lx Vx]]]]. rewrite Vx. cbn [bind].
    exists h, (update ps x (OutOfScope, None)). split; [pose proof (put_update ps h x (OutOfScope, None)) as Pu; cbn [snd] in Pu; unfold state_of in *; cbn [mem]; rewrite Pu; reflexivity|]. split; [rewrite map_update; reflexivity|].
    apply (inv_put h); [exact I|exact Lx|exact Logic.I|]. intros z q Nz Ez. split; [apply (I1 z q Ez)|exact Logic.I].
Qed.

Lemma run_ok : forall prog (h : heap) ps vs', Inv h ps -> meanings_from empty (map fst ps) prog = Some vs' ->
  exists h' ps', run_from empty (state_of ps h) prog = Some (state_of ps' h') /\ map fst ps' = vs' /\ Inv h' ps'.
Proof.
  induction prog as [|p prog IH]; intros h ps vs' I E; cbn [meanings_from run_from] in *; [injection E as <-; eauto|].
  apply bind_some in E. destruct E as [vs1 [E1 E]]. destruct (step_ok h ps p vs1 I E1) as [h1 [ps1 [S1 [<- I1]]]]. rewrite S1. cbn [bind]. apply (IH h1 ps1 vs' I1 E).
Qed.
Lemma start_ok : Inv (mkHeap (fun _ => None) (fun _ => None) 0) [].
Proof. split; [intros [|x] p E; discriminate|intros [|x] y p q _ E; discriminate]. Qed.

(** Every program that uses values only where they are known runs, and afterwards every variable with a known value shows, by
    iterating over its leaves, the blocks of its tree in their order with its own contents. *)
Theorem C72_values : forall prog vs, meanings empty prog = Some vs ->
  exists s, run empty prog = Some s /\ forall x b cs, nth_error vs x = Some (Known b cs) -> length cs = length (leaves b) /\ iterate_leaves s x = Some (views b cs).
Proof.
  intros prog vs E. destruct (run_ok prog _ [] vs start_ok E) as [h [ps [Er [Ev I]]]]. exists (state_of ps h). split; [exact Er|]. intros x b cs Ex. subst vs.
  destruct (source_slot h ps x (Known b cs) I) as [b' [cs' [o [Q [Eo [_ Vx]]]]]]; [unfold source; rewrite Ex; reflexivity|]. injection Q as <- <-.
  pose proof (proj1 I x _ Eo) as F. cbn in F. destruct F as [_ [Sh [_ [_ [_ [Mo [l [El [_ Hl]]]]]]]]]. pose proof (map_opt_length _ _ _ Mo) as Lc. destruct (leaf_ids_length o b Sh) as [Li Lo].
  split; [lia|]. unfold iterate_leaves. rewrite Vx. cbn [bind]. rewrite El. cbn [bind mem state_of]. rewrite Hl. cbn [bind]. unfold views.
  assert (Dr : forall y, In y (leaf_objs o) -> deref (state_of ps h) (o_self y) = Some y) by (intros y Hy; apply (deref_ok h ps x _ o y I Eo (leaf_objs_in o y Hy))).
  pose proof (leaves_shown o b Sh) as F2. revert cs Mo Dr Ex Eo Lc. unfold leaf_ids. clear -F2. intros cs Mo Dr _ _ _. revert cs Mo. induction F2 as [|y z r r' Hyz F2 IH]; intros cs Mo; [destruct cs; reflexivity|].
  destruct Hyz as [a [c1 [c2 [cc [l0 [lp [r0 [c [sr [sc [sons [bs [Ey ->]]]]]]]]]]]]]. cbn [flat_map map map_opt] in *. unfold leaf_view at 1. rewrite (Dr y) by (left; reflexivity). rewrite Ey in Mo. cbn in Mo. apply bind_some in Mo. destruct Mo as [c0 [Ec Mo]]. apply bind_some in Mo. destruct Mo as [cs' [Ecs Mo]]. injection Mo as <-.
  rewrite Ey. cbn [bind mem state_of]. rewrite Ec. cbn [bind]. rewrite (IH ltac:(intros; apply Dr; right; assumption) cs' Ecs). reflexivity.
Qed.
(** In particular an assignment leaves both variables with equal and independent contents: changing a leaf of one of them does not
    change the other one. *)
Theorem C72_independent : forall prog vs x y b cs k c, meanings empty prog = Some vs -> nth_error vs y = Some (Known b cs) -> in_scope vs x = true -> x <> y -> k < length cs ->
  exists s, run empty (prog ++ [Assign x y; SetLeaf x k c]) = Some s /\ iterate_leaves s y = Some (views b cs) /\ iterate_leaves s x = Some (views b (update cs k c)).
Proof.
  intros prog vs x y b cs k c E Ey Sx Nxy Lk.
  assert (Lx : x < length vs) by (unfold in_scope in Sx; destruct (nth_error vs x) eqn:Q; [apply nth_error_Some; congruence|discriminate]).
  set (vs2 := update (update vs x (Known b cs)) x (Known b (update cs k c))).
  assert (E2 : meanings empty (prog ++ [Assign x y; SetLeaf x k c]) = Some vs2).
  { unfold meanings in *. assert (G : forall l ws vs0 vs1, meanings_from empty vs0 l = Some vs1 -> meanings_from empty vs0 (l ++ ws) = meanings_from empty vs1 ws).
    { induction l as [|p l IH]; intros ws vs0 vs1 Q; cbn in *; [injection Q as <-; reflexivity|]. apply bind_some in Q. destruct Q as [v [-> Q]]. cbn [bind]. apply IH. exact Q. }
    rewrite (G prog _ [] vs E). cbn [meanings_from meaning]. unfold source at 1. rewrite Ey. cbn [bind]. rewrite Sx. cbn [bind]. unfold source. rewrite nth_update by exact Lx. rewrite Nat.eqb_refl. cbn [bind].
    destruct (Nat.ltb_spec k (length cs)); [reflexivity|lia]. }
  destruct (C72_values _ _ E2) as [s [Er V]]. exists s. split; [exact Er|]. assert (Lx2 : x < length (update vs x (Known b cs))) by (rewrite update_length by exact Lx; exact Lx).
  split; [apply (V y b cs)|apply (V x b (update cs k c))]; unfold vs2; rewrite nth_update by exact Lx2.
  - destruct (Nat.eqb_spec y x); [congruence|]. rewrite nth_update by exact Lx. destruct (Nat.eqb_spec y x); [congruence|exact Ey].
  - rewrite Nat.eqb_refl. reflexivity.
Qed.
(** What init_H2Matrix does: a tree is assigned to every component of the operator and goes out of scope; every component has its
    own leaves. *)
Theorem C72_components : forall t near mincl b n, block_tree t near mincl = Some b ->
  exists s, run empty (repeat Default n ++ [Build t near mincl] ++ map (fun x => Assign x n) (seq 0 n) ++ [Leave n]) = Some s /\
    forall x, x < n -> iterate_leaves s x = Some (views b (repeat empty (length (leaves b)))).
Proof.
  intros t near mincl b n Eb. set (v := Known b (repeat empty (length (leaves b)))).
  assert (G : forall l ws vs0 vs1, meanings_from empty vs0 l = Some vs1 -> meanings_from empty vs0 (l ++ ws) = meanings_from empty vs1 ws).
  { induction l as [|p l IH]; intros ws vs0 vs1 Q; cbn in *; [injection Q as <-; reflexivity|]. apply bind_some in Q. destruct Q as [w [-> Q]]. cbn [bind]. apply IH. exact Q. }
  assert (D : forall m vs0, meanings_from empty vs0 (repeat Default m) = Some (vs0 ++ repeat Unspecified m)).
  { induction m as [|m IH]; intros vs0; cbn; [rewrite app_nil_r; reflexivity|]. rewrite IH, <- app_assoc. reflexivity. }
  assert (A : forall m k, k + m = n -> meanings_from empty (repeat v k ++ repeat Unspecified m ++ [v]) (map (fun x => Assign x n) (seq k m)) = Some (repeat v n ++ [v])).
  { induction m as [|m IH]; intros k Hk; cbn [seq map meanings_from]; [replace k with n by lia; reflexivity|]. cbn [meaning]. unfold source.
    rewrite nth_error_app2 by (rewrite repeat_length; lia). rewrite nth_error_app2 by (rewrite !repeat_length; lia). rewrite !repeat_length. replace (n - k - S m) with 0 by lia. cbn [nth_error]. unfold v at 3. fold v. cbn [bind].
    assert (Sc : in_scope (repeat v k ++ repeat Unspecified (S m) ++ [v]) k = true) by (unfold in_scope; rewrite nth_error_app2 by (rewrite repeat_length; lia); rewrite repeat_length, Nat.sub_diag; reflexivity). rewrite Sc.
    cbn [bind]. rewrite <- (IH (k + 1) ltac:(lia)). rewrite (Nat.add_1_r k) at 2. f_equal. unfold update. rewrite firstn_app, repeat_length, Nat.sub_diag. cbn [firstn]. rewrite app_nil_r, firstn_all2 by (rewrite repeat_length; lia).
    rewrite skipn_app, repeat_length, skipn_all2 by (rewrite repeat_length; lia). replace (k + 1 - k) with 1 by lia. cbn [skipn app]. rewrite repeat_app. cbn. rewrite <- app_assoc. reflexivity. }
  assert (E : meanings empty (repeat Default n ++ [Build t near mincl] ++ map (fun x => Assign x n) (seq 0 n) ++ [Leave n]) = Some (update (repeat v n ++ [v]) n OutOfScope)).
  { unfold meanings. rewrite (G _ _ [] _ (D n [])). cbn [app meanings_from meaning]. rewrite Eb. cbn [bind]. rewrite (G _ _ _ _ (A n 0 eq_refl)). cbn [meanings_from meaning]. unfold in_scope. rewrite nth_error_app2 by (rewrite repeat_length; lia). rewrite repeat_length, Nat.sub_diag. reflexivity. }
  destruct (C72_values _ _ E) as [s [Er V]]. exists s. split; [exact Er|]. intros x Hx. apply (V x b). rewrite nth_update by (rewrite app_length, repeat_length; cbn; lia). destruct (Nat.eqb_spec x n); [lia|].
  rewrite nth_error_app1 by (rewrite repeat_length; exact Hx). apply nth_error_repeat. exact Hx.
Qed.

(** Default constructed and moved-from trees can be assigned to and destroyed, but copying them is undefined: the first ones have
    no cluster (null pointer), the second ones keep the number of their sons without having them. *)
Theorem C72_copy_default_refuted : run empty [Default; Copy 0] = None /\ run empty [Default; Move 0] = None.
Proof. split; reflexivity. Qed.
End History.
Theorem C72_copy_moved_refuted : forall (C : Type) (empty : C) t near mincl b, block_tree t near mincl = Some b -> (exists c1 c2 r c s l, b = BT Refine c1 c2 r c (s :: l)) ->
  run empty [Build t near mincl; Move 0; Copy 0] = None.
Proof.
  intros C empty t near mincl b Eb [c1 [c2 [r [c [s [l ->]]]]]]. unfold run. cbn [run_from step mem]. rewrite Eb. cbn [bind new_address].
  destruct (append_sized _ _ _ _ _ _ _ _ _ Eb) as [Sz [R1 R2]]. cbn in R1, R2. subst c1 c2. pose proof Sz as Sz0. cbn [sized] in Sz0. destruct Sz0 as [Le _].
  set (h1 := mkHeap _ _ _). destruct (init_ok empty t _ h1 0 Sz (conj eq_refl eq_refl)) as [h2 [o [E1 [[Sh [Se _]] [lp [Elp [_ Hlp]]]]]]]. specialize (Hlp (conj eq_refl eq_refl)). cbn [nx] in *. rewrite E1. cbn [bind fst snd declare vars mem app].
  inversion Sh as [a d1 d2 lp0 r0 c0 sr sc sons bs Ls Fs E2 E3|]; subst; try congruence.
  cbn [o_lp] in Elp. subst lp0. unfold declare, variable, put. cbn [nth_error vars bind mem app firstn skipn Nat.add]. cbn [new_address move bind].
  set (h3 := mkHeap (hl h2) (hp h2) (nx h2 + 1)).
  assert (Sh3 : shows (Bct (nx h2) (Some []) (Some []) (Some Refine) None (Some lp) r c sr sc sons) (BT Refine [] [] r c (s :: l))) by (inversion Sh; subst; constructor; assumption).
  destruct (update_ok h3 _ _ lp _ Sh3 eq_refl Hlp) as [h4 [E4 [_ [_ [_ _]]]]]. 
  match goal with |- context [update_lp ?x ?y] => change (update_lp x y) with (update_lp h3 (Bct (nx h2) (Some []) (Some []) (Some Refine) None (Some lp) r c sr sc sons)) end.
  match goal with |- context [update_lp ?x ?y] => replace (update_lp x y) with (Some h4) by (symmetry; exact E4) end. cbn [bind moved vars mem firstn skipn app Nat.add nth_error]. cbn [nth_error vars bind]. cbn [copy each_son bind fst snd new_lp new_address].
  unfold update_lp. cbn [bind hp]. unfold set_at at 1. rewrite Nat.eqb_refl. cbn [bind]. cbn [pushed map]. unfold concat_at. rewrite indices_seq, <- Ls. rewrite (forall2_length _ _ _ Fs). cbn [length seq map_opt nth_error bind]. reflexivity.
Qed.
(** Copies of a block inside of a tree (its clusters are not both the root) do not know their leaves: their list is empty. *)
Theorem C72_copy_of_a_block_refuted : forall (C : Type) (h : heap (C := C)) a o b cs, shows o b -> ~ root_block b -> Forall (fun i => i < nx h) (leaf_ids o) -> map_opt (hl h) (leaf_ids o) = Some cs ->
  exists h' o' l, copy h a o = Some (h', o') /\ o_lp o' = Some l /\ hp h' l = Some [].
Proof.
  intros C h a o b cs Sh Nr Lt Mo. destruct (copy_ok o b h a cs Sh Lt Mo) as [h' [o' [E [[Sh' _] _]]]]. exists h', o'. pose proof E as E0. destruct o as [a0 c1 c2 cc lf lp r c sr sc sons]. cbn [copy] in E.
  apply bind_some in E. destruct E as [[h1 sons'] [_ E]]. apply bind_some in E. destruct E as [[lf' h2] [_ E]]. cbn [new_lp fst snd] in E. set (o2 := Bct a c1 c2 cc lf' (Some (nx h2)) r c sr sc sons') in *. apply bind_some in E. destruct E as [h4 [Eu E]]. injection E as <- <-.
  exists (nx h2). split; [exact E0|]. split; [reflexivity|]. unfold update_lp, o2 in Eu. inversion Sh' as [a1 d1 d2 lp0 r0 c0 sr0 sc0 sons0 bs Le F E2 E3|a1 d1 d2 cc0 l0 lp0 r0 c0 sr0 sc0 Nc E2 E3]; subst; cbn [bind] in Eu; unfold root_block in Nr; cbn [b_c1 b_c2] in Nr;
    (destruct d1 as [|x d1]; [destruct d2 as [|y d2]; [exfalso; apply Nr; split; reflexivity|]|]); injection Eu as <-; cbn [hp]; unfold set_at; rewrite Nat.eqb_refl; reflexivity.
Qed.

(** ** examples *)

Definition strip_tree := match init_tree Nat.eqb strip 1 with Some t => t | None => mkTree (fun _ => None) None None 0 0 0 0 end.
(** contents are numbers here; nine leaves on a strip of three squares; x0 is built, x1 default constructed, x1 = x0, leaf 2 of x1
    is changed, x2 is a copy of x1, leaf 2 of x0 is changed, x0 is moved to x3 and assigned to from x2, x1 goes out of scope *)
Definition a_program : list (op (C := nat)) :=
  [Build strip_tree strip_near 1%Z; Default; Assign 1 0; SetLeaf 1 2 7; Copy 1; SetLeaf 0 2 5; Move 0; Assign 0 2; Leave 1].
Example a_program_meaning : exists b, block_tree strip_tree strip_near 1%Z = Some b /\
  meanings 0 a_program = Some [Known b [0; 0; 7; 0; 0; 0; 0; 0; 0]; OutOfScope; Known b [0; 0; 7; 0; 0; 0; 0; 0; 0]; Known b [0; 0; 5; 0; 0; 0; 0; 0; 0]].
Proof. eexists. split; vm_compute; reflexivity. Qed.
Example a_program_run : exists s, run 0 a_program = Some s /\
  option_map (map (fun v => snd v)) (iterate_leaves s 0) = Some [0; 0; 7; 0; 0; 0; 0; 0; 0] /\
  iterate_leaves s 1 = None /\
  option_map (map (fun v => snd v)) (iterate_leaves s 3) = Some [0; 0; 5; 0; 0; 0; 0; 0; 0].
Proof. eexists. split; [vm_compute; reflexivity|]. repeat split; vm_compute; reflexivity. Qed.
Example strip_refined : exists b, block_tree strip_tree strip_near 1%Z = Some b /\ exists c1 c2 r c s l, b = BT Refine c1 c2 r c (s :: l).
Proof. eexists. split; [vm_compute; reflexivity|]. do 6 eexists. reflexivity. Qed.
Example a_block : shows (Bct 3 (Some [0]) (Some [1]) (Some Dense) (Some 0) None 4 4 0 0 []) (BT Dense [0] [1] 4 4 []) /\ ~ root_block (BT Dense [0] [1] 4 4 []) /\
  map_opt (fun i => if i =? 0 then Some 9 else None) [0] = Some [9].
Proof. split; [constructor; discriminate|]. split; [intros [Q _]; discriminate|reflexivity]. Qed.

(* BEGIN ASSUMPTIONS *)
Print Assumptions C72_values.
Print Assumptions C72_independent.
Print Assumptions C72_components.
Print Assumptions C72_copy_default_refuted.
Print Assumptions C72_copy_moved_refuted.
Print Assumptions C72_copy_of_a_block_refuted.
