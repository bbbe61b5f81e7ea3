(** Proofs about copies and moves of block cluster trees: representation of values in memory. *)
From Coq Require Import List Arith Lia Bool.
From Verif Require Import ModelBase ModelTree ModelBlock ModelBctCopy SpecBctCopy.
Import ListNotations.
Local Open Scope nat_scope.

Lemma bct_induction : forall P : bct -> Prop,
  (forall a c1 c2 cc lf lp r c sr sc sons, Forall P sons -> P (Bct a c1 c2 cc lf lp r c sr sc sons)) -> forall o, P o.
Proof.
  intros P H. fix IH 1. intros [a c1 c2 cc lf lp r c sr sc sons]. apply H.
  revert sons. fix IHl 1. intros [|o l]; constructor; [apply IH|apply IHl].
Qed.
Lemma btree_induction : forall P : btree -> Prop, (forall cc c1 c2 r c sons, Forall P sons -> P (BT cc c1 c2 r c sons)) -> forall b, P b.
Proof. intros P H. fix IH 1. intros [cc c1 c2 r c sons]. apply H. revert sons. fix IHl 1. intros [|o l]; constructor; [apply IH|apply IHl]. Qed.

(** ** lists *)
Lemma map_opt_app : forall {A B} (f : A -> option B) l1 l2 r, map_opt f (l1 ++ l2) = Some r <-> exists r1 r2, map_opt f l1 = Some r1 /\ map_opt f l2 = Some r2 /\ r = r1 ++ r2.
Proof.
  intros A B f. induction l1 as [|a l1 IH]; intros l2 r; cbn [app map_opt].
  - split; [intros E; exists [], r; auto|]. intros [r1 [r2 [E1 [E2 ->]]]]. injection E1 as <-. exact E2.
  - rewrite bind_some. split.
    + intros [b [Eb E]]. apply bind_some in E. destruct E as [r' [E' E]]. injection E as <-. apply IH in E'. destruct E' as [r1 [r2 [E1 [E2 ->]]]].
      exists (b :: r1), r2. rewrite Eb. cbn [bind]. rewrite E1. auto.
    + intros [r1 [r2 [E1 [E2 ->]]]]. apply bind_some in E1. destruct E1 as [b [Eb E1]]. apply bind_some in E1. destruct E1 as [r' [E1 E]]. injection E as <-.
      exists b. split; [exact Eb|]. apply bind_some. exists (r' ++ r2). split; [apply IH; eauto|reflexivity].
Qed.
Lemma map_opt_ext_in : forall {A B} (f g : A -> option B) l, (forall a, In a l -> f a = g a) -> map_opt f l = map_opt g l.
Proof. intros A B f g. induction l as [|a l IH]; intros H; [reflexivity|]. cbn [map_opt]. rewrite (H a) by (left; reflexivity). rewrite IH by (intros; apply H; right; assumption). reflexivity. Qed.
Lemma map_opt_length : forall {A B} (f : A -> option B) l r, map_opt f l = Some r -> length r = length l.
Proof. intros A B f. induction l as [|a l IH]; intros r E; cbn [map_opt] in E; [injection E as <-; reflexivity|]. apply bind_some in E. destruct E as [b [_ E]]. apply bind_some in E. destruct E as [r' [E1 E]]. injection E as <-. cbn. rewrite (IH r' E1). reflexivity. Qed.
Lemma update_length : forall {A} (l : list A) x v, x < length l -> length (update l x v) = length l.
Proof. intros A l x v H. unfold update. rewrite app_length, firstn_length. cbn. rewrite skipn_length. lia. Qed.
Lemma nth_update : forall {A} (l : list A) x v z, x < length l -> nth_error (update l x v) z = if z =? x then Some v else nth_error l z.
Proof.
  intros A l. induction l as [|a l IH]; intros x v z H; [cbn in H; lia|]. destruct x as [|x], z as [|z]; cbn; try reflexivity.
  cbn in H. specialize (IH x v z ltac:(lia)). unfold update in IH. rewrite IH. reflexivity.
Qed.
Lemma map_update : forall {A B} (f : A -> B) l x v, map f (update l x v) = update (map f l) x (f v).
Proof. intros A B f l x v. unfold update. rewrite map_app, firstn_map. cbn. rewrite skipn_map. reflexivity. Qed.
Lemma indices_seq : forall sr sc, son_indices sr sc = seq 0 (sr * sc).
Proof.
  intros sr sc. unfold son_indices. induction sc as [|sc IH]; [rewrite Nat.mul_0_r; reflexivity|]. rewrite seq_S, flat_map_app, IH. cbn [flat_map]. rewrite app_nil_r.
  replace (sr * S sc) with (sr * sc + sr) by lia. rewrite seq_app. f_equal. cbn [Nat.add]. rewrite (Nat.mul_comm sc sr). generalize (sr * sc). clear. intros m.
  assert (G : forall n k, map (fun i => m + i) (seq k n) = seq (m + k) n) by (induction n as [|n IHn]; intros k; [reflexivity|]; cbn [seq map]; f_equal; rewrite IHn; f_equal; lia). rewrite G. f_equal. lia.
Qed.
Lemma nth_all : forall {A} (l : list A) d, map_opt (fun k => nth_error l (d + k)) (seq 0 (length l - d)) = Some (skipn d l).
Proof.
  intros A l. induction l as [|a l IH]; intros d; [destruct d; reflexivity|]. destruct d as [|d].
  - cbn [length Nat.sub Nat.add seq map_opt nth_error bind skipn]. specialize (IH 0). rewrite Nat.sub_0_r in IH. cbn [skipn Nat.add] in IH.
    assert (E : map_opt (fun k => nth_error (a :: l) k) (seq 1 (length l)) = Some l).
    { rewrite <- seq_shift. rewrite <- IH. generalize (seq 0 (length l)). induction l0 as [|k r IHr]; [reflexivity|]. cbn [map map_opt]. rewrite IHr. reflexivity. }
    change (fun k => nth_error (a :: l) k) with (nth_error (a :: l)) in *. rewrite E. reflexivity.
  - cbn [length Nat.sub skipn]. rewrite <- (IH d). apply map_opt_ext_in. intros k _. reflexivity.
Qed.
Lemma Forall_flat : forall {A B} (P : B -> Prop) (f : A -> list B) l, (forall a, In a l -> Forall P (f a)) -> Forall P (flat_map f l).
Proof. intros A B P f l H. apply Forall_forall. intros b Hb. apply in_flat_map in Hb. destruct Hb as [a [Ha Hb]]. apply (proj1 (Forall_forall P (f a)) (H a Ha) b Hb). Qed.
Lemma flat_map_flat : forall {A B D} (f : B -> list D) (g : A -> list B) l, flat_map f (flat_map g l) = flat_map (fun a => flat_map f (g a)) l.
Proof. intros A B D f g. induction l as [|a l IH]; [reflexivity|]. cbn. rewrite flat_map_app, IH. reflexivity. Qed.
Lemma NoDup_app_intro : forall {A} (l1 l2 : list A), NoDup l1 -> NoDup l2 -> (forall x, In x l1 -> ~ In x l2) -> NoDup (l1 ++ l2).
Proof. intros A. induction l1 as [|a l1 IH]; intros l2 N1 N2 D; [exact N2|]. inversion N1 as [|? ? Na N1']; subst. cbn. constructor; [rewrite in_app_iff; intros [X|X]; [exact (Na X)|exact (D a ltac:(left; reflexivity) X)]|apply IH; auto; intros x X; apply D; right; exact X]. Qed.
Lemma NoDup_map_inj : forall {A B} (f : A -> B) l x y, NoDup (map f l) -> In x l -> In y l -> f x = f y -> x = y.
Proof.
  intros A B f. induction l as [|a l IH]; intros x y N Ix Iy E; [destruct Ix|]. cbn in N. inversion N as [|? ? Na N']; subst.
  destruct Ix as [->|Ix], Iy as [->|Iy]; [reflexivity|exfalso; apply Na; rewrite E; apply in_map; exact Iy|exfalso; apply Na; rewrite <- E; apply in_map; exact Ix|apply IH; assumption].
Qed.

Lemma forall2_length : forall {A B} (R : A -> B -> Prop) l l', Forall2 R l l' -> length l = length l'.
Proof. intros A B R l l' F. induction F; cbn; congruence. Qed.
(** ** objects that represent a tree *)
Inductive shows : bct -> btree -> Prop :=
| sh_node : forall a c1 c2 lp r c sr sc sons bs, length sons = sr * sc -> Forall2 shows sons bs ->
    shows (Bct a (Some c1) (Some c2) (Some Refine) None lp r c sr sc sons) (BT Refine c1 c2 r c bs)
| sh_leaf : forall a c1 c2 cc l lp r c sr sc, cc <> Refine -> shows (Bct a (Some c1) (Some c2) (Some cc) (Some l) lp r c sr sc []) (BT cc c1 c2 r c []).
Fixpoint leaf_objs (o : bct) : list bct :=
  match o with Bct _ _ _ cc _ _ _ _ _ _ sons => match cc with Some Refine => flat_map leaf_objs sons | _ => [o] end end.
Definition ids_of (b : bct) : list nat := match o_leaf b with Some l => [l] | None => [] end.
Definition leaf_ids (o : bct) : list nat := flat_map ids_of (leaf_objs o).
Definition addrs (o : bct) : list nat := map o_self (objects o).
Definition list_addrs (l : list bct) : list nat := flat_map addrs l.

Lemma leaf_ids_node : forall a c1 c2 lf lp r c sr sc sons, leaf_ids (Bct a c1 c2 (Some Refine) lf lp r c sr sc sons) = flat_map leaf_ids sons.
Proof. intros. unfold leaf_ids. cbn [leaf_objs]. apply flat_map_flat. Qed.
Lemma addrs_node : forall a c1 c2 cc lf lp r c sr sc sons, addrs (Bct a c1 c2 cc lf lp r c sr sc sons) = a :: list_addrs sons.
Proof.
  intros. unfold addrs, list_addrs. cbn [objects map o_self]. f_equal. induction sons as [|o l IH]; [reflexivity|]. cbn [flat_map]. rewrite map_app, IH. reflexivity.
Qed.
Lemma leaf_objs_in : forall o b, In b (leaf_objs o) -> In b (objects o).
Proof.
  induction o as [a c1 c2 cc lf lp r c sr sc sons IH] using bct_induction. intros b H. cbn [leaf_objs objects] in *. rewrite Forall_forall in IH.
  destruct cc as [[]|]; try (destruct H as [<-|[]]; left; reflexivity). right. apply in_flat_map in H. destruct H as [o [Ho H]]. apply in_flat_map. exists o. split; [exact Ho|apply IH; assumption].
Qed.
Lemma pushed_ok : forall o b, shows o b -> pushed o = Some (map o_self (leaf_objs o)).
Proof.
  induction o as [a c1 c2 cc lf lp r c sr sc sons IH] using bct_induction. intros b Sh. cbn [pushed leaf_objs].
  inversion Sh as [a0 d1 d2 lp0 r0 c0 sr0 sc0 sons0 bs Le F|a0 d1 d2 cc0 l0 lp0 r0 c0 sr0 sc0 Nc]; subst.
  - assert (E : forall k, nth_error (map pushed sons) k = option_map (fun o => Some (map o_self (leaf_objs o))) (nth_error sons k)).
    { intros k. rewrite nth_error_map. destruct (nth_error sons k) as [o|] eqn:Eo; [|reflexivity]. cbn. f_equal. rewrite Forall_forall in IH.
      assert (exists b, In b bs /\ shows o b) as [b' [_ Sb]].
      { clear -F Eo. revert k Eo. induction F as [|x y l l' Hxy F IHF]; intros k Eo; [destruct k; discriminate|]. destruct k as [|k]; [injection Eo as <-; exists y; split; [left; reflexivity|exact Hxy]|]. destruct (IHF k Eo) as [b' [Ib Sb]]. exists b'. split; [right; exact Ib|exact Sb]. }
      apply (IH o (nth_error_In _ _ Eo) b' Sb). }
    unfold concat_at. rewrite indices_seq, <- Le.
    assert (M : map_opt (fun k => x <- nth_error (map pushed sons) k ;; x) (seq 0 (length sons)) = Some (map (fun o => map o_self (leaf_objs o)) sons)).
    { pose proof (nth_all (map (fun o => map o_self (leaf_objs o)) sons) 0) as A. rewrite Nat.sub_0_r, map_length in A. cbn [skipn Nat.add] in A. rewrite <- A.
      apply map_opt_ext_in. intros k _. rewrite E, nth_error_map. destruct (nth_error sons k); reflexivity. }
    rewrite M. cbn [bind]. f_equal. clear. induction sons as [|o l IHl]; [reflexivity|]. cbn [map concat flat_map]. rewrite map_app, IHl. reflexivity.
  - destruct cc0; [congruence|reflexivity|reflexivity].
Qed.
(** the blocks of the leaves, in order *)
Definition leaf_shows (o : bct) (b : btree) : Prop :=
  exists a c1 c2 cc l lp r c sr sc sons bs, o = Bct a (Some c1) (Some c2) (Some cc) (Some l) lp r c sr sc sons /\ b = BT cc c1 c2 r c bs.
Lemma leaves_shown : forall o b, shows o b -> Forall2 leaf_shows (leaf_objs o) (leaves b).
Proof.
  induction o as [a c1 c2 cc lf lp r c sr sc sons IH] using bct_induction. intros b Sh. cbn [leaf_objs].
  inversion Sh as [a0 d1 d2 lp0 r0 c0 sr0 sc0 sons0 bs Le F|a0 d1 d2 cc0 l0 lp0 r0 c0 sr0 sc0 Nc]; subst.
  - cbn [leaves]. clear Sh Le. induction F as [|x y l l' Hxy F IHF]; [constructor|]. inversion IH as [|? ? I1 I2]; subst. cbn [flat_map]. apply Forall2_app; [apply I1; exact Hxy|apply IHF; exact I2].
  - assert (L : leaves (BT cc0 d1 d2 r c []) = [BT cc0 d1 d2 r c []]) by (destruct cc0; [congruence|reflexivity|reflexivity]). rewrite L.
    replace (match cc0 with Refine => _ | _ => _ end) with [Bct a (Some d1) (Some d2) (Some cc0) (Some l0) lp r c sr sc []] by (destruct cc0; [congruence|reflexivity|reflexivity]).
    constructor; [|constructor]. do 12 eexists. split; reflexivity.
Qed.
Lemma leaf_ids_length : forall o b, shows o b -> length (leaf_ids o) = length (leaves b) /\ length (leaf_objs o) = length (leaves b).
Proof.
  intros o b Sh. pose proof (leaves_shown o b Sh) as F. unfold leaf_ids. generalize dependent (leaves b). generalize (leaf_objs o). clear. intros l l' F.
  induction F as [|x y l l' Hxy F [I1 I2]]; [split; reflexivity|]. destruct Hxy as [a [c1 [c2 [cc [l0 [lp [r [c [sr [sc [sons [bs [-> ->]]]]]]]]]]]]]. cbn. rewrite I1, I2. split; reflexivity.
Qed.
Lemma leaf_ids_nth : forall o b k x, shows o b -> nth_error (leaf_objs o) k = Some x -> exists l, o_leaf x = Some l /\ nth_error (leaf_ids o) k = Some l.
Proof.
  intros o b k x Sh. pose proof (leaves_shown o b Sh) as F. unfold leaf_ids. generalize dependent (leaves b). generalize (leaf_objs o). clear. intros l l' F.
  revert k. induction F as [|y z l l' Hyz F IH]; intros k E; [destruct k; discriminate|]. destruct Hyz as [a [c1 [c2 [cc [l0 [lp [r [c [sr [sc [sons [bs [-> ->]]]]]]]]]]]]].
  destruct k as [|k]; [injection E as <-; exists l0; split; reflexivity|]. cbn in E. cbn. apply IH. exact E.
Qed.
Lemma shows_moved_address : forall o b a, shows o b -> shows (at_address a o) b /\ leaf_ids (at_address a o) = leaf_ids o /\ o_lp (at_address a o) = o_lp o /\ o_self (at_address a o) = a.
Proof.
  intros o b a Sh. inversion Sh as [a0 d1 d2 lp0 r0 c0 sr0 sc0 sons0 bs Le F|a0 d1 d2 cc0 l0 lp0 r0 c0 sr0 sc0 Nc]; subst; cbn [at_address].
  - split; [constructor; assumption|]. rewrite !leaf_ids_node. auto.
  - split; [constructor; assumption|]. unfold leaf_ids. cbn [leaf_objs]. split; [destruct cc0; [congruence|reflexivity|reflexivity]|auto].
Qed.

Section Heap.
Context {C : Type}.
Definition ext (h h' : heap (C := C)) : Prop := nx h <= nx h' /\ forall i, i < nx h -> hl h' i = hl h i /\ hp h' i = hp h i.
Lemma ext_refl : forall h, ext h h. Proof. intros h. split; auto. Qed.
Lemma ext_trans : forall h1 h2 h3, ext h1 h2 -> ext h2 h3 -> ext h1 h3.
Proof. intros h1 h2 h3 [N1 E1] [N2 E2]. split; [lia|]. intros i Hi. destruct (E1 i Hi) as [-> ->] || idtac. destruct (E2 i ltac:(lia)) as [A B]. destruct (E1 i Hi) as [A' B']. rewrite A, B, A', B'. auto. Qed.
Definition root_block (b : btree) : Prop := b_c1 b = [] /\ b_c2 b = [].

Lemma update_ok : forall (h : heap (C := C)) o b l w, shows o b -> o_lp o = Some l -> hp h l = Some w ->
  exists h', update_lp h o = Some h' /\ hl h' = hl h /\ nx h' = nx h /\ (forall i, i <> l -> hp h' i = hp h i) /\ (root_block b -> hp h' l = Some (map o_self (leaf_objs o))).
Proof.
  intros h o b l w Sh El Ew. pose proof (pushed_ok o b Sh) as Pu.
  assert (Ec : exists a cc lf r c sr sc sons, o = Bct a (Some (b_c1 b)) (Some (b_c2 b)) cc lf (Some l) r c sr sc sons).
  { destruct o as [a c1 c2 cc lf lp r c sr sc sons]. cbn in El. subst lp. inversion Sh; subst; do 8 eexists; reflexivity. }
  destruct Ec as [a [cc [lf [r [c [sr [sc [sons Eo]]]]]]]]. unfold update_lp. rewrite Eo. cbn [bind]. rewrite <- Eo. unfold root_block.
  destruct (b_c1 b) as [|x c1]; [destruct (b_c2 b) as [|y c2]|].
  - rewrite Ew. cbn [bind]. rewrite Pu. cbn [bind]. eexists. split; [reflexivity|]. cbn [hl hp nx]. split; [reflexivity|]. split; [reflexivity|]. unfold set_at. split.
    + intros i Hi. apply Nat.eqb_neq in Hi. rewrite Hi. reflexivity.
    + intros _. rewrite Nat.eqb_refl. reflexivity.
  - exists h. do 3 (split; [reflexivity|]). split; [reflexivity|]. intros [_ Q]. discriminate.
  - exists h. do 3 (split; [reflexivity|]). split; [reflexivity|]. intros [Q _]. discriminate.
Qed.

Definition between (lo hi : nat) (l : list nat) : Prop := NoDup l /\ Forall (fun i => lo <= i < hi) l.
Lemma between_app : forall lo mid hi l1 l2, lo <= mid -> mid <= hi -> between lo mid l1 -> between mid hi l2 -> between lo hi (l1 ++ l2).
Proof.
  intros lo mid hi l1 l2 H1 H2 [N1 F1] [N2 F2]. rewrite Forall_forall in F1, F2. split.
  - apply NoDup_app_intro; auto. intros x X1 X2. apply F1 in X1. apply F2 in X2. lia.
  - apply Forall_forall. intros x X. apply in_app_iff in X. destruct X as [X|X]; [apply F1 in X|apply F2 in X]; lia.
Qed.
Lemma between_wide : forall lo hi lo' hi' l, lo' <= lo -> hi <= hi' -> between lo hi l -> between lo' hi' l.
Proof. intros lo hi lo' hi' l H1 H2 [N F]. split; [exact N|]. eapply Forall_impl; [|exact F]. cbn. intros; lia. Qed.
Lemma between_nil : forall lo hi, between lo hi []. Proof. split; constructor. Qed.

(** what a newly constructed object at the address a satisfies *)
Definition made (h h' : heap (C := C)) (a : nat) (o : bct) (b : btree) (cs : list C) : Prop :=
  shows o b /\ o_self o = a /\ ext h h' /\ between (nx h) (nx h') (tl (addrs o)) /\ between (nx h) (nx h') (leaf_ids o) /\ map_opt (hl h') (leaf_ids o) = Some cs.
Definition made_list (h h' : heap (C := C)) (l : list bct) (bs : list btree) (cs : list C) : Prop :=
  Forall2 shows l bs /\ ext h h' /\ between (nx h) (nx h') (list_addrs l) /\ between (nx h) (nx h') (flat_map leaf_ids l) /\ map_opt (hl h') (flat_map leaf_ids l) = Some cs.
Lemma addrs_hd : forall o, addrs o = o_self o :: tl (addrs o).
Proof. intros [a c1 c2 cc lf lp r c sr sc sons]. rewrite addrs_node. reflexivity. Qed.
Lemma made_cons : forall h h1 h2 h3 o b cs l bs cs', ext h h1 -> nx h1 = nx h + 1 -> made h1 h2 (nx h) o b cs -> made_list h2 h3 l bs cs' -> made_list h h3 (o :: l) (b :: bs) (cs ++ cs').
Proof.
  intros h h1 h2 h3 o b cs l bs cs' X1 N1 [Sh [Se [X2 [A2 [I2 M2]]]]] [Sl [X3 [A3 [I3 M3]]]].
  pose proof (proj1 X2) as L2. pose proof (proj1 X3) as L3. split; [constructor; assumption|]. split; [eapply ext_trans; [exact X1|eapply ext_trans; eassumption]|].
  split; [|split].
  - unfold list_addrs in *. cbn [flat_map]. apply (between_app _ (nx h2)); [lia|lia| |exact A3]. rewrite addrs_hd, Se. apply (between_app _ (nx h1) _ [nx h]); [lia|lia| |exact A2].
    split; [constructor; [intros []|constructor]|constructor; [lia|constructor]].
  - cbn [flat_map]. apply (between_app _ (nx h2)); [lia|lia| |exact I3]. eapply between_wide; [| |exact I2]; lia.
  - cbn [flat_map]. apply map_opt_app. exists cs, cs'. split; [|split; [exact M3|reflexivity]]. rewrite <- M2. apply map_opt_ext_in. intros i Hi. apply (proj2 X3). destruct I2 as [_ F]. rewrite Forall_forall in F. apply F in Hi. lia.
Qed.

(** *** copy construction *)
Lemma copy_ok : forall o b h a cs, shows o b -> Forall (fun i => i < nx h) (leaf_ids o) -> map_opt (hl h) (leaf_ids o) = Some cs ->
  exists h' o', copy h a o = Some (h', o') /\ made h h' a o' b cs /\
    exists l, o_lp o' = Some l /\ nx h <= l < nx h' /\ (root_block b -> hp h' l = Some (map o_self (leaf_objs o'))).
Proof.
  induction o as [a0 c1 c2 cc lf lp r c sr sc sons IH] using bct_induction. intros b h a cs Sh Lt Mo.
  assert (Fin : forall h1 sons' lf' h2, shows (Bct a c1 c2 cc lf' (Some (nx h2)) r c sr sc sons') b -> ext h h1 -> ext h1 h2 -> 
     between (nx h) (nx h1) (list_addrs sons') -> between (nx h) (nx h2) (leaf_ids (Bct a c1 c2 cc lf' (Some (nx h2)) r c sr sc sons')) ->
     map_opt (hl h2) (leaf_ids (Bct a c1 c2 cc lf' (Some (nx h2)) r c sr sc sons')) = Some cs ->
     exists h', update_lp (mkHeap (hl h2) (set_at (hp h2) (nx h2) []) (nx h2 + 1)) (Bct a c1 c2 cc lf' (Some (nx h2)) r c sr sc sons') = Some h' /\ made h h' a (Bct a c1 c2 cc lf' (Some (nx h2)) r c sr sc sons') b cs /\
      exists l, Some (nx h2) = Some l /\ nx h <= l < nx h' /\ (root_block b -> hp h' l = Some (map o_self (leaf_objs (Bct a c1 c2 cc lf' (Some (nx h2)) r c sr sc sons'))))).
  { intros h1 sons' lf' h2 Sh' X1 X2 Ba Bi Mi. set (o' := Bct a c1 c2 cc lf' (Some (nx h2)) r c sr sc sons') in *.
    destruct (update_ok (mkHeap (hl h2) (set_at (hp h2) (nx h2) []) (nx h2 + 1)) o' b (nx h2) [] Sh' eq_refl) as [h' [Eu [Hl [Hn [Hp Hr]]]]].
    { cbn. unfold set_at. rewrite Nat.eqb_refl. reflexivity. }
    exists h'. split; [exact Eu|]. cbn [hl nx hp] in *. pose proof (proj1 X1). pose proof (proj1 X2).
    assert (X3 : ext h2 h'). { split; [lia|]. intros i Hi. rewrite Hl, Hp by lia. split; [reflexivity|]. unfold set_at. destruct (Nat.eqb_spec i (nx h2)); [lia|reflexivity]. }
    split; [|exists (nx h2); split; [reflexivity|split; [lia|exact Hr]]].
    split; [exact Sh'|]. split; [reflexivity|]. split; [eapply ext_trans; [exact X1|eapply ext_trans; eassumption]|].
    split; [unfold o'; rewrite addrs_node; cbn [tl]; eapply between_wide; [| |exact Ba]; lia|]. split; [eapply between_wide; [| |exact Bi]; lia|].
    rewrite Hl. exact Mi. }
  inversion Sh as [a1 d1 d2 lp0 r0 c0 sr0 sc0 sons0 bs Le F|a1 d1 d2 cc0 l0 lp0 r0 c0 sr0 sc0 Nc]; subst.
  - rewrite leaf_ids_node in Lt, Mo. cbn [copy].
    assert (Li : forall l, (forall o, In o l -> In o sons) -> forall bs h cs, Forall2 shows l bs -> Forall (fun i => i < nx h) (flat_map leaf_ids l) -> map_opt (hl h) (flat_map leaf_ids l) = Some cs ->
       exists h' l', each_son copy h l = Some (h', l') /\ made_list h h' l' bs cs).
    { clear Fin F Le Lt Mo Sh. induction l as [|o l IHl]; intros Inc bs0 h0 cs0 F0 L0 M0; inversion F0 as [|o0 b0 l0 bs1 Sb F1]; subst.
      - exists h0, []. split; [reflexivity|]. cbn in M0. injection M0 as <-. split; [constructor|]. split; [apply ext_refl|]. split; [apply between_nil|]. split; [apply between_nil|reflexivity].
      - cbn [flat_map] in L0, M0. apply Forall_app in L0. destruct L0 as [La Lb]. apply map_opt_app in M0. destruct M0 as [r1 [r2 [M1 [M2 ->]]]].
        set (h1 := snd (new_address h0)). assert (X1 : ext h0 h1) by (split; [cbn; lia|intros; split; reflexivity]).
        rewrite Forall_forall in IH. destruct (IH o (Inc o ltac:(left; reflexivity)) b0 h1 (nx h0) r1 Sb) as [h2 [o' [E1 [Md _]]]]; [eapply Forall_impl; [|exact La]; cbn; intros; lia|exact M1|].
        assert (X2 : ext h0 h2) by (eapply ext_trans; [exact X1|apply Md]).
        destruct (IHl ltac:(intros; apply Inc; right; assumption) bs1 h2 r2 F1) as [h3 [l' [E2 Ml]]].
        { eapply Forall_impl; [|exact Lb]. cbn. intros i Hi. pose proof (proj1 X2). lia. }
        { rewrite <- M2. apply map_opt_ext_in. intros i Hi. apply (proj2 X2). rewrite Forall_forall in Lb. apply Lb. exact Hi. }
        exists h3, (o' :: l'). split; [cbn [each_son new_address]; fold h1; change (mkHeap (hl h0) (hp h0) (nx h0 + 1)) with h1; rewrite E1; cbn [bind fst snd]; rewrite E2; reflexivity|].
        apply (made_cons h0 h1 h2 h3); try assumption. reflexivity. }
    destruct (Li sons ltac:(auto) bs h cs F Lt Mo) as [h1 [sons' [E1 [Fs [X1 [Ba [Bi Mi]]]]]]]. rewrite E1. cbn [bind fst snd].
    destruct (Fin h1 sons' None h1) as [h' [Eu [Md El]]]; try assumption.
    + constructor; [|exact Fs]. rewrite <- Le. transitivity (length bs); [eapply forall2_length; exact Fs|symmetry; eapply forall2_length; exact F].
    + apply ext_refl.
    + rewrite leaf_ids_node. exact Bi.
    + rewrite leaf_ids_node. exact Mi.
    + eexists _, _. split; [|split; [exact Md|exact El]]. unfold new_lp. cbn [snd fst bind]. rewrite Eu. reflexivity.
  - assert (Ei : forall x l y, leaf_ids (Bct x (Some d1) (Some d2) (Some cc0) (Some l) y r c sr sc []) = [l]) by (intros; unfold leaf_ids; cbn [leaf_objs]; destruct cc0; [congruence|reflexivity|reflexivity]).
    rewrite Ei in Lt, Mo. cbn [map_opt] in Mo. apply bind_some in Mo. destruct Mo as [v [Ev Mo]]. cbn [bind] in Mo. injection Mo as <-.
    cbn [copy each_son bind fst snd]. rewrite Ev. cbn [bind new_leaf fst snd].
    set (h2 := mkHeap (set_at (hl h) (nx h) v) (hp h) (nx h + 1)).
    destruct (Fin h [] (Some (nx h)) h2) as [h' [Eu [Md El]]].
    + constructor. exact Nc.
    + apply ext_refl.
    + split; [cbn; lia|]. intros i Hi. cbn. unfold set_at. destruct (Nat.eqb_spec i (nx h)); [lia|auto].
    + apply between_nil.
    + rewrite Ei. split; [constructor; [intros []|constructor]|constructor; [cbn; lia|constructor]].
    + rewrite Ei. cbn [map_opt]. cbn [h2 hl]. unfold set_at. rewrite Nat.eqb_refl. reflexivity.
    + eexists _, _. split; [|split; [exact Md|exact El]]. unfold new_lp. cbn [snd fst bind]. rewrite Eu. reflexivity.
Qed.

(** *** construction *)
Fixpoint sized (t : tree) (b : btree) : Prop :=
  match b with BT cc c1 c2 _ _ sons => match cc with Refine => length sons = length (sons_of t c1) * length (sons_of t c2) | _ => sons = [] end /\ fold_right (fun b P => sized t b /\ P) True sons end.
Lemma sized_sons : forall t l, fold_right (fun b P => sized t b /\ P) True l <-> forall b, In b l -> sized t b.
Proof. intros t. induction l as [|b l IH]; cbn; [split; [intros _ b []|auto]|]. rewrite IH. split; [intros [H1 H2] x [<-|X]; auto|intros H; split; auto]. Qed.
Lemma append_sized : forall fuel t near mincl a b rows cols bt, append_subtree fuel t near mincl a b rows cols = Some bt -> sized t bt /\ b_c1 bt = a /\ b_c2 bt = b.
Proof.
  induction fuel as [|f IH]; intros t near mincl a b rows cols bt E; cbn [append_subtree] in E; destruct (compare_cluster t near mincl a b); try discriminate E; try (injection E as <-; cbn; auto).
  apply bind_some in E. destruct E as [sons [Es E]]. injection E as <-. split; [|split; reflexivity]. cbn [sized]. split.
  - rewrite (map_opt_length _ _ _ Es). clear. generalize (sons_of t a), (sons_of t b). intros l1 l2. induction l2 as [|x l2 IH]; [cbn; lia|]. cbn [flat_map]. rewrite app_length, map_length, IH. cbn. lia.
  - apply sized_sons. intros s Hs. revert Es Hs. generalize (flat_map (fun j => map (fun i => (i, j)) (sons_of t a)) (sons_of t b)). intros l. revert sons. induction l as [|ij l IHl]; intros sons Es Hs; cbn [map_opt] in Es; [injection Es as <-; destruct Hs|].
    apply bind_some in Es. destruct Es as [s0 [E0 Es]]. apply bind_some in Es. destruct Es as [ss [E1 Es]]. injection Es as <-. destruct Hs as [<-|Hs]; [|apply (IHl ss E1 Hs)].
    apply bind_some in E0. destruct E0 as [r [_ E0]]. apply bind_some in E0. destruct E0 as [c [_ E0]]. apply (IH _ _ _ _ _ _ _ _ E0).
Qed.
Lemma build_ok : forall (empty : C) t b h a, sized t b -> exists h' o, build empty t h a b = (h', o) /\ made h h' a o b (repeat empty (length (leaves b))).
Proof.
  intros empty t. induction b as [cc c1 c2 r c sons IH] using btree_induction. intros h a Sz. cbn [sized] in Sz. destruct Sz as [Le Sz]. rewrite sized_sons in Sz. rewrite Forall_forall in IH.
  assert (Leaf : cc <> Refine -> sons = [] -> exists h' o, (let '(l, h1) := new_leaf h empty in (h1, Bct a (Some c1) (Some c2) (Some cc) (Some l) None r c 0 0 [])) = (h', o) /\ made h h' a o (BT cc c1 c2 r c sons) (repeat empty (length (leaves (BT cc c1 c2 r c sons))))).
  { intros Nc ->. eexists _, _. split; [reflexivity|]. assert (Ei : leaf_ids (Bct a (Some c1) (Some c2) (Some cc) (Some (nx h)) None r c 0 0 []) = [nx h]) by (unfold leaf_ids; cbn [leaf_objs]; destruct cc; [congruence|reflexivity|reflexivity]).
    replace (length (leaves (BT cc c1 c2 r c []))) with 1 by (destruct cc; [congruence|reflexivity|reflexivity]).
    split; [constructor; exact Nc|]. split; [reflexivity|]. split; [split; [cbn; lia|]|].
    - intros i Hi. cbn. unfold set_at. destruct (Nat.eqb_spec i (nx h)); [lia|auto].
    - rewrite Ei. split; [apply between_nil|]. split; [split; [constructor; [intros []|constructor]|constructor; [cbn; lia|constructor]]|].
      cbn [map_opt hl]. unfold set_at. rewrite Nat.eqb_refl. reflexivity. }
  destruct cc; [|apply Leaf; [discriminate|exact Le]..]. clear Leaf. cbn [build].
  assert (Li : forall l, (forall b, In b l -> In b sons) -> forall h, exists h' l', each_build (build empty t) h l = (h', l') /\ made_list h h' l' l (repeat empty (length (flat_map leaves l)))).
  { induction l as [|b l IHl]; intros Inc h0.
    - exists h0, []. split; [reflexivity|]. split; [constructor|]. split; [apply ext_refl|]. split; [apply between_nil|]. split; [apply between_nil|reflexivity].
    - set (h1 := snd (new_address h0)). destruct (IH b (Inc b ltac:(left; reflexivity)) h1 (nx h0) (Sz b (Inc b ltac:(left; reflexivity)))) as [h2 [o [E1 Md]]].
      destruct (IHl ltac:(intros; apply Inc; right; assumption) h2) as [h3 [l' [E2 Ml]]]. exists h3, (o :: l').
      split; [cbn [each_build new_address]; change (mkHeap (hl h0) (hp h0) (nx h0 + 1)) with h1; rewrite E1; cbn [fst snd]; rewrite E2; reflexivity|].
      cbn [flat_map]. rewrite app_length, repeat_app. apply (made_cons h0 h1 h2 h3); try assumption; [split; [cbn; lia|intros; split; reflexivity]|reflexivity]. }
  destruct (Li sons ltac:(auto) h) as [h' [l' [E [Fs [X1 [Ba [Bi Mi]]]]]]]. rewrite E. cbn [fst snd]. eexists _, _. split; [reflexivity|].
  split; [constructor; [rewrite (forall2_length _ _ _ Fs); exact Le|exact Fs]|]. split; [reflexivity|]. split; [exact X1|]. rewrite addrs_node, leaf_ids_node. cbn [tl leaves]. auto.
Qed.
Lemma init_ok : forall (empty : C) t b h a, sized t b -> root_block b -> exists h' o, init_object empty t h a b = Some (h', o) /\ made h h' a o b (repeat empty (length (leaves b))) /\
  exists l, o_lp o = Some l /\ nx h <= l < nx h' /\ (root_block b -> hp h' l = Some (map o_self (leaf_objs o))).
Proof.
  intros empty t b h a Sz Rb. destruct (build_ok empty t b h a Sz) as [h1 [o [E [Sh [Se [X1 [Ba [Bi Mi]]]]]]]]. unfold init_object. rewrite E. cbn [new_lp].
  set (h2 := mkHeap (hl h1) (set_at (hp h1) (nx h1) []) (nx h1 + 1)). destruct o as [a0 c1 c2 cc lf lp r c sr sc sons]. cbn [o_self] in Se. subst a0.
  set (o' := Bct a c1 c2 cc lf (Some (nx h1)) r c sr sc sons).
  assert (Sh' : shows o' b) by (inversion Sh; subst; constructor; assumption).
  assert (Ei : leaf_ids o' = leaf_ids (Bct a c1 c2 cc lf lp r c sr sc sons)) by (unfold leaf_ids, o'; cbn [leaf_objs]; destruct cc as [[]|]; reflexivity).
  destruct (update_ok h2 o' b (nx h1) [] Sh' eq_refl) as [h' [Eu [Hl [Hn [Hp Hr]]]]]; [cbn; unfold set_at; rewrite Nat.eqb_refl; reflexivity|].
  exists h', o'. split; [rewrite Eu; reflexivity|]. cbn [h2 hl nx hp] in *. pose proof (proj1 X1).
  split; [|exists (nx h1); split; [reflexivity|split; [lia|exact Hr]]]. split; [exact Sh'|]. split; [reflexivity|].
  split; [|split; [unfold o'; rewrite addrs_node in *; eapply between_wide; [| |exact Ba]; lia|]].
  - eapply ext_trans; [exact X1|]. split; [lia|]. intros i Hi. rewrite Hl, Hp by lia. split; [reflexivity|]. unfold set_at. destruct (Nat.eqb_spec i (nx h1)); [lia|reflexivity].
  - rewrite Ei, Hl. split; [eapply between_wide; [| |exact Bi]; lia|exact Mi].
Qed.
End Heap.
