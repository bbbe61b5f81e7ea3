(** C74: geometries and ansatz spaces behave like values; what happens on repeated initialisation. *)
From Coq Require Import List Arith Bool QArith Lia FunctionalExtensionality.
From Verif Require Import ModelBase ModelTree ModelReinit SpecReinit ProofTree ProofTreeHist PropUtil.
Import ListNotations.
Local Close Scope Q_scope.
Local Open Scope nat_scope.

Lemma set_lookup : forall {A} (l l' : list A) i x, set l i x = Some l' ->
  i < length l /\ length l' = length l /\ forall j, nth_error l' j = if j =? i then Some x else nth_error l j.
Proof.
  induction l as [|a l IH]; intros l' i x E; [discriminate|].
  destruct i as [|i]; cbn [set] in E.
  - injection E as <-. cbn. split; [lia|]. split; [reflexivity|]. intros [|j]; reflexivity.
  - destruct (set l i x) as [r|] eqn:Er; [|discriminate]. cbn [bind] in E. injection E as <-.
    destruct (IH _ _ _ Er) as [Hl [Hn Hj]]. cbn [length]. split; [lia|]. split; [lia|].
    intros [|j]; [reflexivity|]. apply Hj.
Qed.
Lemma set_some : forall {A} (l : list A) i x, i < length l -> exists l', set l i x = Some l'.
Proof. intros A l i x Hi. destruct (set_spec l i x Hi) as [l' [E _]]. eauto. Qed.
Lemma lookup_snoc : forall {A} (l : list A) x j, nth_error (l ++ [x]) j = if j =? length l then Some x else nth_error l j.
Proof.
  intros A l x j. destruct (Nat.eqb_spec j (length l)) as [->|Hj].
  - rewrite nth_error_app2 by lia. rewrite Nat.sub_diag. reflexivity.
  - destruct (Nat.lt_ge_cases j (length l)) as [Hl|Hl].
    + apply nth_error_app1. exact Hl.
    + rewrite nth_error_app2 by lia. transitivity (@None A); [|symmetry]; apply nth_error_None; cbn [length]; lia.
Qed.
Lemma lookup_lt : forall {A} (l : list A) j x, nth_error l j = Some x -> j < length l.
Proof. intros A l j x E. apply nth_error_Some. congruence. Qed.

Section Values.
Context {PV Mesh Mat : Type}.
Variables (mesh_of : PV -> nat -> Mesh) (matrix_of : Mesh -> nat -> nat -> Mat).
Notation memory := (@memory PV Mesh Mat).
Notation gvalue := (@gvalue PV).
Notation svalue := (@svalue PV).
Notation step := (step mesh_of matrix_of).

Definition geo_fits (m : memory) (a : gvalue) (g : geometry) : Prop :=
  match a, g with
  | Geo v u, Some p => nth_error (vectors m) p = Some v /\ (u = false -> forall k x, nth_error (meshes m) k = Some (x, p) -> False)
  | NoGeo, None => True
  | _, _ => False
  end.
Definition space_fits (m : memory) (a : svalue) (s : option (@space Mat)) : Prop :=
  match a, s with
  | Space v l d r, Some s => s_degree s = d /\ s_repetition s = r /\ s_matrix s = matrix_of (mesh_of v l) d r
      /\ exists p, nth_error (meshes m) (s_mesh s) = Some (mesh_of v l, p) /\ nth_error (vectors m) p = Some v
  | NoSpace, None => True
  | _, _ => False
  end.
Record Inv (w : @values PV) (m : memory) : Prop := mkInv {
  i_glen : length (geos m) = length (fst w);
  i_slen : length (spaces m) = length (snd w);
  i_geo : forall x a g, nth_error (fst w) x = Some a -> nth_error (geos m) x = Some g -> geo_fits m a g;
  i_apart : forall x y p q, x <> y -> nth_error (geos m) x = Some (Some p) -> nth_error (geos m) y = Some (Some q) -> p <> q;
  i_mesh : forall k x p, nth_error (meshes m) k = Some (x, p) -> p < length (vectors m);
  i_space : forall x a s, nth_error (snd w) x = Some a -> nth_error (spaces m) x = Some s -> space_fits m a s }.

Lemma geo_of_value : forall w m x a, Inv w m -> nth_error (fst w) x = Some a -> exists g, nth_error (geos m) x = Some g /\ geo_fits m a g.
Proof.
  intros w m x a Hi E. pose proof (lookup_lt _ _ _ E) as Hl. rewrite <- (i_glen _ _ Hi) in Hl.
  destruct (nth_error (geos m) x) as [g|] eqn:Eg; [|apply nth_error_None in Eg; lia].
  exists g. split; [reflexivity|]. eapply i_geo; eauto.
Qed.
Lemma space_of_value : forall w m x a, Inv w m -> nth_error (snd w) x = Some a -> exists g, nth_error (spaces m) x = Some g /\ space_fits m a g.
Proof.
  intros w m x a Hi E. pose proof (lookup_lt _ _ _ E) as Hl. rewrite <- (i_slen _ _ Hi) in Hl.
  destruct (nth_error (spaces m) x) as [g|] eqn:Eg; [|apply nth_error_None in Eg; lia].
  exists g. split; [reflexivity|]. eapply i_space; eauto.
Qed.
Lemma geo_bound : forall w m x p, Inv w m -> nth_error (geos m) x = Some (Some p) -> p < length (vectors m).
Proof.
  intros w m x p Hi E. pose proof (lookup_lt _ _ _ E) as Hl. rewrite (i_glen _ _ Hi) in Hl.
  destruct (nth_error (fst w) x) as [a|] eqn:Ea; [|apply nth_error_None in Ea; lia].
  pose proof (i_geo _ _ Hi _ _ _ Ea E) as Hf. destruct a; [|contradiction]. destruct Hf as [Hf _]. eapply lookup_lt; eauto.
Qed.

(** more memory *)
Lemma grow_geo : forall (m : memory) a g l k gs ss, geo_fits m a g -> vectors m ++ l = k -> geo_fits (mkMemory k (meshes m) gs ss) a g.
Proof.
  intros m a g l k gs ss Hf <-. destruct a as [v u|], g as [p|]; cbn in *; auto. destruct Hf as [E Hu]. split; [|exact Hu].
  rewrite nth_error_app1; [exact E|]. eapply lookup_lt; eauto.
Qed.
Lemma grow_space : forall (m : memory) a s l k gs ss, space_fits m a s -> vectors m ++ l = k -> space_fits (mkMemory k (meshes m) gs ss) a s.
Proof.
  intros m a s l k gs ss Hf <-. destruct a as [v lv d r|], s as [s|]; cbn in *; auto. destruct Hf as [A [B [C [p [D E]]]]].
  split; [exact A|]. split; [exact B|]. split; [exact C|]. exists p. split; [exact D|].
  rewrite nth_error_app1; [exact E|]. eapply lookup_lt; eauto.
Qed.
(** a new patch vector does not disturb anything *)
Lemma inv_new : forall w m v, Inv w m -> Inv w (snd (new_vector m v)).
Proof.
  intros w m v Hi. unfold new_vector. cbn [snd]. constructor; cbn [vectors meshes geos spaces].
  - apply Hi.
  - apply Hi.
  - intros x a g Ea Eg. eapply grow_geo; [eapply i_geo; eauto|reflexivity].
  - apply Hi.
  - intros k x p E. apply (i_mesh _ _ Hi) in E. rewrite app_length. lia.
  - intros x a s Ea Es. eapply grow_space; [eapply i_space; eauto|reflexivity].
Qed.
Lemma fits_new : forall w m v, Inv w m -> geo_fits (snd (new_vector m v)) (Geo v false) (Some (length (vectors m))).
Proof.
  intros w m v Hi. unfold new_vector. cbn. rewrite lookup_snoc, Nat.eqb_refl. split; [reflexivity|].
  intros _ k x E. apply (i_mesh _ _ Hi) in E. lia.
Qed.
(** a new geometry variable, or a new value of one *)
Definition fresh_for (m : memory) (x : nat) (g : geometry) : Prop := forall y q p, y <> x -> nth_error (geos m) y = Some (Some q) -> g = Some p -> p <> q.
Lemma inv_declare : forall gs ss m a g, Inv (gs, ss) m -> geo_fits m a g -> fresh_for m (length (geos m)) g -> Inv (gs ++ [a], ss) (declare_geo m g).
Proof.
  intros gs ss m a g Hi Hf Hfr. unfold declare_geo. constructor; cbn [fst snd vectors meshes geos spaces].
  - rewrite !app_length. pose proof (i_glen _ _ Hi) as E. cbn [fst] in E. cbn [length]. lia.
  - apply (i_slen _ _ Hi).
  - intros x b h Eb Eh. rewrite lookup_snoc in Eb. rewrite lookup_snoc in Eh. pose proof (i_glen _ _ Hi) as E. cbn [fst] in E. rewrite E in Eh.
    destruct (x =? length gs).
    + injection Eb as <-. injection Eh as <-. exact Hf.
    + apply (i_geo _ _ Hi x b h Eb Eh).
  - intros x y p q Hxy Ex Ey. rewrite lookup_snoc in Ex. rewrite lookup_snoc in Ey.
    destruct (Nat.eqb_spec x (length (geos m))) as [->|Hx'], (Nat.eqb_spec y (length (geos m))) as [->|Hy']; try congruence.
    + injection Ex as ->. exact (Hfr y q p Hy' Ey eq_refl).
    + injection Ey as ->. apply not_eq_sym. exact (Hfr x p q Hx' Ex eq_refl).
    + exact (i_apart _ _ Hi x y p q Hxy Ex Ey).
  - apply (i_mesh _ _ Hi).
  - apply (i_space _ _ Hi).
Qed.
Lemma inv_set_geo : forall gs gs' ss m a g x, Inv (gs, ss) m -> set gs x a = Some gs' -> geo_fits m a g -> fresh_for m x g ->
  exists m', set_geo m x g = Some m' /\ Inv (gs', ss) m' /\ vectors m' = vectors m /\ meshes m' = meshes m
    /\ forall y, nth_error (geos m') y = if y =? x then Some g else nth_error (geos m) y.
Proof.
  intros gs gs' ss m a g x Hi Es Hf Hfr. destruct (set_lookup _ _ _ _ Es) as [Hl [Hn Hj]].
  pose proof (i_glen _ _ Hi) as E. cbn [fst] in E.
  destruct (set_some (geos m) x g) as [l El]; [lia|]. destruct (set_lookup _ _ _ _ El) as [_ [Hn' Hj']].
  unfold set_geo. rewrite El. cbn [bind]. eexists. split; [reflexivity|]. split; [|split; [reflexivity|split; [reflexivity|exact Hj']]].
  constructor; cbn [fst snd vectors meshes geos spaces].
  - lia.
  - apply (i_slen _ _ Hi).
  - intros z b h Eb Eh. rewrite Hj in Eb. rewrite Hj' in Eh. destruct (z =? x).
    + injection Eb as <-. injection Eh as <-. exact Hf.
    + apply (i_geo _ _ Hi z b h Eb Eh).
  - intros z y p q Hzy Ez Ey. rewrite Hj' in Ez, Ey. destruct (Nat.eqb_spec z x) as [->|Hz], (Nat.eqb_spec y x) as [->|Hy]; try congruence.
    + injection Ez as ->. exact (Hfr y q p Hy Ey eq_refl).
    + injection Ey as ->. apply not_eq_sym. exact (Hfr z p q Hz Ez eq_refl).
    + exact (i_apart _ _ Hi z y p q Hzy Ez Ey).
  - apply (i_mesh _ _ Hi).
  - apply (i_space _ _ Hi).
Qed.
Lemma fresh_new : forall w m v x, Inv w m -> fresh_for (snd (new_vector m v)) x (Some (length (vectors m))).
Proof.
  intros w m v x Hi y q p Hy E Ep. unfold new_vector in E. cbn in E. injection Ep as <-. pose proof (geo_bound _ _ _ _ Hi E). lia.
Qed.
(** a new value of a space variable *)
Lemma inv_set_space : forall gs ss ss' m a s x, Inv (gs, ss) m -> set ss x a = Some ss' -> space_fits m a s ->
  exists l, set (spaces m) x s = Some l /\ Inv (gs, ss') (mkMemory (vectors m) (meshes m) (geos m) l).
Proof.
  intros gs ss ss' m a s x Hi Es Hf. destruct (set_lookup _ _ _ _ Es) as [Hl [Hn Hj]].
  pose proof (i_slen _ _ Hi) as E. cbn [snd] in E.
  destruct (set_some (spaces m) x s) as [l El]; [lia|]. destruct (set_lookup _ _ _ _ El) as [_ [Hn' Hj']].
  exists l. split; [exact El|]. constructor; cbn [fst snd vectors meshes geos spaces].
  - apply (i_glen _ _ Hi).
  - lia.
  - apply (i_geo _ _ Hi).
  - apply (i_apart _ _ Hi).
  - apply (i_mesh _ _ Hi).
  - intros z b h Eb Eh. rewrite Hj in Eb. rewrite Hj' in Eh. destruct (z =? x).
    + injection Eb as <-. injection Eh as <-. exact Hf.
    + apply (i_space _ _ Hi z b h Eb Eh).
Qed.
Lemma inv_declare_space : forall gs ss m a s, Inv (gs, ss) m -> space_fits m a s -> Inv (gs, ss ++ [a]) (mkMemory (vectors m) (meshes m) (geos m) (spaces m ++ [s])).
Proof.
  intros gs ss m a s Hi Hf. constructor; cbn [fst snd vectors meshes geos spaces]; try apply Hi.
  - rewrite !app_length. pose proof (i_slen _ _ Hi) as E. cbn [snd] in E. cbn [length]. lia.
  - intros x b h Eb Eh. rewrite lookup_snoc in Eb. rewrite lookup_snoc in Eh. pose proof (i_slen _ _ Hi) as E. cbn [snd] in E. rewrite E in Eh.
    destruct (x =? length ss).
    + injection Eb as <-. injection Eh as <-. exact Hf.
    + apply (i_space _ _ Hi x b h Eb Eh).
Qed.
(** the patches of a geometry that no mesh refers to *)
Lemma inv_change : forall gs gs' ss m x u v, Inv (gs, ss) m -> nth_error gs x = Some (Geo u false) -> set gs x (Geo v false) = Some gs' ->
  exists p l, nth_error (geos m) x = Some (Some p) /\ set (vectors m) p v = Some l /\ Inv (gs', ss) (mkMemory l (meshes m) (geos m) (spaces m)).
Proof.
  intros gs gs' ss m x u v Hi Ex Es. destruct (geo_of_value _ _ x _ Hi Ex) as [g [Eg Hf]].
  destruct g as [p|]; [|contradiction]. destruct Hf as [Ep Hu]. specialize (Hu eq_refl).
  destruct (set_lookup _ _ _ _ Es) as [Hl [Hn Hj]].
  destruct (set_some (vectors m) p v) as [l El]; [eapply lookup_lt; eauto|]. destruct (set_lookup _ _ _ _ El) as [_ [Hn' Hj']].
  exists p, l. split; [exact Eg|]. split; [exact El|]. constructor; cbn [fst snd vectors meshes geos spaces].
  - rewrite Hn. apply (i_glen _ _ Hi).
  - apply (i_slen _ _ Hi).
  - intros z b h Eb Eh. rewrite Hj in Eb. destruct (Nat.eqb_spec z x) as [->|Hz].
    + injection Eb as <-. rewrite Eg in Eh. injection Eh as <-. cbn. rewrite Hj', Nat.eqb_refl. split; [reflexivity|intros _; exact Hu].
    + pose proof (i_geo _ _ Hi z b h Eb Eh) as Hf. destruct b as [w used|], h as [q|]; cbn in *; auto. destruct Hf as [Eq Hc].
      split; [|exact Hc]. rewrite Hj'. pose proof (i_apart _ _ Hi z x q p Hz Eh Eg) as Hpq.
      destruct (Nat.eqb_spec q p); [contradiction|exact Eq].
  - apply (i_apart _ _ Hi).
  - intros k z q E. rewrite Hn'. apply (i_mesh _ _ Hi _ _ _ E).
  - intros z b s Eb Eh. pose proof (i_space _ _ Hi z b s Eb Eh) as Hf. destruct b as [w lv d r|], s as [s|]; cbn in *; auto.
    destruct Hf as [A [B [C [q [D F]]]]]. do 3 (split; [assumption|]). exists q. split; [exact D|].
    rewrite Hj'. destruct (Nat.eqb_spec q p) as [->|_]; [|exact F]. exfalso. eapply Hu. exact D.
Qed.
(** a new mesh for a geometry *)
Lemma inv_mesh : forall gs gs' ss m x u v mesh p, Inv (gs, ss) m -> nth_error gs x = Some (Geo v u) -> set gs x (Geo v true) = Some gs' ->
  nth_error (geos m) x = Some (Some p) -> Inv (gs', ss) (mkMemory (vectors m) (meshes m ++ [(mesh, p)]) (geos m) (spaces m)).
Proof.
  intros gs gs' ss m x u v mesh p Hi Ex Es Ep. destruct (set_lookup _ _ _ _ Es) as [Hl [Hn Hj]].
  constructor; cbn [fst snd vectors meshes geos spaces].
  - rewrite Hn. apply (i_glen _ _ Hi).
  - apply (i_slen _ _ Hi).
  - intros z b h Eb Eh. rewrite Hj in Eb. destruct (Nat.eqb_spec z x) as [->|Hz].
    + injection Eb as <-. rewrite Ep in Eh. injection Eh as <-. cbn. pose proof (i_geo _ _ Hi x _ _ Ex Ep) as [Hf _].
      split; [exact Hf|discriminate].
    + pose proof (i_geo _ _ Hi z b h Eb Eh) as Hf. destruct b as [w used|], h as [q|]; cbn in *; auto. destruct Hf as [Eq Hc].
      split; [exact Eq|]. intros Hu k y E. rewrite lookup_snoc in E. destruct (k =? length (meshes m)).
      * injection E as <- <-. exact (i_apart _ _ Hi z x p p Hz Eh Ep eq_refl).
      * eapply Hc; eauto.
  - apply (i_apart _ _ Hi).
  - intros k y q E. rewrite lookup_snoc in E. destruct (k =? length (meshes m)).
    + injection E as <- <-. eapply geo_bound; eauto.
    + apply (i_mesh _ _ Hi _ _ _ E).
  - intros z b s Eb Eh. pose proof (i_space _ _ Hi z b s Eb Eh) as Hf. destruct b as [w lv d r|], s as [s|]; cbn in *; auto.
    destruct Hf as [A [B [C [q [D F]]]]]. do 3 (split; [assumption|]). exists q. split; [|exact F].
    rewrite nth_error_app1; [exact D|]. eapply lookup_lt; eauto.
Qed.

Lemma step_ok : forall w w' m o, Inv w m -> means w o = Some w' -> exists m', step m o = Some m' /\ Inv w' m'.
Proof.
  intros [gs ss] w' m o Hi Hm. destruct o; cbn [means] in Hm; cbn [ModelReinit.step].
  - (* GNew *) injection Hm as <-. eexists. split; [reflexivity|].
    change (Inv (gs ++ [Geo v false], ss) (declare_geo (snd (new_vector m v)) (Some (length (vectors m))))).
    apply inv_declare; [apply inv_new; exact Hi|eapply fits_new; eauto|eapply fresh_new; eauto].
  - (* GCopy *) destruct (nth_error gs y) as [a|] eqn:Ea; [|discriminate]. cbn [bind] in Hm.
    destruct a as [v u|]; [|discriminate]. injection Hm as <-.
    destruct (geo_of_value _ _ y _ Hi Ea) as [g [Eg Hf]]. destruct g as [p|]; [|contradiction]. rewrite Eg. cbn [bind].
    destruct Hf as [Hv _]. unfold deref_vector. cbn [bind]. rewrite Hv. cbn [bind]. eexists. split; [reflexivity|].
    change (Inv (gs ++ [Geo v false], ss) (declare_geo (snd (new_vector m v)) (Some (length (vectors m))))).
    apply inv_declare; [apply inv_new; exact Hi|eapply fits_new; eauto|eapply fresh_new; eauto].
  - (* GMove *) destruct (nth_error gs y) as [a|] eqn:Ea; [|discriminate]. cbn [bind] in Hm.
    destruct a as [v u|]; [|discriminate]. destruct (set gs y NoGeo) as [l|] eqn:El; [|discriminate]. cbn [bind] in Hm. injection Hm as <-.
    destruct (geo_of_value _ _ y _ Hi Ea) as [g [Eg Hf]]. rewrite Eg. cbn [bind].
    destruct (inv_set_geo gs l ss m NoGeo None y Hi El I) as [m1 [E1 [Hi1 [Hv [Hme Hg]]]]]; [intros ? ? ? ? ? ?; discriminate|].
    rewrite E1. cbn [bind]. eexists. split; [reflexivity|]. apply inv_declare; [exact Hi1| |].
    + destruct g as [p|]; [|contradiction]. cbn in *. rewrite Hv, Hme. exact Hf.
    + intros z q p Hz Eq Ep. rewrite Hg in Eq. destruct (Nat.eqb_spec z y) as [|Hzy]; [discriminate|]. subst g.
      apply not_eq_sym. eapply (i_apart _ _ Hi); eauto.
  - (* GAssign *) destruct (nth_error gs y) as [a|] eqn:Ea; [|discriminate]. cbn [bind] in Hm.
    destruct a as [v u|]; [|discriminate]. destruct (set gs x (Geo v false)) as [l|] eqn:El; [|discriminate]. cbn [bind] in Hm. injection Hm as <-.
    destruct (geo_of_value _ _ y _ Hi Ea) as [g [Eg Hf]]. destruct g as [p|]; [|contradiction]. rewrite Eg. cbn [bind].
    destruct Hf as [Hv _]. unfold deref_vector. cbn [bind]. rewrite Hv. cbn [bind].
    destruct (inv_set_geo gs l ss (snd (new_vector m v)) (Geo v false) (Some (length (vectors m))) x) as [m1 [E1 [Hi1 _]]];
      [apply inv_new; exact Hi|exact El|eapply fits_new; eauto|eapply fresh_new; eauto|].
    exists m1. split; [exact E1|exact Hi1].
  - (* GMoveAssign *) destruct (nth_error gs y) as [a|] eqn:Ea; [|discriminate]. cbn [bind] in Hm.
    destruct a as [v u|]; [|discriminate]. destruct (set gs y NoGeo) as [l|] eqn:El; [|discriminate]. cbn [bind] in Hm.
    destruct (set l x (Geo v u)) as [l2|] eqn:El2; [|discriminate]. cbn [bind] in Hm. injection Hm as <-.
    destruct (geo_of_value _ _ y _ Hi Ea) as [g [Eg Hf]]. rewrite Eg. cbn [bind].
    destruct (inv_set_geo gs l ss m NoGeo None y Hi El I) as [m1 [E1 [Hi1 [Hv [Hme Hg]]]]]; [intros ? ? ? ? ? ?; discriminate|].
    rewrite E1. cbn [bind].
    destruct (inv_set_geo l l2 ss m1 (Geo v u) g x Hi1 El2) as [m2 [E2 [Hi2 _]]].
    + destruct g as [p|]; [|contradiction]. cbn in *. rewrite Hv, Hme. exact Hf.
    + intros z q p Hz Eq Ep. rewrite Hg in Eq. destruct (Nat.eqb_spec z y) as [|Hzy]; [discriminate|]. subst g.
      apply not_eq_sym. eapply (i_apart _ _ Hi); eauto.
    + exists m2. split; [exact E2|exact Hi2].
  - (* GInit *) destruct (set gs x (Geo v false)) as [l|] eqn:El; [|discriminate]. cbn [bind] in Hm. injection Hm as <-.
    destruct (inv_set_geo gs l ss (snd (new_vector m v)) (Geo v false) (Some (length (vectors m))) x) as [m1 [E1 [Hi1 _]]];
      [apply inv_new; exact Hi|exact El|eapply fits_new; eauto|eapply fresh_new; eauto|].
    exists m1. split; [exact E1|exact Hi1].
  - (* GChange *) destruct (nth_error gs x) as [a|] eqn:Ea; [|discriminate]. cbn [bind] in Hm.
    destruct a as [u [|]|]; try discriminate. destruct (set gs x (Geo v false)) as [l|] eqn:El; [|discriminate]. cbn [bind] in Hm. injection Hm as <-.
    destruct (inv_change gs l ss m x u v Hi Ea El) as [p [k [Ep [Ek Hi1]]]]. rewrite Ep. cbn [bind]. rewrite Ek. cbn [bind].
    eexists. split; [reflexivity|exact Hi1].
  - (* SDefault *) injection Hm as <-. eexists. split; [reflexivity|]. apply inv_declare_space; [exact Hi|exact I].
  - (* SInit *) destruct (nth_error gs g) as [a|] eqn:Ea; [|discriminate]. cbn [bind] in Hm.
    destruct a as [v u|]; [|discriminate]. destruct (set gs g (Geo v true)) as [l|] eqn:El; [|discriminate]. cbn [bind] in Hm.
    destruct (set ss s (Space v level degree repetition)) as [k|] eqn:Ek; [|discriminate]. cbn [bind] in Hm. injection Hm as <-.
    destruct (geo_of_value _ _ g _ Hi Ea) as [h [Eh Hf]]. destruct h as [p|]; [|contradiction]. destruct Hf as [Hv _].
    rewrite Eh. cbn [bind]. rewrite Hv. cbn [bind].
    pose proof (inv_mesh gs l ss m g u v (mesh_of v level) p Hi Ea El Eh) as Hi1.
    destruct (inv_set_space l ss k _ (Space v level degree repetition)
      (Some (mkSpace (length (meshes m)) degree repetition (matrix_of (mesh_of v level) degree repetition))) s Hi1 Ek) as [n [En Hi2]].
    + cbn. do 3 (split; [reflexivity|]). exists p. split; [|exact Hv]. rewrite lookup_snoc, Nat.eqb_refl. reflexivity.
    + cbn [spaces] in En. rewrite En. cbn [bind]. eexists. split; [reflexivity|exact Hi2].
  - (* SCopy *) destruct (nth_error ss y) as [a|] eqn:Ea; [|discriminate]. cbn [bind] in Hm. injection Hm as <-.
    destruct (space_of_value _ _ y _ Hi Ea) as [h [Eh Hf]]. rewrite Eh. cbn [bind]. eexists. split; [reflexivity|].
    apply inv_declare_space; [exact Hi|exact Hf].
  - (* SAssign *) destruct (nth_error ss y) as [a|] eqn:Ea; [|discriminate]. cbn [bind] in Hm.
    destruct (set ss x a) as [k|] eqn:Ek; [|discriminate]. cbn [bind] in Hm. injection Hm as <-.
    destruct (space_of_value _ _ y _ Hi Ea) as [h [Eh Hf]]. rewrite Eh. cbn [bind].
    destruct (inv_set_space gs ss k m a h x Hi Ek Hf) as [n [En Hi2]]. rewrite En. cbn [bind]. eexists. split; [reflexivity|exact Hi2].
Qed.
Lemma steps_ok : forall os w w' m, Inv w m -> meanings_from w os = Some w' -> exists m', execute_from mesh_of matrix_of m os = Some m' /\ Inv w' m'.
Proof.
  induction os as [|o os IH]; intros w w' m Hi Hm; cbn [meanings_from execute_from] in *.
  - injection Hm as <-. eauto.
  - destruct (means w o) as [w1|] eqn:E1; [|discriminate]. cbn [bind] in Hm.
    destruct (step_ok _ _ _ _ Hi E1) as [m1 [Es Hi1]]. rewrite Es. cbn [bind]. eapply IH; eauto.
Qed.
Lemma inv_start : Inv ([], []) start.
Proof. constructor; cbn; try reflexivity; try (intros [|]; intros; discriminate). Qed.
End Values.

(** ** the theorems *)
(** programs with any number of Geometry and AnsatzSpace variables, in which the patches of a geometry are not changed in place
    after a space was initialised with it: everything is defined and every variable shows what its last initialisation (or the
    variable it was copied from) determines; in particular a space does not depend on what it held before *)
Theorem C74_values : forall (PV Mesh Mat : Type) (mesh_of : PV -> nat -> Mesh) (matrix_of : Mesh -> nat -> nat -> Mat)
  (os : list op) gs ss, meanings os = Some (gs, ss) ->
  exists m, execute mesh_of matrix_of os = Some m
    /\ (forall x v used, nth_error gs x = Some (Geo v used) -> show_geometry m x = Some v)
    /\ (forall x v level degree repetition, nth_error ss x = Some (Space v level degree repetition) ->
          show_space m x = Some (space_of mesh_of matrix_of v level degree repetition)).
Proof.
  intros PV Mesh Mat mesh_of matrix_of os gs ss Hm.
  destruct (steps_ok mesh_of matrix_of os _ _ _ (inv_start mesh_of matrix_of) Hm) as [m [E Hi]].
  exists m. split; [exact E|]. split.
  - intros x v used Ex. destruct (geo_of_value _ _ _ _ x _ Hi Ex) as [g [Eg Hf]]. destruct g as [p|]; [|contradiction].
    unfold show_geometry. rewrite Eg. cbn [bind deref_vector]. apply Hf.
  - intros x v level degree repetition Ex. destruct (space_of_value _ _ _ _ x _ Hi Ex) as [o [Eo Hf]]. destruct o as [s|]; [|contradiction].
    destruct Hf as [A [B [C [p [D F]]]]]. unfold show_space. rewrite Eo. cbn [bind]. rewrite D. cbn [bind snd fst]. rewrite F. cbn [bind].
    unfold space_of. rewrite A, B, C. reflexivity.
Qed.

(** without that restriction it fails: the space keeps the mesh of the old patches, and shows the new patches as its geometry *)
Theorem C74_change_after_init_refuted : forall (PV Mesh Mat : Type) (mesh_of : PV -> nat -> Mesh) (matrix_of : Mesh -> nat -> nat -> Mat)
  (v v' : PV) level degree repetition,
  exists m, execute mesh_of matrix_of [GNew v; SDefault; SInit 0 0 level degree repetition; GChange 0 v'] = Some m
    /\ show_space m 0 = Some (mesh_of v level, v', degree, repetition, matrix_of (mesh_of v level) degree repetition).
Proof. intros. eexists. split; reflexivity. Qed.

Lemma first_init : forall verts npts t, (forall vs, In vs verts -> length vs = 4) -> init_patches verts npts 0 = Some t ->
  forall verts', length verts' = length verts -> forall a, again_store (t_store t) verts' a = patch_store verts' a.
Proof.
  intros verts npts t H4 E verts' Hlen a.
  set (els := map (fun p : nat => [p]) (seq 0 (length verts))).
  assert (Hn : forall p, p < length verts -> exists vs, In vs verts /\ patch_store verts [p] = Some (patch_node (length verts) p vs)).
  { intros p Hp. unfold patch_store. destruct (nth_error verts p) as [vs|] eqn:Ev; [|apply nth_error_None in Ev; lia].
    exists vs. split; [eapply nth_error_In; eauto|reflexivity]. }
  destruct (update_topology_ok els (patch_store verts)) as [s [Es A]].
  { intros b Hb. unfold els in Hb. apply in_map_iff in Hb. destruct Hb as [p [<- Hb]]. apply in_seq in Hb.
    destruct (Hn p) as [vs [Hv Ep]]; [lia|]. eexists. split; [exact Ep|]. split; [apply H4; exact Hv|reflexivity]. }
  unfold init_patches in E. change (map (fun p : nat => [p]) (seq 0 (length verts))) with els in E. rewrite Es in E. cbn [bind] in E.
  injection E as <-. cbn [t_store]. unfold again_store. destruct a as [|p [|q r]].
  - pose proof (A []) as A0. cbn in A0. destruct (s []); [contradiction|reflexivity].
  - unfold patch_store at 1. destruct (nth_error verts' p) as [vs'|] eqn:Ev; [|reflexivity].
    assert (Hp : p < length verts) by (rewrite <- Hlen; eapply lookup_lt; eauto).
    destruct (Hn p Hp) as [vs [_ Ep]]. pose proof (A [p]) as Ap. rewrite Ep in Ap. destruct (s [p]) as [n|]; [|contradiction].
    destruct Ap as [l [-> _]]. reflexivity.
  - pose proof (A (p :: q :: r)) as A0. cbn in A0. destruct (s (p :: q :: r)); [contradiction|reflexivity].
Qed.

(** a cluster tree that was initialised with level 0, and not refined since, can be initialised again, with another geometry with the
    same number of patches and any level: the result is that of a new one *)
Theorem C74_unrefined : forall (Pt : Type) (close : Pt -> Pt -> bool) corners corners' t M,
  (forall c, In c corners -> length c = 4) -> length corners' = length corners ->
  init_tree close corners 0 = Some t -> init_again close t corners' M = init_tree close corners' M.
Proof.
  intros Pt close corners corners' t M H4 Hlen E. unfold init_tree in E. unfold init_again, init_tree.
  destruct (patch_vertices close [] corners) as [verts pts] eqn:Ev.
  destruct (patch_vertices close [] corners') as [verts' pts'] eqn:Ev'.
  destruct (patch_vertices_length close corners []) as [L I]. rewrite Ev in L, I. cbn [fst snd] in L, I.
  destruct (patch_vertices_length close corners' []) as [L' _]. rewrite Ev' in L'. cbn [fst snd] in L'.
  destruct (init_patches verts (length pts) 0) as [t1|] eqn:E1; [|discriminate]. cbn [bind] in E. unfold refine_times in E. cbn [for_opt] in E.
  injection E as ->.
  assert (Hv : forall vs, In vs verts -> length vs = 4).
  { exact (I H4). }
  assert (HP : t_patches t = length verts).
  { unfold init_patches in E1. destruct (update_topology _ _); [|discriminate]. cbn [bind] in E1. injection E1 as <-. reflexivity. }
  rewrite HP. replace (length verts' =? length verts) with true by (symmetry; apply Nat.eqb_eq; lia). cbn [assert bind].
  replace (again_store (t_store t) verts') with (patch_store verts').
  - unfold init_patches. destruct (update_topology _ _); reflexivity.
  - apply functional_extensionality. intros a. symmetry. eapply first_init; eauto. lia.
Qed.

(** a cluster tree that was refined can not: one square, initialised twice with level 1.  get_number_of_elements() returns 13, an
    iteration over the elements visits one of them *)
Theorem C74_reinit_refuted : exists t1 t2 l,
  init_tree Nat.eqb [[0; 1; 2; 3]] 1 = Some t1 /\ init_again Nat.eqb t1 [[0; 1; 2; 3]] 1 = Some t2
  /\ t_elements t1 = 4 /\ t_elements t2 = 13 /\ traverse t2 = Some l /\ length l = 1.
Proof.
  assert (E : (t1 <- init_tree Nat.eqb [[0; 1; 2; 3]] 1 ;; t2 <- init_again Nat.eqb t1 [[0; 1; 2; 3]] 1 ;; l <- traverse t2 ;;
    Some (t_elements t1, t_elements t2, length l)) = Some (4, 13, 1)) by (vm_compute; reflexivity).
  apply bind_some in E. destruct E as [t1 [E1 E]]. apply bind_some in E. destruct E as [t2 [E2 E]].
  apply bind_some in E. destruct E as [l [E3 E]]. apply some_inj in E. symmetry in E.
  exists t1, t2, l. assert (Ea := f_equal (fun z => fst (fst z)) E). assert (Eb := f_equal (fun z => snd (fst z)) E).
  assert (Ec := f_equal snd E). cbn [fst snd] in Ea, Eb, Ec. split; [exact E1|]. split; [exact E2|]. split; [exact Ea|]. split; [exact Eb|]. split; [exact E3|]. exact Ec.
Qed.

(** two geometries, one of them copied and changed, spaces initialised several times *)
Example two_initialisations :
  let os := [GNew 1; GCopy 0; GChange 1 5; SDefault; SInit 0 0 2 3 1; SCopy 0; SInit 0 1 4 2 1; GInit 0 7; GMove 0; SInit 1 2 0 0 1; SAssign 0 1] in
  meanings os = Some ([NoGeo; Geo 5 true; Geo 7 true], [Space 7 0 0 1; Space 7 0 0 1])
  /\ exists m, execute (fun v l => (v, l)) (fun m d r => (m, d, r)) os = Some m /\ show_space m 0 = Some ((7, 0), 7, 0, 1, ((7, 0), 0, 1)).
Proof. split; [reflexivity|]. eexists. split; [vm_compute; reflexivity|vm_compute; reflexivity]. Qed.
Example unrefined_square : exists t, init_tree Nat.eqb [[0; 1; 2; 3]] 0 = Some t /\ init_again Nat.eqb t [[4; 5; 6; 7]] 1 = init_tree Nat.eqb [[4; 5; 6; 7]] 1.
Proof.
  assert (E : (t <- init_tree Nat.eqb [[0; 1; 2; 3]] 0 ;; Some (t_elements t)) = Some 1) by (vm_compute; reflexivity).
  apply bind_some in E. destruct E as [t [E _]]. exists t. split; [exact E|].
  eapply C74_unrefined; [|reflexivity|exact E]. intros c [<-|[]]. reflexivity.
Qed.

(* BEGIN ASSUMPTIONS *)
Print Assumptions C74_values.
Print Assumptions C74_change_after_init_refuted.
Print Assumptions C74_unrefined.
Print Assumptions C74_reinit_refuted.
