(** Vertex indices identify exactly the points of the glued surface (C18). *)
From Coq Require Import List Arith Bool Lia.
From Verif Require Import ModelBase ModelTree SpecTree SpecMesh ProofTree ProofTreeWF ProofTreeHist ProofTreeGeo ProofTopo ProofConf ProofConfStep ProofConfTree ProofConfHist.
Import ListNotations.

(** ** arithmetic of glued grids *)
Section Grid.
Variable verts : list (list nat).
Hypothesis M : mesh_ok verts.
Let P := length verts.
Notation sp := (same_point verts).

Lemma pvert_inj : forall p k m, p < P -> k < 4 -> m < 4 -> pvert verts p k = pvert verts p m -> k = m.
Proof.
  intros p k m Hp Hk Hm E. unfold pvert in E. assert (Hin : In (nth p verts []) verts) by (apply nth_In; assumption).
  pose proof (mo_len verts M _ Hin) as L.
  apply (proj1 (NoDup_nth (nth p verts []) 0) (mo_nodup verts M _ Hin)) in E; lia.
Qed.

Lemma aligned_self : forall p i j, p < P -> i < 4 -> j < 4 -> aligned verts p i p j -> i = j.
Proof. intros p i j Hp Hi Hj [E _]. apply (pvert_inj p); auto. Qed.
Lemma opposed_self : forall p i j, p < P -> i < 4 -> j < 4 -> ~ opposed verts p i p j.
Proof.
  intros p i j Hp Hi Hj [E F]. fold (nx i) in F. fold (nx j) in E. apply (pvert_inj p) in E; auto using nx_lt. apply (pvert_inj p) in F; auto using nx_lt.
  revert E F. unfold nx. four Hi; four Hj; simpl; lia.
Qed.
Lemma not_both : forall p i q j, p < P -> i < 4 -> aligned verts p i q j -> opposed verts p i q j -> False.
Proof.
  intros p i q j Hp Hi [A B] [C D]. assert (E : pvert verts p i = pvert verts p (nx i)) by (unfold nx; congruence).
  apply (pvert_inj p) in E; auto using nx_lt. revert E. unfold nx. four Hi; simpl; lia.
Qed.

Lemma on_edge_fun : forall E i s X Y X' Y', i < 4 -> on_edge E i s X Y -> on_edge E i s X' Y' -> X = X' /\ Y = Y'.
Proof. intros E i s X Y X' Y' Hi [H1 H2] [H3 H4]. four Hi; simpl in *; lia. Qed.
Lemma corner_fun : forall E k X Y X' Y', corner_pos E k X Y -> corner_pos E k X' Y' -> X = X' /\ Y = Y'.
Proof. intros E k X Y X' Y' [-> ->] [-> ->]. auto. Qed.

Lemma same_patch : forall E p X Y X' Y', p < P -> sp E p X Y p X' Y' -> X = X' /\ Y = Y'.
Proof.
  intros E p X Y X' Y' Hp [[_ H]|[[k [m [Hk [Hm [C1 [C2 V]]]]]]|[i [j [s [s' [Hi [Hj [O1 [O2 H]]]]]]]]]].
  - assumption.
  - apply (pvert_inj p) in V; auto. subst m. eapply corner_fun; eassumption.
  - destruct H as [[A ->]|[A _]].
    + apply aligned_self in A; auto. subst j. eapply on_edge_fun; eassumption.
    + apply opposed_self in A; auto. tauto.
Qed.

Lemma sp_sym : forall E p X Y q X' Y', sp E p X Y q X' Y' -> sp E q X' Y' p X Y.
Proof.
  intros E p X Y q X' Y' [[-> [-> ->]]|[[k [m [Hk [Hm [C1 [C2 V]]]]]]|[i [j [s [s' [Hi [Hj [O1 [O2 H]]]]]]]]]].
  - left. auto.
  - right; left. exists m, k. auto 10.
  - right; right. exists j, i, s', s. repeat (split; [assumption|]). destruct H as [[[A B] ->]|[[A B] H]].
    + left. unfold aligned. auto.
    + right. unfold opposed. split; [auto|lia].
Qed.

(** doubling the grid *)
Lemma on_edge_double : forall E i s X Y, on_edge E i s X Y <-> on_edge (2 * E) i (2 * s) (2 * X) (2 * Y).
Proof.
  intros E i s X Y. unfold on_edge. destruct i as [|[|[|i]]]; lia.
Qed.
Lemma on_edge_even : forall E i s X Y, on_edge (2 * E) i s (2 * X) (2 * Y) -> exists r, s = 2 * r.
Proof.
  intros E i s X Y [H1 H2]. destruct i as [|[|[|i]]]; simpl in H2.
  - exists X; lia.
  - exists Y; lia.
  - exists (E - X); lia.
  - exists (E - Y); lia.
Qed.
Lemma corner_double : forall E k X Y, corner_pos E k X Y <-> corner_pos (2 * E) k (2 * X) (2 * Y).
Proof. intros. unfold corner_pos. rewrite <- !Nat.mul_assoc. lia. Qed.

Lemma sp_double : forall E p X Y q X' Y',
  sp E p X Y q X' Y' <-> sp (2 * E) p (2 * X) (2 * Y) q (2 * X') (2 * Y').
Proof.
  intros E p X Y q X' Y'. split.
  - intros [[-> [-> ->]]|[[k [m [Hk [Hm [C1 [C2 V]]]]]]|[i [j [s [s' [Hi [Hj [O1 [O2 H]]]]]]]]]].
    + left. auto.
    + right; left. exists k, m. rewrite <- !corner_double. auto.
    + right; right. exists i, j, (2 * s), (2 * s'). rewrite <- !on_edge_double. repeat (split; [assumption|]).
      destruct H as [[A ->]|[A H]]; [left; auto|right; split; [assumption|lia]].
  - intros [[-> [H1 H2]]|[[k [m [Hk [Hm [C1 [C2 V]]]]]]|[i [j [s [s' [Hi [Hj [O1 [O2 H]]]]]]]]]].
    + left. lia.
    + right; left. exists k, m. rewrite <- corner_double in C1, C2. auto.
    + right; right. destruct (on_edge_even _ _ _ _ _ O1) as [r ->]. destruct (on_edge_even _ _ _ _ _ O2) as [r' ->].
      rewrite <- on_edge_double in O1, O2. exists i, j, r, r'. repeat (split; [assumption|]).
      destruct H as [[A H]|[A H]]; [left; split; [assumption|lia]|right; split; [assumption|lia]].
Qed.
Lemma sp_scale : forall n E p X Y q X' Y',
  sp E p X Y q X' Y' <-> sp (2 ^ n * E) p (2 ^ n * X) (2 ^ n * Y) q (2 ^ n * X') (2 ^ n * Y').
Proof.
  induction n as [|n IH]; intros E p X Y q X' Y'.
  - simpl. rewrite !Nat.add_0_r. tauto.
  - rewrite IH, sp_double. rewrite !Nat.pow_succ_r', <- !Nat.mul_assoc. tauto.
Qed.

(** parity *)
Definition even_pt (X Y : nat) : Prop := exists x y, X = 2 * x /\ Y = 2 * y.
Definition mid_pt (X Y : nat) : Prop := exists x y, (X = 2 * x + 1 /\ Y = 2 * y) \/ (X = 2 * x /\ Y = 2 * y + 1).
Definition ctr_pt (X Y : nat) : Prop := exists x y, X = 2 * x + 1 /\ Y = 2 * y + 1.

Lemma edge_parity : forall E i s X Y, on_edge (2 * E) i s X Y ->
  (exists r, s = 2 * r /\ even_pt X Y) \/ (exists r, s = 2 * r + 1 /\ mid_pt X Y).
Proof.
  intros E i s X Y [H1 H2]. assert (D : exists r, s = 2 * r \/ s = 2 * r + 1) by (destruct (Nat.Even_or_Odd s) as [[r Hr]|[r Hr]]; exists r; lia).
  destruct D as [r [-> | ->]]; [left|right]; exists r; (split; [reflexivity|]); destruct i as [|[|[|i]]]; destruct H2 as [H2 H3].
  - exists r, 0. lia.
  - exists E, r. lia.
  - exists (E - r), E. lia.
  - exists 0, (E - r). lia.
  - exists r, 0. left. lia.
  - exists E, r. right. lia.
  - exists (E - r - 1), E. left. lia.
  - exists 0, (E - r - 1). right. lia.
Qed.
Lemma corner_parity : forall E k X Y, corner_pos (2 * E) k X Y -> even_pt X Y.
Proof. intros E k X Y [-> ->]. exists (E * quad_x k), (E * quad_y k). lia. Qed.
Lemma em : forall X Y, even_pt X Y -> mid_pt X Y -> False.
Proof. intros X Y [x [y [-> ->]]] [u [v H]]. lia. Qed.
Lemma ec : forall X Y, even_pt X Y -> ctr_pt X Y -> False.
Proof. intros X Y [x [y [-> ->]]] [u [v H]]. lia. Qed.
Lemma mc : forall X Y, mid_pt X Y -> ctr_pt X Y -> False.
Proof. intros X Y [x [y H]] [u [v H']]. lia. Qed.

(** the parity class is an invariant of the point *)
Lemma sp_even : forall E p X Y q X' Y', sp (2 * E) p X Y q X' Y' -> even_pt X Y -> even_pt X' Y'.
Proof.
  intros E p X Y q X' Y' [[-> [-> ->]]|[[k [m [Hk [Hm [C1 [C2 V]]]]]]|[i [j [s [s' [Hi [Hj [O1 [O2 H]]]]]]]]]] Ev.
  - assumption.
  - eapply corner_parity; eassumption.
  - destruct (edge_parity _ _ _ _ _ O1) as [[r [Hr _]]|[r [Hr Q]]]; [|destruct (em X Y Ev Q)].
    destruct (edge_parity _ _ _ _ _ O2) as [[r' [Hr' Q']]|[r' [Hr' _]]]; [assumption|]. lia.
Qed.
Lemma sp_ctr : forall E p X Y q X' Y', sp (2 * E) p X Y q X' Y' -> ctr_pt X Y -> p = q /\ X = X' /\ Y = Y'.
Proof.
  intros E p X Y q X' Y' [H|[[k [m [Hk [Hm [C1 [C2 V]]]]]]|[i [j [s [s' [Hi [Hj [O1 [O2 H]]]]]]]]]] Ct.
  - assumption.
  - apply corner_parity in C1. destruct (ec X Y C1 Ct).
  - destruct (edge_parity _ _ _ _ _ O1) as [[r [_ Q]]|[r [_ Q]]]; [destruct (ec X Y Q Ct)|destruct (mc X Y Q Ct)].
Qed.

(** mid points of grid edges *)
Definition adjacent (Ax Ay Bx By : nat) : Prop :=
  (Ay = By /\ (Bx = Ax + 1 \/ Ax = Bx + 1)) \/ (Ax = Bx /\ (By = Ay + 1 \/ Ay = By + 1)).
Lemma adj_mid : forall Ax Ay Bx By, adjacent Ax Ay Bx By -> mid_pt (Ax + Bx) (Ay + By).
Proof.
  intros Ax Ay Bx By [[-> [-> | ->]]|[-> [-> | ->]]].
  - exists Ax, By. lia.
  - exists Bx, By. lia.
  - exists Bx, Ay. lia.
  - exists Bx, By. lia.
Qed.

Lemma edge_split : forall E i s Ax Ay Bx By, i < 4 -> Ax <= E -> Ay <= E -> Bx <= E -> By <= E ->
  on_edge (2 * E) i s (Ax + Bx) (Ay + By) -> exists a b, on_edge E i a Ax Ay /\ on_edge E i b Bx By /\ s = a + b.
Proof.
  intros E i s Ax Ay Bx By Hi B1 B2 B3 B4 [H1 H2]. unfold on_edge. four Hi; simpl in *.
  - exists Ax, Bx. lia.
  - exists Ay, By. lia.
  - exists (E - Ax), (E - Bx). lia.
  - exists (E - Ay), (E - By). lia.
Qed.
Lemma edge_join : forall E i a b Ax Ay Bx By, i < 4 -> on_edge E i a Ax Ay -> on_edge E i b Bx By ->
  on_edge (2 * E) i (a + b) (Ax + Bx) (Ay + By).
Proof. intros E i a b Ax Ay Bx By Hi [H1 H2] [H3 H4]. unfold on_edge. four Hi; simpl in *; lia. Qed.
Lemma edge_adjacent : forall E i a b Ax Ay Bx By, i < 4 -> on_edge E i a Ax Ay -> on_edge E i b Bx By ->
  adjacent Ax Ay Bx By -> b = a + 1 \/ a = b + 1.
Proof. intros E i a b Ax Ay Bx By Hi [H1 H2] [H3 H4] [H|H]; four Hi; simpl in *; lia. Qed.

Lemma mid_same_1 : forall E p Ax Ay Bx By q Ax' Ay' Bx' By',
  Ax <= E -> Ay <= E -> Bx <= E -> By <= E -> Ax' <= E -> Ay' <= E -> Bx' <= E -> By' <= E ->
  adjacent Ax Ay Bx By -> adjacent Ax' Ay' Bx' By' ->
  sp (2 * E) p (Ax + Bx) (Ay + By) q (Ax' + Bx') (Ay' + By') ->
  (sp E p Ax Ay q Ax' Ay' /\ sp E p Bx By q Bx' By') \/ (sp E p Ax Ay q Bx' By' /\ sp E p Bx By q Ax' Ay').
Proof.
  intros E p Ax Ay Bx By q Ax' Ay' Bx' By' B1 B2 B3 B4 B1' B2' B3' B4' Ad Ad'
    [[-> [H1 H2]]|[[k [m [Hk [Hm [C1 [C2 V]]]]]]|[i [j [s [s' [Hi [Hj [O1 [O2 H]]]]]]]]]].
  - assert (D : (Ax = Ax' /\ Ay = Ay' /\ Bx = Bx' /\ By = By') \/ (Ax = Bx' /\ Ay = By' /\ Bx = Ax' /\ By = Ay')).
    { unfold adjacent in *. lia. }
    destruct D as [[-> [-> [-> ->]]]|[-> [-> [-> ->]]]]; [left|right]; split; left; auto.
  - apply corner_parity in C1. destruct (em _ _ C1 (adj_mid _ _ _ _ Ad)).
  - apply edge_split in O1; auto. apply edge_split in O2; auto.
    destruct O1 as [a [b [Oa [Ob ->]]]], O2 as [a' [b' [Oa' [Ob' ->]]]].
    pose proof (edge_adjacent E i a b _ _ _ _ Hi Oa Ob Ad) as D. pose proof (edge_adjacent E j a' b' _ _ _ _ Hj Oa' Ob' Ad') as D'.
    destruct H as [[A H]|[A H]].
    + assert (K : (a = a' /\ b = b') \/ (a = b' /\ b = a')) by lia. destruct K as [[-> ->]|[-> ->]]; [left|right]; split; right; right.
      * exists i, j, a', a'. auto 10.
      * exists i, j, b', b'. auto 10.
      * exists i, j, b', b'. auto 10.
      * exists i, j, a', a'. auto 10.
    + assert (K : (a + a' = E /\ b + b' = E) \/ (a + b' = E /\ b + a' = E)).
      { destruct Oa as [Oa _], Ob as [Ob _], Oa' as [Oa' _], Ob' as [Ob' _]. lia. }
      destruct K as [[K1 K2]|[K1 K2]]; [left|right]; split; right; right.
      * exists i, j, a, a'. auto 10.
      * exists i, j, b, b'. auto 10.
      * exists i, j, a, b'. auto 10.
      * exists i, j, b, a'. auto 10.
Qed.

(** a corner point on edge i is one of its end points *)
Lemma corner_on_edge : forall E k i X Y s, 0 < E -> k < 4 -> i < 4 -> corner_pos E k X Y -> on_edge E i s X Y ->
  (k = i /\ s = 0) \/ (k = nx i /\ s = E).
Proof. intros E k i X Y s HE Hk Hi [-> ->] [H1 H2]. unfold nx. four Hk; four Hi; simpl in *; lia. Qed.
Lemma edge_corner0 : forall E i, i < 4 -> corner_pos E i (E * quad_x i) (E * quad_y i) /\ on_edge E i 0 (E * quad_x i) (E * quad_y i).
Proof. intros E i Hi. unfold corner_pos, on_edge. four Hi; simpl; lia. Qed.
Lemma edge_corner1 : forall E i, i < 4 -> on_edge E i E (E * quad_x (nx i)) (E * quad_y (nx i)).
Proof. intros E i Hi. unfold on_edge, nx. four Hi; simpl; lia. Qed.

(** glued edges with their end points *)
Lemma glue_unique : forall p q i j i2 j2, p < P -> q < P -> p <> q -> i < 4 -> j < 4 -> i2 < 4 -> j2 < 4 ->
  glued verts p i q j -> glued verts p i2 q j2 -> i = i2 /\ j = j2.
Proof.
  intros p q i j i2 j2 Hp Hq Hne Hi Hj Hi2 Hj2 G1 G2. split; [eapply (mo_one verts M p i j q i2 j2); eauto|].
  assert (S : forall x y, glued verts p x q y -> glued verts q y p x).
  { intros x y [[A B]|[A B]]; [left|right]; unfold aligned, opposed; auto. }
  apply (mo_one verts M q j i p j2 i2); auto.
Qed.

(** points of two different patches: on a pair of glued edges with matching parameters, or corners *)
Definition on_glue (E p X Y q X' Y' i j : nat) : Prop :=
  exists s s', on_edge E i s X Y /\ on_edge E j s' X' Y' /\
     ((aligned verts p i q j /\ s = s') \/ (opposed verts p i q j /\ s + s' = E)).

(** a corner point common to both patches that lies on an edge glued to q *)
Lemma corner_glue : forall E p q k m X Y X' Y' i j s, 0 < E -> p < P -> q < P -> k < 4 -> m < 4 -> i < 4 -> j < 4 ->
  corner_pos E k X Y -> corner_pos E m X' Y' -> pvert verts p k = pvert verts q m -> glued verts p i q j ->
  on_edge E i s X Y -> on_glue E p X Y q X' Y' i j.
Proof.
  intros E p q k m X Y X' Y' i j s HE Hp Hq Hk Hm Hi Hj C1 C2 V G O.
  pose proof (corner_on_edge E k i X Y s HE Hk Hi C1 O) as D. destruct C2 as [-> ->].
  destruct D as [[-> ->]|[-> ->]]; destruct G as [[A B]|[A B]].
  - assert (m = j) by (apply (pvert_inj q); auto; congruence). subst m. exists 0, 0. split; [assumption|].
    split; [apply edge_corner0; assumption|]. left. split; [split; assumption|reflexivity].
  - assert (m = nx j) by (apply (pvert_inj q); auto using nx_lt; unfold nx; congruence). subst m. exists 0, E. split; [assumption|].
    split; [apply edge_corner1; assumption|]. right. split; [split; assumption|lia].
  - assert (m = nx j) by (apply (pvert_inj q); auto using nx_lt; unfold nx in *; congruence). subst m. exists E, E. split; [assumption|].
    split; [apply edge_corner1; assumption|]. left. split; [split; assumption|reflexivity].
  - assert (m = j) by (apply (pvert_inj q); auto; unfold nx in *; congruence). subst m. exists E, 0. split; [assumption|].
    split; [apply edge_corner0; assumption|]. right. split; [split; assumption|lia].
Qed.

Lemma glue_join : forall E p q Ax Ay Bx By Ax' Ay' Bx' By' i j, p < P -> i < 4 -> j < 4 ->
  on_glue E p Ax Ay q Ax' Ay' i j -> on_glue E p Bx By q Bx' By' i j ->
  sp (2 * E) p (Ax + Bx) (Ay + By) q (Ax' + Bx') (Ay' + By').
Proof.
  intros E p q Ax Ay Bx By Ax' Ay' Bx' By' i j Hp Hi Hj [a [a' [Oa [Oa' Ha]]]] [b [b' [Ob [Ob' Hb]]]].
  right; right. exists i, j, (a + b), (a' + b'). split; [assumption|]. split; [assumption|].
  split; [apply edge_join; assumption|]. split; [apply edge_join; assumption|].
  destruct Ha as [[A Ha]|[A Ha]], Hb as [[B Hb]|[B Hb]].
  - left. split; [assumption|lia].
  - destruct (not_both p i q j); assumption.
  - destruct (not_both p i q j); assumption.
  - right. split; [assumption|lia].
Qed.

(** two adjacent grid points that are corners *)
Lemma adjacent_corners : forall E k k' Ax Ay Bx By, 0 < E -> k < 4 -> k' < 4 -> corner_pos E k Ax Ay -> corner_pos E k' Bx By ->
  adjacent Ax Ay Bx By -> E = 1 /\ exists i, i < 4 /\ ((k = i /\ k' = nx i) \/ (k' = i /\ k = nx i)).
Proof.
  intros E k k' Ax Ay Bx By HE Hk Hk' [-> ->] [-> ->] Ad. unfold adjacent, nx in *.
  four Hk; four Hk'; simpl in Ad; try lia; (split; [lia|]).
  all: first [ exists 0; simpl; lia | exists 1; simpl; lia | exists 2; simpl; lia | exists 3; simpl; lia ].
Qed.
(** a corner next to a point of edge i, not on edge i: then that point is a corner as well *)
Lemma corner_next : forall E k i s Ax Ay Bx By, 0 < E -> k < 4 -> i < 4 -> corner_pos E k Ax Ay -> on_edge E i s Bx By ->
  adjacent Ax Ay Bx By -> (exists r, on_edge E i r Ax Ay) \/ exists k', k' < 4 /\ corner_pos E k' Bx By /\ (k' = i /\ s = 0 \/ k' = nx i /\ s = E).
Proof.
  intros E k i s Ax Ay Bx By HE Hk Hi [-> ->] [H1 H2] Ad. unfold adjacent, nx, on_edge, corner_pos in *.
  four Hk; four Hi; simpl in Ad, H2 |- *;
  first [ left; exists 0; lia | left; exists E; lia | right; first [ exists 0; simpl; lia | exists 1; simpl; lia | exists 2; simpl; lia | exists 3; simpl; lia ] ].
Qed.

Lemma mid_same_2 : forall E p Ax Ay Bx By q Ax' Ay' Bx' By', 0 < E -> p < P -> q < P ->
  adjacent Ax Ay Bx By -> adjacent Ax' Ay' Bx' By' ->
  sp E p Ax Ay q Ax' Ay' -> sp E p Bx By q Bx' By' ->
  sp (2 * E) p (Ax + Bx) (Ay + By) q (Ax' + Bx') (Ay' + By').
Proof.
  intros E p Ax Ay Bx By q Ax' Ay' Bx' By' HE Hp Hq Ad Ad' SA SB.
  destruct (Nat.eq_dec p q) as [<-|Hne].
  { apply same_patch in SA; auto. apply same_patch in SB; auto. destruct SA as [-> ->], SB as [-> ->]. left. auto. }
  (* corners only *)
  assert (CC : forall k m k' m', k < 4 -> m < 4 -> k' < 4 -> m' < 4 ->
    corner_pos E k Ax Ay -> corner_pos E m Ax' Ay' -> pvert verts p k = pvert verts q m ->
    corner_pos E k' Bx By -> corner_pos E m' Bx' By' -> pvert verts p k' = pvert verts q m' ->
    sp (2 * E) p (Ax + Bx) (Ay + By) q (Ax' + Bx') (Ay' + By')).
  { intros k m k' m' Hk Hm Hk' Hm' C1 C2 V C1' C2' V'.
    destruct (adjacent_corners E k k' Ax Ay Bx By HE Hk Hk' C1 C1' Ad) as [_ [i [Hi Di]]].
    destruct (adjacent_corners E m m' Ax' Ay' Bx' By' HE Hm Hm' C2 C2' Ad') as [_ [j [Hj Dj]]].
    assert (G : glued verts p i q j).
    { unfold glued, aligned, opposed. unfold nx in *. destruct Di as [[-> ->]|[-> ->]], Dj as [[-> ->]|[-> ->]]; auto. }
    assert (On : forall k X Y, corner_pos E k X Y -> k = i \/ k = nx i -> exists s, on_edge E i s X Y).
    { intros k0 X Y [-> ->] [->| ->]; [exists 0; apply edge_corner0; assumption|exists E; apply edge_corner1; assumption]. }
    destruct (On k Ax Ay C1) as [s Os]; [tauto|]. destruct (On k' Bx By C1') as [s' Os']; [tauto|].
    apply (glue_join E p q _ _ _ _ _ _ _ _ i j); auto.
    - eapply (corner_glue E p q k m); eauto.
    - eapply (corner_glue E p q k' m'); eauto. }
  (* a corner and a point on glued edges *)
  assert (CE : forall k m i j Ax Ay Bx By Ax' Ay' Bx' By', 
    adjacent Ax Ay Bx By -> adjacent Ax' Ay' Bx' By' -> k < 4 -> m < 4 -> i < 4 -> j < 4 ->
    (forall k' m', k' < 4 -> m' < 4 -> corner_pos E k' Bx By -> corner_pos E m' Bx' By' -> pvert verts p k' = pvert verts q m' ->
       sp (2 * E) p (Ax + Bx) (Ay + By) q (Ax' + Bx') (Ay' + By')) ->
    corner_pos E k Ax Ay -> corner_pos E m Ax' Ay' -> pvert verts p k = pvert verts q m ->
    on_glue E p Bx By q Bx' By' i j ->
    sp (2 * E) p (Ax + Bx) (Ay + By) q (Ax' + Bx') (Ay' + By')).
  { clear Ax Ay Bx By Ax' Ay' Bx' By' Ad Ad' SA SB CC.
    intros k m i j Ax Ay Bx By Ax' Ay' Bx' By' Ad Ad' Hk Hm Hi Hj CC C1 C2 V OG.
    assert (G : glued verts p i q j) by (destruct OG as [s [s' [_ [_ [[A _]|[A _]]]]]]; [left|right]; assumption).
    pose proof OG as [s [s' [O1 [O2 H]]]].
    destruct (corner_next E k i s Ax Ay Bx By HE Hk Hi C1 O1 Ad) as [[r Or]|[k' [Hk' [Ck' D]]]].
    - apply (glue_join E p q _ _ _ _ _ _ _ _ i j); auto. eapply (corner_glue E p q k m); eauto.
    - (* both corners *)
      assert (K : exists m', m' < 4 /\ corner_pos E m' Bx' By' /\ pvert verts p k' = pvert verts q m').
      { destruct H as [[[A B] ->]|[[A B] H]]; destruct D as [[-> D]|[-> D]].
        - exists j. subst s'. split; [assumption|]. split; [|assumption].
          destruct (on_edge_fun E j 0 _ _ _ _ Hj O2 (proj2 (edge_corner0 E j Hj))) as [-> ->]. apply edge_corner0; assumption.
        - exists (nx j). subst s'. split; [apply nx_lt|]. split; [|assumption].
          destruct (on_edge_fun E j E _ _ _ _ Hj O2 (edge_corner1 E j Hj)) as [-> ->]. split; reflexivity.
        - exists (nx j). replace s' with E in O2 by lia. split; [apply nx_lt|]. split; [|assumption].
          destruct (on_edge_fun E j E _ _ _ _ Hj O2 (edge_corner1 E j Hj)) as [-> ->]. split; reflexivity.
        - exists j. replace s' with 0 in O2 by lia. split; [assumption|]. split; [|assumption].
          destruct (on_edge_fun E j 0 _ _ _ _ Hj O2 (proj2 (edge_corner0 E j Hj))) as [-> ->]. apply edge_corner0; assumption. }
      destruct K as [m' [Hm' [Cm' V']]]. apply (CC k' m'); assumption. }
  destruct SA as [[F _]|[[k [m [Hk [Hm [C1 [C2 V]]]]]]|[i [j [s [s' [Hi [Hj [O1 [O2 H]]]]]]]]]]; [tauto| |];
  destruct SB as [[F _]|[[k' [m' [Hk' [Hm' [C1' [C2' V']]]]]]|[i' [j' [r [r' [Hi' [Hj' [O1' [O2' H']]]]]]]]]]; try tauto.
  - apply (CC k m k' m'); assumption.
  - apply (CE k m i' j' Ax Ay Bx By Ax' Ay' Bx' By'); auto.
    + intros k' m' Hk' Hm' C3 C4 V'. apply (CC k m k' m'); assumption.
    + exists r, r'. auto.
  - rewrite (Nat.add_comm Ax), (Nat.add_comm Ay), (Nat.add_comm Ax'), (Nat.add_comm Ay').
    apply (CE k' m' i j Bx By Ax Ay Bx' By' Ax' Ay'); auto.
    + unfold adjacent in *; lia.
    + unfold adjacent in *; lia.
    + intros k m Hk Hm C3 C4 V. rewrite (Nat.add_comm Bx), (Nat.add_comm By), (Nat.add_comm Bx'), (Nat.add_comm By').
      apply (CC k m k' m'); assumption.
    + exists s, s'. auto.
  - assert (G : glued verts p i q j) by (destruct H as [[A _]|[A _]]; [left|right]; assumption).
    assert (G' : glued verts p i' q j') by (destruct H' as [[A _]|[A _]]; [left|right]; assumption).
    destruct (glue_unique p q i j i' j' Hp Hq Hne Hi Hj Hi' Hj' G G') as [<- <-].
    apply (glue_join E p q _ _ _ _ _ _ _ _ i j); auto; [exists s, s'|exists r, r']; auto.
Qed.
End Grid.
