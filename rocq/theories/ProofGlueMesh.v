(** Identifications on patch meshes (C22, C23). *)
From Coq Require Import List Arith Bool ZArith Lia Permutation Relations.
From Verif Require Import ModelBase ModelTree ModelGlue SpecTree SpecMesh SpecGlue ProofTreeWF ProofTreeHist ProofConf ProofConfTree ProofConfHist ProofConfPts ProofTopoInfo ProofGlueMat ProofGlueId ProofGlueEdge.
Import ListNotations.
Local Open Scope nat_scope.

Section Mesh.
Variable verts : list (list nat).
Hypothesis M : mesh_ok verts.
Let P := length verts.
Notation sp := (same_point verts).

(** a corner on a glued edge continues as a corner *)
Lemma glue_to_corner : forall E p q k X Y X' Y' i j, 0 < E -> k < 4 -> i < 4 -> j < 4 ->
  corner_pos E k X Y -> on_glue verts E p X Y q X' Y' i j ->
  exists m, m < 4 /\ corner_pos E m X' Y' /\ pvert verts p k = pvert verts q m.
Proof.
  intros E p q k X Y X' Y' i j HE Hk Hi Hj C (s & s' & O1 & O2 & G).
  pose proof (corner_on_edge verts E k i X Y s HE Hk Hi C O1) as D.
  assert (C0 : s' = 0 -> corner_pos E j X' Y').
  { intros ->. destruct (edge_corner0 verts E j Hj) as [C0 O0]. destruct (on_edge_fun _ _ _ _ _ _ _ Hj O2 O0) as [-> ->]. assumption. }
  assert (C1 : s' = E -> corner_pos E (nx j) X' Y').
  { intros ->. pose proof (edge_corner1 verts E j Hj) as O0. destruct (on_edge_fun _ _ _ _ _ _ _ Hj O2 O0) as [-> ->]. split; reflexivity. }
  destruct D as [[-> ->]|[-> ->]], G as [[[A B] G]|[[A B] G]].
  - exists j. auto using eq_sym.
  - exists (nx j). split; [apply nx_lt|]. split; [apply C1; lia|assumption].
  - exists (nx j). split; [apply nx_lt|]. split; [apply C1; lia|assumption].
  - exists j. split; [assumption|]. split; [apply C0; lia|assumption].
Qed.
Lemma on_glue_sym : forall E p X Y q X' Y' i j, on_glue verts E p X Y q X' Y' i j -> on_glue verts E q X' Y' p X Y j i.
Proof.
  intros E p X Y q X' Y' i j (s & s' & O1 & O2 & G). exists s', s. split; [assumption|]. split; [assumption|].
  destruct G as [[[A B] G]|[[A B] G]]; [left|right]; (split; [split; auto|lia]).
Qed.
Lemma on_glue_glued : forall E p X Y q X' Y' i j, on_glue verts E p X Y q X' Y' i j -> glued verts p i q j.
Proof. intros E p X Y q X' Y' i j (s & s' & O1 & O2 & [[G _]|[G _]]); [left|right]; assumption. Qed.
(** a point on two edges is a corner *)
Lemma two_edges_corner : forall E j j' s t X Y, 0 < E -> j < 4 -> j' < 4 -> j <> j' -> on_edge E j s X Y -> on_edge E j' t X Y ->
  exists m, m < 4 /\ corner_pos E m X Y.
Proof.
  intros E j j' s t X Y HE Hj Hj' Ne [A B] [C D]. unfold corner_pos.
  four Hj; four Hj'; simpl in B, D; try (exfalso; lia);
    first [exists 0; simpl; lia | exists 1; simpl; lia | exists 2; simpl; lia | exists 3; simpl; lia].
Qed.
Lemma corner_unique : forall E k m X Y, 0 < E -> k < 4 -> m < 4 -> corner_pos E k X Y -> corner_pos E m X Y -> k = m.
Proof. intros E k m X Y HE Hk Hm [A B] [C D]. four Hk; four Hm; simpl in *; lia. Qed.

Lemma sp_trans : forall E p X Y q X' Y' r X2 Y2, 0 < E -> p < P -> q < P -> r < P ->
  sp E p X Y q X' Y' -> sp E q X' Y' r X2 Y2 -> sp E p X Y r X2 Y2.
Proof.
  intros E p X Y q X' Y' r X2 Y2 HE Hp Hq Hr H1 H2.
  destruct H1 as [[-> [-> ->]]|H1]; [assumption|]. destruct H2 as [[<- [<- <-]]|H2]; [right; assumption|].
  assert (CC : forall k m a, k < 4 -> m < 4 -> a < 4 -> corner_pos E k X Y -> corner_pos E m X2 Y2 -> pvert verts p k = pvert verts q a -> pvert verts q a = pvert verts r m -> sp E p X Y r X2 Y2).
  { intros k m a Hk Hm Ha C1 C2 V1 V2. right; left. exists k, m. repeat (split; [assumption|]). congruence. }
  destruct H1 as [[k [m [Hk [Hm [C1 [C2 V]]]]]]|[i [j [s [s' [Hi [Hj [O1 [O2 H]]]]]]]]];
  destruct H2 as [[k2 [m2 [Hk2 [Hm2 [C12 [C22 V2]]]]]]|[i2 [j2 [s2 [s2' [Hi2 [Hj2 [O12 [O22 H2]]]]]]]]].
  - assert (m = k2) by (eapply (corner_unique E); eassumption). subst k2. apply (CC k m2 m); auto.
  - destruct (glue_to_corner E q r m X' Y' X2 Y2 i2 j2 HE Hm Hi2 Hj2 C2) as [m2 [Hm2 [C22 V2]]].
    { exists s2, s2'. auto. }
    apply (CC k m2 m); auto.
  - assert (G : on_glue verts E p X Y q X' Y' i j) by (exists s, s'; auto). apply on_glue_sym in G.
    destruct (glue_to_corner E q p k2 X' Y' X Y j i HE Hk2 Hj Hi C12 G) as [k [Hk [C1 V]]].
    apply (CC k m2 k2); auto.
  - assert (G : on_glue verts E p X Y q X' Y' i j) by (exists s, s'; auto). apply on_glue_sym in G.
    assert (G2 : on_glue verts E q X' Y' r X2 Y2 i2 j2) by (exists s2, s2'; auto).
    destruct (Nat.eq_dec j i2) as [<-|Ne].
    + assert (Es : s' = s2). { destruct O2 as [A B], O12 as [C D]. clear - Hj A B C D. four Hj; simpl in *; lia. } subst s2.
      destruct (mo_two verts M q j p i r j2 Hq Hp Hr Hj Hi Hj2 (on_glue_glued _ _ _ _ _ _ _ _ _ G) (on_glue_glued _ _ _ _ _ _ _ _ _ G2)) as [F|[F|F]]; injection F as F1 F2.
      * subst p i. destruct H as [[_ ->]|[H _]]; [|exfalso; apply (opposed_self verts M q j j); auto].
        destruct (on_edge_fun _ _ _ _ _ _ _ Hj O1 O2) as [-> ->]. right; right. exists j, j2, s', s2'. auto 10.
      * subst r j2. destruct H2 as [[_ ->]|[H2 _]]; [|exfalso; apply (opposed_self verts M q j j); auto].
        destruct (on_edge_fun _ _ _ _ _ _ _ Hj O12 O22) as [<- <-]. right; right. exists i, j, s, s2'. auto 10.
      * subst r j2. left. assert (s = s2').
        { destruct H as [[[A B] ->]|[[A B] H]], H2 as [[[A2 B2] H2]|[[A2 B2] H2]]; try lia; exfalso.
          - apply (not_both verts M q j p i Hq Hj); split; auto.
          - apply (not_both verts M q j p i Hq Hj); split; auto. }
        subst s2'. split; [reflexivity|]. eapply on_edge_fun; eassumption.
    + destruct (two_edges_corner E j i2 s' s2 X' Y' HE Hj Hi2 Ne O2 O12) as [a [Ha Ca]].
      destruct (glue_to_corner E q p a X' Y' X Y j i HE Ha Hj Hi Ca G) as [k [Hk [C1 V]]].
      destruct (glue_to_corner E q r a X' Y' X2 Y2 i2 j2 HE Ha Hi2 Hj2 Ca G2) as [m [Hm [C2 V2]]].
      apply (CC k m a); auto.
Qed.

(** ** identified dofs sit at the same point *)
Definition oriented : Prop := forall p i q j, p < P -> q < P -> i < 4 -> j < 4 -> (p, i) <> (q, j) -> glued verts p i q j -> opposed verts p i q j.

Section Ident.
Variable n : nat.
Hypothesis Hn : 2 <= n.
Variable edges : list interface.
Hypothesis Hedges : forall p q i j, In (p, Some q, i, Some j) edges -> p < q /\ q < P /\ i < 4 /\ j < 4 /\ opposed verts p i q j.

(** coordinates of a dof *)
Definition dpatch (d : nat) : nat := d / (n * n).
Definition dX (d : nat) : nat := (d mod (n * n)) mod n.
Definition dY (d : nat) : nat := (d mod (n * n)) / n.
Lemma coords : forall p X Y, X < n -> Y < n -> let d := grid_dof n (p * (n * n)) X Y in dpatch d = p /\ dX d = X /\ dY d = Y.
Proof.
  intros p X Y HX HY d. unfold dpatch, dX, dY, d, grid_dof.
  assert (L : n * Y + X < n * n) by nia.
  assert (E1 : (p * (n * n) + n * Y + X) / (n * n) = p).
  { symmetry. apply (Nat.div_unique _ _ p (n * Y + X)); [assumption|lia]. }
  assert (E2 : (p * (n * n) + n * Y + X) mod (n * n) = n * Y + X).
  { symmetry. apply (Nat.mod_unique _ _ p (n * Y + X)); [assumption|lia]. }
  rewrite E1, E2. split; [reflexivity|]. split.
  - symmetry. apply (Nat.mod_unique _ _ Y X); [assumption|lia].
  - symmetry. apply (Nat.div_unique _ _ Y X); [assumption|lia].
Qed.
Lemma dof_of_coords : forall d, d = grid_dof n (dpatch d * (n * n)) (dX d) (dY d).
Proof.
  intros d. unfold grid_dof, dpatch, dX, dY.
  pose proof (Nat.div_mod d (n * n) ltac:(nia)) as E1. pose proof (Nat.div_mod (d mod (n * n)) n ltac:(nia)) as E2. nia.
Qed.

Lemma on_edge_lt : forall e s X Y, e < 4 -> on_edge (n - 1) e s X Y -> X < n /\ Y < n.
Proof. intros e s X Y He [A B]. four He; simpl in *; lia. Qed.

Definition same_place (x y : nat) : Prop := x = y \/ (dpatch x < P /\ dpatch y < P /\ sp (n - 1) (dpatch x) (dX x) (dY x) (dpatch y) (dX y) (dY y)).
Lemma identified_same_place : forall x y, identified n edges x y -> same_place x y.
Proof.
  intros x y C. induction C as [x y H|x|x y H IH|x y z H1 IH1 H2 IH2].
  - destruct H as (p & q & i & j & s & s' & X & Y & X' & Y' & He & O1 & O2 & Hs & -> & ->).
    destruct (Hedges _ _ _ _ He) as [Hpq [Hq [Hi [Hj Op]]]].
    destruct (on_edge_lt _ _ _ _ Hi O1) as [L1 L2]. destruct (on_edge_lt _ _ _ _ Hj O2) as [L3 L4]. right.
    destruct (coords p X Y L1 L2) as [E1 [E2 E3]]. destruct (coords q X' Y' L3 L4) as [E4 [E5 E6]]. cbv zeta in *.
    rewrite E1, E2, E3, E4, E5, E6. split; [lia|]. split; [assumption|]. right; right. exists i, j, s, s'. auto 10.
  - left. reflexivity.
  - destruct IH as [->|[L1 [L2 S]]]; [left; reflexivity|right]. split; [assumption|]. split; [assumption|]. apply sp_sym. assumption.
  - destruct IH1 as [->|[L1 [L2 S]]]; [assumption|]. destruct IH2 as [<-|[L3 [L4 S2]]]; [right; auto|right].
    split; [assumption|]. split; [assumption|]. eapply sp_trans; [lia|exact L1|exact L2|exact L4|exact S|exact S2].
Qed.
Lemma identified_patch : forall x y, identified n edges x y -> x / (n * n) = y / (n * n) -> x = y.
Proof.
  intros x y H E. destruct (identified_same_place x y H) as [?|[L1 [L2 S]]]; [assumption|].
  change (dpatch x = dpatch y) in E. rewrite <- E in S.
  apply same_patch in S; [|exact M|exact L1]. destruct S as [S1 S2].
  rewrite (dof_of_coords x), (dof_of_coords y). rewrite E, S1, S2. reflexivity.
Qed.
End Ident.
End Mesh.

(** ** correct groups for sorted lists of edges *)
Definition patch_once (n : nat) (edges : list interface) : Prop :=
  forall x y, identified n edges x y -> x / (n * n) = y / (n * n) -> x = y.

Theorem cont_ids_ok : forall n P D edges, 1 <= n -> D = P * (n * n) -> edges_ok P edges ->
  exists st, cont_groups n D edges = Some st /\
    NoDup (concat (map fst (fst st))) /\
    (forall g, In g (fst st) -> fst g = [] \/ (2 <= length (fst g) /\ snd g = 1%Z)) /\
    (forall g d, In g (fst st) -> In d (fst g) -> d < D) /\
    (forall x y, x = y \/ same_group (fst st) x y <-> identified n edges x y) /\
    (edges_sorted edges -> patch_once n edges -> forall g d, In g (fst st) -> In d (fst g) -> hd 0 (fst g) <= d).
Proof.
  intros n P D edges Hn HD Ok.
  assert (Hij : forall p q i j, In (p, Some q, i, Some j) edges -> i < 4 /\ j < 4).
  { intros p q i j H. destruct (Ok _ _ _ _ H) as [_ [Hi [_ Hj]]]. auto. }
  destruct (cont_groups_inv n P D Hn HD (fun _ => 0) ltac:(auto) (fun _ => 0) ltac:(auto) edges Ok ltac:(auto)) as [st [B [E I]]].
  exists st. split; [assumption|]. split; [eapply inv_disjoint; exact I|].
  split. { intros g Hg. apply in_get in Hg. destruct Hg as [a Ha]. apply (in_shape _ _ _ _ _ I a g Ha). }
  split. { intros g d. apply (inv_lt _ _ _ _ _ _ _ I). }
  split. { intros x y. rewrite (inv_same _ _ _ _ _ x y I). apply connected_identified; assumption. }
  intros Sd Once g d Hg Hd.
  destruct (cont_groups_inv n P D Hn HD (fun d => d / (n * n)) ltac:(intros; apply Nat.div_le_mono; nia) (fun p => p)) with (edges := edges) as [st2 [B2 [E2 I2]]].
  - intros p x Hx. symmetry. apply (Nat.div_unique _ _ p (x - p * (n * n))); lia.
  - assumption.
  - intros l1 e l2 f l3 Eq. apply (Sd l1 e l2 f l3 Eq).
  - assert (st2 = st) by congruence. subst st2. pose proof Hg as Hg'. apply in_get in Hg. destruct Hg as [a Ha].
    pose proof (in_first _ _ _ _ _ I2 a g d Ha Hd) as F. unfold firstdof in F.
    assert (Hf : In (hd 0 (fst g)) (fst g)) by (destruct (fst g); [destruct Hd|left; reflexivity]).
    destruct (le_lt_dec (hd 0 (fst g)) d) as [|Lt]; [assumption|exfalso].
    assert (F2 : d / (n * n) <= hd 0 (fst g) / (n * n)) by (apply Nat.div_le_mono; nia).
    assert (Eq : hd 0 (fst g) = d).
    { apply Once; [|lia]. apply (connected_identified n edges); [assumption|assumption|].
      apply (inv_same _ _ _ _ _ _ _ I). right. exists g. auto. }
    lia.
Qed.

Lemma concat_filter : forall (out : list group), concat (map fst (filter nonempty out)) = concat (map fst out).
Proof.
  induction out as [|g out IH]; [reflexivity|]. cbn [filter map concat]. unfold nonempty at 1. destruct (fst g) as [|d r] eqn:E; [assumption|].
  cbn [map concat]. rewrite E, IH. reflexivity.
Qed.

Lemma groups_after_cleanup : forall D (out : list group), NoDup (concat (map fst out)) ->
  (forall g, In g out -> fst g = [] \/ (2 <= length (fst g) /\ snd g = 1%Z)) ->
  (forall g d, In g out -> In d (fst g) -> d < D) ->
  (forall g d, In g out -> In d (fst g) -> hd 0 (fst g) <= d) ->
  no_gap out -> exists ids, cleanup out = Some ids /\ groups_ok D ids /\ (forall g, In g ids -> snd g = 1%Z) /\
    forall x y, same_group ids x y <-> same_group out x y.
Proof.
  intros D out N Sh Lt Mi G. exists (filter nonempty out). split; [apply cleanup_ok; assumption|].
  assert (Ne : forall g, In g (filter nonempty out) <-> In g out /\ fst g <> []).
  { intros g. rewrite filter_In. unfold nonempty. destruct (fst g); split; intros [A B]; split; auto; congruence. }
  split; [split|split].
  - intros g Hg. apply Ne in Hg. destruct Hg as [Hg Hne]. destruct (Sh g Hg) as [?|[? _]]; [contradiction|assumption].
  - intros g d Hg. apply Ne in Hg. apply Lt. tauto.
  - rewrite concat_filter. assumption.
  - intros g d Hg. apply Ne in Hg. apply Mi. tauto.
  - intros g Hg. apply Ne in Hg. destruct Hg as [Hg Hne]. destruct (Sh g Hg) as [?|[_ ?]]; [contradiction|assumption].
  - intros x y. split; intros [g [Hg [Hx Hy]]]; exists g; (split; [|auto]).
    + apply Ne in Hg. tauto.
    + apply Ne. split; [assumption|]. intros E. rewrite E in Hx. destruct Hx.
Qed.

Lemma no_gap_of_cleanup : forall out ids, cleanup out = Some ids -> (forall g, In g ids -> fst g <> []) -> no_gap out.
Proof. exact cleanup_only. Qed.

Lemma reach_edges : forall verts t l, mesh_ok verts -> oriented verts -> WF t l -> over verts t ->
  exists edges, patch_topology_info t = Some edges /\ edges_ok (length verts) edges /\ edges_sorted edges /\
    (forall p q i j, In (p, Some q, i, Some j) edges <-> p < q /\ q < length verts /\ i < 4 /\ j < 4 /\ opposed verts p i q j) /\
    (forall n, 2 <= n -> patch_once n edges).
Proof.
  intros verts t l M O W Ov. destruct (info_listed verts M t l W Ov) as [edges [E [[Nd Sd] H]]].
  assert (Iff : forall p q i j, In (p, Some q, i, Some j) edges <-> p < q /\ q < length verts /\ i < 4 /\ j < 4 /\ opposed verts p i q j).
  { intros p q i j. rewrite H. split.
    - intros [p' [i' [B [[q' [j' [H1 [H2 [H3 [G E']]]]]]|[_ E']]]]]; [|discriminate]. injection E' as -> -> -> ->.
      unfold before in B. destruct B as [B1 [B2 B3]]. repeat (split; [assumption|]). apply O; auto. intros F. injection F. lia.
    - intros [H1 [H2 [H3 [H4 G]]]]. exists p, i. split; [unfold before; lia|]. left. exists q, j. repeat (split; [assumption|]). split; [right; assumption|reflexivity]. }
  exists edges. split; [assumption|]. split; [|split; [exact Sd|split; [exact Iff|]]].
  - intros p q i j Hin. apply H in Hin. destruct Hin as [p' [i' [B [[q' [j' [H1 [H2 [H3 [G E']]]]]]|[_ E']]]]]; injection E' as -> -> -> ->; unfold before in B.
    + split; [lia|]. split; [lia|]. split; intros x Ex; injection Ex as <-; [split; assumption|assumption].
    + split; [lia|]. split; [lia|]. split; intros x Ex; discriminate.
  - intros n Hn x y. apply (identified_patch verts M n Hn). intros p q i j Hin. apply Iff. assumption.
Qed.
