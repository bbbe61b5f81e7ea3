(** Combinatorics of pairs of elements of the same level, and the search in compareElements. *)
From Coq Require Import List Arith Lia Bool Reals Lra Classical_Prop.
From Verif Require Import ModelBase ModelTree ModelBall ModelDuffy SpecTree SpecMesh SpecBall SpecDuffy.
Import ListNotations.
Local Open Scope nat_scope.

(** ** the search *)
Lemma find_16 : forall f : nat * nat -> bool, find f (list_prod (seq 0 4) (seq 0 4)) =
  if f (0,0) then Some (0,0) else if f (0,1) then Some (0,1) else if f (0,2) then Some (0,2) else if f (0,3) then Some (0,3) else
  if f (1,0) then Some (1,0) else if f (1,1) then Some (1,1) else if f (1,2) then Some (1,2) else if f (1,3) then Some (1,3) else
  if f (2,0) then Some (2,0) else if f (2,1) then Some (2,1) else if f (2,2) then Some (2,2) else if f (2,3) then Some (2,3) else
  if f (3,0) then Some (3,0) else if f (3,1) then Some (3,1) else if f (3,2) then Some (3,2) else if f (3,3) then Some (3,3) else None.
Proof. reflexivity. Qed.
Lemma compare_none : forall v1 v2, no_common v1 v2 -> compare_vertices v1 v2 = (4, 4, 0).
Proof.
  intros v1 v2 H. unfold compare_vertices. rewrite find_16. cbn [fst snd].
  assert (E : forall k m, k < 4 -> m < 4 -> (v1 k =? v2 m) = false) by (intros; apply Nat.eqb_neq; apply H; assumption).
  rewrite !E by lia. reflexivity.
Qed.
Ltac four r := destruct r as [|[|[|[|r]]]]; [| | | |exfalso; lia].
Lemma compare_vertex : forall v1 v2 r1 r2, common_vertex v1 v2 r1 r2 -> compare_vertices v1 v2 = (r1, r2, 4).
Proof.
  intros v1 v2 r1 r2 [H1 [H2 H]].
  assert (E : forall k m, k < 4 -> m < 4 -> (v1 k =? v2 m) = (k =? r1) && (m =? r2)).
  { intros k m Hk Hm. destruct (Nat.eqb_spec (v1 k) (v2 m)) as [e|n].
    - apply H in e; [|assumption|assumption]. destruct e as [-> ->]. rewrite !Nat.eqb_refl. reflexivity.
    - destruct (Nat.eqb_spec k r1) as [->|]; [|reflexivity]. destruct (Nat.eqb_spec m r2) as [->|]; [|reflexivity]. exfalso. apply n, H; auto. }
  unfold compare_vertices. rewrite find_16. cbn [fst snd]. rewrite !E by lia. clear H.
  four r1; four r2; cbn [Nat.eqb andb]; (rewrite !E by (try apply Nat.mod_upper_bound; lia)); reflexivity.
Qed.
Lemma compare_edge : forall v1 v2 r1 r2, common_edge v1 v2 r1 r2 -> compare_vertices v1 v2 = (r1, r2, 3).
Proof.
  intros v1 v2 r1 r2 [H1 [H2 H]].
  assert (E : forall k m, k < 4 -> m < 4 -> (v1 k =? v2 m) = (k =? r1) && (m =? (r2 + 1) mod 4) || (k =? (r1 + 1) mod 4) && (m =? r2)).
  { intros k m Hk Hm. destruct (Nat.eqb_spec (v1 k) (v2 m)) as [e|n].
    - apply H in e; [|assumption|assumption]. destruct e as [[-> ->]|[-> ->]]; rewrite !Nat.eqb_refl; [reflexivity|]. symmetry. apply orb_true_r.
    - symmetry. apply orb_false_iff. split; apply andb_false_iff.
      + destruct (Nat.eqb_spec k r1) as [->|]; [|auto]. destruct (Nat.eqb_spec m ((r2 + 1) mod 4)) as [->|]; [|auto]. exfalso. apply n, H; auto.
      + destruct (Nat.eqb_spec k ((r1 + 1) mod 4)) as [->|]; [|auto]. destruct (Nat.eqb_spec m r2) as [->|]; [|auto]. exfalso. apply n, H; auto. }
  unfold compare_vertices. rewrite find_16. cbn [fst snd]. rewrite !E by lia. clear H.
  four r1; four r2; cbn -[Nat.modulo compare_vertices]; cbn; (rewrite ?E by lia); reflexivity.
Qed.
Lemma describes_compare : forall v1 v2 res, describes v1 v2 res -> snd res <> 0 -> compare_vertices v1 v2 = res.
Proof.
  intros v1 v2 [[r1 r2] c] D Hc. cbn [snd] in Hc. unfold describes in D. destruct c as [|[|[|[|[|c]]]]]; try contradiction; [apply compare_edge, D|apply compare_vertex, D].
Qed.
(** exchanging the elements *)
Lemma common_vertex_sym : forall v1 v2 r1 r2, common_vertex v1 v2 r1 r2 -> common_vertex v2 v1 r2 r1.
Proof. intros v1 v2 r1 r2 [H1 [H2 H]]. split; [assumption|]. split; [assumption|]. intros k m Hk Hm. specialize (H m k Hm Hk). split; [intros e; destruct (proj1 H (eq_sym e)); auto|intros [-> ->]; symmetry; apply H; auto]. Qed.
Lemma common_edge_sym : forall v1 v2 r1 r2, common_edge v1 v2 r1 r2 -> common_edge v2 v1 r2 r1.
Proof. intros v1 v2 r1 r2 [H1 [H2 H]]. split; [assumption|]. split; [assumption|]. intros k m Hk Hm. specialize (H m k Hm Hk). split; intros; [assert (v1 m = v2 k) by congruence; tauto|]. symmetry. tauto. Qed.

(** ** squares of the grid *)
(** the square (X, Y) lies along edge i of its patch, at position s counted in the direction of the edge *)
Definition along (E i s X Y : nat) : Prop :=
  s < E /\ match i with
           | 0 => Y = 0 /\ X = s
           | 1 => X + 1 = E /\ Y = s
           | 2 => Y + 1 = E /\ X + s + 1 = E
           | _ => X = 0 /\ Y + s + 1 = E
           end.
Lemma on_edge_along : forall E i s X Y k, 2 <= E -> i < 4 -> k < 4 -> X < E -> Y < E ->
  (on_edge E i s (X + quad_x k) (Y + quad_y k) <-> exists u, along E i u X Y /\ (k = i /\ s = u \/ k = (i + 1) mod 4 /\ s = u + 1)).
Proof.
  intros E i s X Y k HE Hi Hk HX HY. unfold on_edge, along. split.
  - intros [Hs H]. four i; four k; cbn in *; try lia;
      try (exists s; split; [split; lia|left; split; lia]); try (exists (s - 1); split; [split; lia|right; split; lia]).
  - intros [u [[Hu A] [[-> ->]|[-> ->]]]]; four i; cbn in *; lia.
Qed.
Lemma corner_along : forall E c X Y k, 2 <= E -> c < 4 -> k < 4 -> X < E -> Y < E ->
  (corner_pos E c (X + quad_x k) (Y + quad_y k) <-> c = k /\ along E k 0 X Y).
Proof.
  intros E c X Y k HE Hc Hk HX HY. unfold corner_pos, along. four c; four k; cbn; split; intros H; repeat split; lia.
Qed.
Lemma along_unique : forall E i s s' X Y, i < 4 -> along E i s X Y -> along E i s' X Y -> s = s'.
Proof. intros E i s s' X Y Hi. unfold along. four i; lia. Qed.
(** the corners of the patch among the vertices of a square along edge i *)
Lemma along_corner : forall E i s k X Y, 2 <= E -> i < 4 -> k < 4 -> along E i s X Y -> along E k 0 X Y -> k = i /\ s = 0 \/ k = (i + 1) mod 4 /\ s + 1 = E.
Proof. intros E i s k X Y HE Hi Hk. unfold along. four i; four k; cbn; lia. Qed.
Lemma one_corner : forall E k k' X Y, 2 <= E -> k < 4 -> k' < 4 -> along E k 0 X Y -> along E k' 0 X Y -> k = k'.
Proof. intros E k k' X Y HE Hk Hk'. unfold along. four k; four k'; cbn; lia. Qed.
Lemma along_next : forall E i X Y, 2 <= E -> i < 4 -> along E i (E - 1) X Y -> along E ((i + 1) mod 4) 0 X Y.
Proof. intros E i X Y HE Hi. unfold along. four i; cbn; lia. Qed.

Section Mesh.
Variables (verts : list (list nat)) (E : nat).
Hypothesis mok : mesh_ok verts.
Hypothesis ori : oriented verts.
Hypothesis HE : 2 <= E.
Lemma pvert_inj : forall p k m, p < length verts -> k < 4 -> m < 4 -> pvert verts p k = pvert verts p m -> k = m.
Proof.
  intros p k m Hp Hk Hm H. assert (I : In (nth p verts []) verts) by (apply nth_In; exact Hp).
  pose proof (mo_len _ mok _ I) as L. pose proof (mo_nodup _ mok _ I) as N. apply (proj1 (NoDup_nth _ 0) N); [lia|lia|exact H].
Qed.
Definition shared (p X Y q X' Y' k m : nat) : Prop :=
  same_point verts E p (X + quad_x k) (Y + quad_y k) q (X' + quad_x m) (Y' + quad_y m).
(** squares of the same patch *)
Lemma shared_same : forall p X Y X' Y' k m, p < length verts -> k < 4 -> m < 4 ->
  (shared p X Y p X' Y' k m <-> X + quad_x k = X' + quad_x m /\ Y + quad_y k = Y' + quad_y m).
Proof.
  intros p X Y X' Y' k m Hp Hk Hm. unfold shared. split.
  - intros [[_ H]|[[c [c' [Hc [Hc' [C [C' V]]]]]]|[i [j [s [s' [Hi [Hj [O [O' V]]]]]]]]]].
    + exact H.
    + apply pvert_inj in V; [|assumption|assumption|assumption]. subst c'. unfold corner_pos in *. lia.
    + destruct V as [[[V _] ->]|[[V W] _]].
      * apply pvert_inj in V; [|assumption|assumption|assumption]. subst j. unfold on_edge in *. four i; lia.
      * exfalso. apply pvert_inj in V; [|assumption|assumption|apply Nat.mod_upper_bound; lia]. apply pvert_inj in W; [|assumption|apply Nat.mod_upper_bound; lia|assumption].
        four j; cbn in V, W; subst i; cbn in W; lia.
  - intros H. left. auto.
Qed.
Definition describes_pair (S : nat -> nat -> Prop) (res : nat * nat * nat) : Prop :=
  match res with
  | (r1, r2, 0) => forall k m, k < 4 -> m < 4 -> ~ S k m
  | (r1, r2, 3) => r1 < 4 /\ r2 < 4 /\ forall k m, k < 4 -> m < 4 -> (S k m <-> k = r1 /\ m = (r2 + 1) mod 4 \/ k = (r1 + 1) mod 4 /\ m = r2)
  | (r1, r2, 4) => r1 < 4 /\ r2 < 4 /\ forall k m, k < 4 -> m < 4 -> (S k m <-> k = r1 /\ m = r2)
  | _ => False
  end.
(** common edges coincide *)
Definition edges_match (p X Y q X' Y' r1 r2 : nat) : Prop :=
  (p = q /\ X + quad_x r1 = X' + quad_x ((r2 + 1) mod 4) /\ Y + quad_y r1 = Y' + quad_y ((r2 + 1) mod 4) /\
     X + quad_x ((r1 + 1) mod 4) = X' + quad_x r2 /\ Y + quad_y ((r1 + 1) mod 4) = Y' + quad_y r2) \/
  (opposed verts p r1 q r2 /\ exists s s', along E r1 s X Y /\ along E r2 s' X' Y' /\ s + s' + 1 = E).
Definition good (p X Y q X' Y' : nat) (res : nat * nat * nat) : Prop :=
  describes_pair (shared p X Y q X' Y') res /\ (snd res = 3 -> edges_match p X Y q X' Y' (fst (fst res)) (snd (fst res))).
Lemma pair_same : forall p X Y X' Y', p < length verts -> (X, Y) <> (X', Y') -> exists res, good p X Y p X' Y' res.
Proof.
  intros p X Y X' Y' Hp N.
  destruct (le_lt_dec (X + 2) X') as [F|F]; [|destruct (le_lt_dec (X' + 2) X) as [F'|F']; [|destruct (le_lt_dec (Y + 2) Y') as [G|G]; [|destruct (le_lt_dec (Y' + 2) Y) as [G'|G']]]].
  1-4: exists (4, 4, 0); split; [cbn; intros k m Hk Hm; rewrite shared_same by assumption; four k; four m; cbn; lia|cbn; lia].
  assert (CX : X' = X + 1 \/ X' = X \/ X = X' + 1) by lia. assert (CY : Y' = Y + 1 \/ Y' = Y \/ Y = Y' + 1) by lia.
  destruct CX as [-> | [-> | ->]]; destruct CY as [-> | [-> | ->]].
  - exists (2, 0, 4). split; [cbn; repeat split; try lia; intros; (rewrite shared_same in * by assumption); four k; four m; cbn in *; lia|cbn; lia].
  - exists (1, 3, 3). split; [cbn; repeat split; try lia; intros; (rewrite shared_same in * by assumption); four k; four m; cbn in *; lia|intros _; left; cbn; lia].
  - exists (1, 3, 4). split; [cbn; repeat split; try lia; intros; (rewrite shared_same in * by assumption); four k; four m; cbn in *; lia|cbn; lia].
  - exists (2, 0, 3). split; [cbn; repeat split; try lia; intros; (rewrite shared_same in * by assumption); four k; four m; cbn in *; lia|intros _; left; cbn; lia].
  - congruence.
  - exists (0, 2, 3). split; [cbn; repeat split; try lia; intros; (rewrite shared_same in * by assumption); four k; four m; cbn in *; lia|intros _; left; cbn; lia].
  - exists (3, 1, 4). split; [cbn; repeat split; try lia; intros; (rewrite shared_same in * by assumption); four k; four m; cbn in *; lia|cbn; lia].
  - exists (3, 1, 3). split; [cbn; repeat split; try lia; intros; (rewrite shared_same in * by assumption); four k; four m; cbn in *; lia|intros _; left; cbn; lia].
  - exists (0, 2, 4). split; [cbn; repeat split; try lia; intros; (rewrite shared_same in * by assumption); four k; four m; cbn in *; lia|cbn; lia].
Qed.

(** squares of different patches *)
Lemma shared_diff : forall p X Y q X' Y' k m, p < length verts -> q < length verts -> p <> q -> X < E -> Y < E -> X' < E -> Y' < E -> k < 4 -> m < 4 ->
  (shared p X Y q X' Y' k m <->
   (along E k 0 X Y /\ along E m 0 X' Y' /\ pvert verts p k = pvert verts q m) \/
   (exists i j u u', i < 4 /\ j < 4 /\ along E i u X Y /\ along E j u' X' Y' /\ opposed verts p i q j /\
      (k = i /\ m = j /\ u + u' = E \/ k = i /\ m = (j + 1) mod 4 /\ u + u' + 1 = E \/
       k = (i + 1) mod 4 /\ m = j /\ u + u' + 1 = E \/ k = (i + 1) mod 4 /\ m = (j + 1) mod 4 /\ u + u' + 2 = E))).
Proof.
  intros p X Y q X' Y' k m Hp Hq N HX HY HX' HY' Hk Hm. unfold shared. split.
  - intros [[C _]|[[c [c' [Hc [Hc' [C [C' V]]]]]]|[i [j [s [s' [Hi [Hj [O [O' V]]]]]]]]]]; [contradiction| |].
    + apply corner_along in C; [|assumption..]. apply corner_along in C'; [|assumption..]. destruct C as [-> C]. destruct C' as [-> C']. left. auto.
    + right. apply on_edge_along in O; [|assumption..]. apply on_edge_along in O'; [|assumption..].
      destruct O as [u [A B]]. destruct O' as [u' [A' B']]. destruct V as [[V _]|[V W]].
      * exfalso. apply ori in V; [|assumption..]. congruence.
      * exists i, j, u, u'. repeat (split; [assumption|]). lia.
  - intros [[A [A' V]]|[i [j [u [u' [Hi [Hj [A [A' [V W]]]]]]]]]].
    + right. left. exists k, m. split; [assumption|]. split; [assumption|]. split; [apply corner_along; auto|]. split; [apply corner_along; auto|assumption].
    + right. right. exists i, j, (if k =? i then u else u + 1), (if m =? j then u' else u' + 1).
      assert (Ni : (i + 1) mod 4 <> i) by (four i; cbn; lia). assert (Nj : (j + 1) mod 4 <> j) by (four j; cbn; lia).
      split; [assumption|]. split; [assumption|]. split; [|split].
      * apply on_edge_along; try assumption. exists u. split; [assumption|]. destruct (Nat.eqb_spec k i); [left|right]; split; lia.
      * apply on_edge_along; try assumption. exists u'. split; [assumption|]. destruct (Nat.eqb_spec m j); [left|right]; split; lia.
      * right. split; [assumption|]. destruct (Nat.eqb_spec k i), (Nat.eqb_spec m j); lia.
Qed.
Lemma opposed_sym : forall p i q j, opposed verts p i q j -> opposed verts q j p i.
Proof. unfold opposed. intuition congruence. Qed.
Lemma pair_diff : forall p X Y q X' Y', p < length verts -> q < length verts -> p <> q -> X < E -> Y < E -> X' < E -> Y' < E ->
  exists res, good p X Y q X' Y' res.
Proof.
  intros p X Y q X' Y' Hp Hq N HX HY HX' HY'.
  assert (SD := fun k m => shared_diff p X Y q X' Y' k m Hp Hq N HX HY HX' HY').
  destruct (classic (exists i j u u', i < 4 /\ j < 4 /\ along E i u X Y /\ along E j u' X' Y' /\ opposed verts p i q j)) as [[i [j [u [u' [Hi [Hj [A [A' V]]]]]]]]|NE].
  - (* a glued pair of edges *)
    assert (M1 : (i + 1) mod 4 < 4) by (apply Nat.mod_upper_bound; lia). assert (M2 : (j + 1) mod 4 < 4) by (apply Nat.mod_upper_bound; lia).
    assert (Ni : (i + 1) mod 4 <> i) by (four i; cbn; lia). assert (Nj : (j + 1) mod 4 <> j) by (four j; cbn; lia).
    pose proof (proj1 A) as Hu. assert (Hu' : u' < E) by (clear - A'; destruct A'; assumption).
    assert (Key : forall k m, k < 4 -> m < 4 -> (shared p X Y q X' Y' k m <->
      (k = i /\ m = j /\ u + u' = E \/ k = i /\ m = (j + 1) mod 4 /\ u + u' + 1 = E \/
       k = (i + 1) mod 4 /\ m = j /\ u + u' + 1 = E \/ k = (i + 1) mod 4 /\ m = (j + 1) mod 4 /\ u + u' + 2 = E))).
    { intros k m Hk Hm. rewrite (SD k m Hk Hm). split.
      - intros [[B [B' W]]|[i' [j' [w [w' [Hi' [Hj' [B [B' [V' W]]]]]]]]]].
        + destruct (along_corner E i u k X Y HE Hi Hk A B) as [[-> ->]|[-> Hs]].
          * (* corner i *) destruct V as [V1 V2]. rewrite V1 in W. apply pvert_inj in W; [|assumption..]. subst m.
            destruct (along_corner E j u' ((j + 1) mod 4) X' Y' HE Hj M2 A' B') as [[C _]|[_ C]]; [congruence|]. right. left. repeat split; lia.
          * destruct V as [V1 V2]. rewrite V2 in W. apply pvert_inj in W; [|assumption..]. subst m.
            destruct (along_corner E j u' j X' Y' HE Hj Hj A' B') as [[_ C]|[C _]]; [|congruence]. right. right. left. repeat split; lia.
        + assert (Ei : i = i') by (apply (mo_one _ mok p i j q i' j'); try assumption; right; assumption).
          assert (Ej : j = j') by (apply (mo_one _ mok q j i p j' i'); try assumption; try congruence; right; apply opposed_sym; assumption).
          subst i' j'. pose proof (along_unique E i u w X Y Hi A B). pose proof (along_unique E j u' w' X' Y' Hj A' B'). subst w w'. exact W.
      - intros W. right. exists i, j, u, u'. auto 10. }
    destruct (Nat.eq_dec (u + u' + 1) E) as [E1|E1]; [|destruct (Nat.eq_dec (u + u') E) as [E2|E2]; [|destruct (Nat.eq_dec (u + u' + 2) E) as [E3|E3]]].
    + exists (i, j, 3). split.
      * cbn [describes_pair]. split; [assumption|]. split; [assumption|]. intros k m Hk Hm. rewrite (Key k m Hk Hm). lia.
      * intros _. right. cbn [fst snd]. split; [assumption|]. exists u, u'. auto.
    + exists (i, j, 4). split; [|discriminate]. cbn [describes_pair]. split; [assumption|]. split; [assumption|]. intros k m Hk Hm. rewrite (Key k m Hk Hm). lia.
    + exists ((i + 1) mod 4, (j + 1) mod 4, 4). split; [|discriminate]. cbn [describes_pair]. split; [assumption|]. split; [assumption|]. intros k m Hk Hm. rewrite (Key k m Hk Hm). lia.
    + exists (4, 4, 0). split; [|discriminate]. cbn [describes_pair]. intros k m Hk Hm. rewrite (Key k m Hk Hm). lia.
  - destruct (classic (exists k m, k < 4 /\ m < 4 /\ along E k 0 X Y /\ along E m 0 X' Y' /\ pvert verts p k = pvert verts q m)) as [[k0 [m0 [Hk0 [Hm0 [A [A' V]]]]]]|NC].
    + exists (k0, m0, 4). split; [|discriminate]. cbn [describes_pair]. split; [assumption|]. split; [assumption|]. intros k m Hk Hm. rewrite (SD k m Hk Hm). split.
      * intros [[B [B' _]]|[i [j [u [u' [Hi [Hj [B [B' [W _]]]]]]]]]]; [|exfalso; apply NE; exists i, j, u, u'; auto 10].
        split; [apply (one_corner E k k0 X Y)|apply (one_corner E m m0 X' Y')]; assumption.
      * intros [-> ->]. left. auto.
    + exists (4, 4, 0). split; [|discriminate]. cbn [describes_pair]. intros k m Hk Hm. rewrite (SD k m Hk Hm).
      intros [[B [B' W]]|[i [j [u [u' [Hi [Hj [B [B' [W _]]]]]]]]]]; [apply NC; exists k, m; auto 10|apply NE; exists i, j, u, u'; auto 10].
Qed.
End Mesh.

(** ** addresses, positions and points *)
From Verif Require Import ModelBase ProofTreeGeo ProofTreeLook ProofPoints ProofBall.
Lemma addr_inj : forall a b, vaddr a -> vaddr b -> pos_patch a = pos_patch b -> pos_level a = pos_level b -> pos_x a = pos_x b -> pos_y a = pos_y b -> a = b.
Proof.
  induction a as [|i a IH]; [contradiction|]. intros b Va Vb P L X Y. destruct b as [|j b]; [contradiction|].
  destruct a as [|i' a].
  - destruct b as [|j' b]; [cbn in P; congruence|]. cbn in L. lia.
  - destruct b as [|j' b]; [cbn in L; lia|]. destruct (proj1 (vaddr_cons i (i' :: a) ltac:(discriminate)) Va) as [Hi Va']. destruct (proj1 (vaddr_cons j (j' :: b) ltac:(discriminate)) Vb) as [Hj Vb'].
    change (pos_x (i :: i' :: a)) with (2 * pos_x (i' :: a) + quad_x i) in X. change (pos_x (j :: j' :: b)) with (2 * pos_x (j' :: b) + quad_x j) in X.
    change (pos_y (i :: i' :: a)) with (2 * pos_y (i' :: a) + quad_y i) in Y. change (pos_y (j :: j' :: b)) with (2 * pos_y (j' :: b) + quad_y j) in Y.
    assert (i = j /\ pos_x (i' :: a) = pos_x (j' :: b) /\ pos_y (i' :: a) = pos_y (j' :: b)) as [-> [X' Y']].
    { set (x := pos_x (i' :: a)) in *. set (x' := pos_x (j' :: b)) in *. set (y := pos_y (i' :: a)) in *. set (y' := pos_y (j' :: b)) in *. clearbody x x' y y'. clear - X Y Hi Hj. four i; four j; cbn in X, Y; lia. }
    f_equal. apply IH; auto. unfold pos_level in *. cbn [length] in *. lia.
Qed.
Lemma tau_edge : forall r u, r < 4 ->
  fst (tau u 0 r) = ((1 - u) * INR (quad_x r) + u * INR (quad_x ((r + 1) mod 4)))%R /\
  snd (tau u 0 r) = ((1 - u) * INR (quad_y r) + u * INR (quad_y ((r + 1) mod 4)))%R.
Proof. intros r u Hr. four r; cbn; split; ring. Qed.
Lemma along_point : forall L i s X Y u, i < 4 -> along (2 ^ L) i s X Y ->
  edge_pt i ((INR s + u) / 2 ^ L) = ((INR X + fst (tau u 0 i)) / 2 ^ L, (INR Y + snd (tau u 0 i)) / 2 ^ L)%R.
Proof.
  intros L i s X Y u Hi [Hs A]. pose proof (pow2_neq L) as N. assert (EE : INR (2 ^ L) = (2 ^ L)%R) by (rewrite pow_INR; reflexivity).
  four i; destruct A as [A1 A2]; apply (f_equal INR) in A1; apply (f_equal INR) in A2; rewrite ?plus_INR, ?EE in *; cbn [INR] in *; cbn [tau fst snd edge_pt];
    f_equal; apply (Rmult_eq_reg_r (2 ^ L)%R); try assumption; field_simplify; try assumption; try lra.
Qed.
Lemma matched_points : forall verts eval L p X Y q X' Y' r1 r2 u, fits verts eval -> p < length verts -> q < length verts -> r1 < 4 -> r2 < 4 -> (0 <= u <= 1)%R ->
  edges_match verts (2 ^ L) p X Y q X' Y' r1 r2 ->
  eval p ((INR X + fst (tau u 0 r1)) / 2 ^ L)%R ((INR Y + snd (tau u 0 r1)) / 2 ^ L)%R
  = eval q ((INR X' + fst (tau (1 - u) 0 r2)) / 2 ^ L)%R ((INR Y' + snd (tau (1 - u) 0 r2)) / 2 ^ L)%R.
Proof.
  intros verts eval L p X Y q X' Y' r1 r2 u F Hp Hq H1 H2 Hu [[-> [Ex1 [Ey1 [Ex2 Ey2]]]]|[O [s [s' [A [A' S]]]]]].
  - destruct (tau_edge r1 u H1) as [-> ->]. destruct (tau_edge r2 (1 - u) H2) as [-> ->].
    apply (f_equal INR) in Ex1, Ey1, Ex2, Ey2. rewrite !plus_INR in Ex1, Ey1, Ex2, Ey2. f_equal; f_equal.
    + transitivity ((1 - u) * (INR X + INR (quad_x r1)) + u * (INR X + INR (quad_x ((r1 + 1) mod 4))))%R; [ring|]. rewrite Ex1, Ex2. ring.
    + transitivity ((1 - u) * (INR Y + INR (quad_y r1)) + u * (INR Y + INR (quad_y ((r1 + 1) mod 4))))%R; [ring|]. rewrite Ey1, Ey2. ring.
  - assert (EE : INR (2 ^ L) = (2 ^ L)%R) by (rewrite pow_INR; reflexivity). pose proof (pow2_neq L) as N. assert (Pos : (0 < 2 ^ L)%R) by (apply pow_lt; lra).
    pose proof (proj1 A) as Hs. apply (f_equal INR) in S. rewrite !plus_INR, EE in S. cbn [INR] in S. pose proof (pos_INR s). pose proof (pos_INR s').
    assert (B : (0 <= (INR s + u) / 2 ^ L <= 1)%R).
    { split; [apply Rmult_le_pos; [lra|apply Rlt_le, Rinv_0_lt_compat, Pos]|]. apply (Rmult_le_reg_r (2 ^ L)%R); [exact Pos|]. unfold Rdiv. rewrite Rmult_assoc, Rinv_l by exact N. lra. }
    pose proof (fit_opposed _ _ F p q r1 r2 _ Hp Hq H1 H2 B O) as K.
    replace (1 - (INR s + u) / 2 ^ L)%R with ((INR s' + (1 - u)) / 2 ^ L)%R in K.
    + rewrite (along_point L r1 s X Y u H1 A), (along_point L r2 s' X' Y' (1 - u)%R H2 A') in K. exact K.
    + apply (Rmult_eq_reg_r (2 ^ L)%R); [|exact N]. field_simplify; [lra|exact N..].
Qed.
(** overlapping balls have distance 0 *)
Lemma touching : forall e1 e2 p, in_ball p (e_mid e1, e_rad e1) -> in_ball p (e_mid e2, e_rad e2) -> element_distance e1 e2 = 0%R.
Proof.
  intros e1 e2 p B1 B2. unfold in_ball in *. cbn [fst snd] in *. unfold element_distance. cbv zeta. rewrite <- dist_norm.
  pose proof (dist_tri (e_mid e1) p (e_mid e2)) as T. rewrite (dist_sym (e_mid e1) p) in T. destruct (Rle_dec 0 _); lra.
Qed.
Lemma distance_sym : forall e1 e2, element_distance e1 e2 = element_distance e2 e1.
Proof. intros e1 e2. unfold element_distance. cbv zeta. rewrite <- !dist_norm, (dist_sym (e_mid e2)). replace (dist (e_mid e1) (e_mid e2) - e_rad e2 - e_rad e1)%R with (dist (e_mid e1) (e_mid e2) - e_rad e1 - e_rad e2)%R by ring. reflexivity. Qed.
