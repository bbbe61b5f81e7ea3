(** Vertex indices identify exactly the points of the glued surface: trees (C18). *)
From Coq Require Import List Arith Bool Lia.
From Verif Require Import ModelBase ModelTree SpecTree SpecMesh ProofTree ProofTreeWF ProofTreeHist ProofTreeGeo ProofTreeLook ProofTopo ProofConf ProofConfStep ProofConfTree ProofConfHist ProofConfPts.
Import ListNotations.

Definition px (a : addr) (k : nat) : nat := pos_x a + quad_x k.
Definition py (a : addr) (k : nat) : nat := pos_y a + quad_y k.

Lemma quad_le1 : forall k, quad_x k <= 1 /\ quad_y k <= 1.
Proof. intros [|[|[|[|k]]]]; simpl; lia. Qed.

Section Idx.
Variable verts : list (list nat).
Hypothesis M : mesh_ok verts.
Variable t : tree.
Variable l : list addr.
Hypothesis W : WF t l.
Hypothesis Ov : over verts t.
Let s := t_store t.
Notation vx := (vxs s).
Notation sp := (same_point verts).

Lemma C : conf vx (exs s) (rfs s) (t_points t).
Proof. apply (cf_conf t (proj1 Ov)). Qed.

Lemma patch_lt : forall a, exs s a -> pos_patch a < length verts.
Proof.
  intros a H. destruct (wf_addr_patch t l a W H) as [_ HP]. destruct Ov as [_ [_ E]]. lia.
Qed.
Lemma nonroot : forall a, exs s a -> a <> [].
Proof. intros a H. eapply wf_nonroot; eauto. Qed.
Lemma pos_bound : forall a k, exs s a -> px a k <= 2 ^ pos_level a /\ py a k <= 2 ^ pos_level a.
Proof.
  intros a k H. destruct (pos_xy_lt a (wf_vaddr t l a W H)). unfold px, py.
  assert (quad_x k <= 1 /\ quad_y k <= 1) by (destruct k as [|[|[|[|k]]]]; simpl; lia). lia.
Qed.

Lemma vertex_kind : forall d i k, rfs s d -> i < 4 -> k < 4 ->
  (vx (i :: d) k = vx d i /\ px (i :: d) k = 2 * px d i /\ py (i :: d) k = 2 * py d i) \/
  (exists j, j < 4 /\ vx (i :: d) k = mid vx d j /\ px (i :: d) k = px d j + px d (nx j) /\ py (i :: d) k = py d j + py d (nx j)) \/
  (vx (i :: d) k = ctr vx d /\ px (i :: d) k = 2 * pos_x d + 1 /\ py (i :: d) k = 2 * pos_y d + 1).
Proof.
  intros d i k R Hi Hk. assert (Hd : d <> []) by (apply nonroot; apply (cf_ref _ _ _ _ C); assumption).
  destruct (cf_v _ _ _ _ C d i R Hi) as [A [B D]]. unfold px, py. rewrite pos_x_cons, pos_y_cons by assumption.
  assert (K : k = i \/ k = nx i \/ k = nx (nx i) \/ k = nx (nx (nx i))).
  { clear -Hi Hk. unfold nx. four Hi; four Hk; simpl; lia. }
  destruct K as [->|[->|[->| ->]]].
  - left. split; [assumption|]. clear -Hi. four Hi; simpl; lia.
  - right; left. exists i. split; [assumption|]. split; [reflexivity|]. clear -Hi. unfold nx. four Hi; simpl; lia.
  - right; right. split; [assumption|]. clear -Hi. unfold nx. four Hi; simpl; lia.
  - right; left. exists (nx (nx (nx i))). split; [apply nx_lt|]. split; [assumption|]. clear -Hi. unfold nx. four Hi; simpl; lia.
Qed.

Lemma slot_adjacent : forall d j, j < 4 -> adjacent (px d j) (py d j) (px d (nx j)) (py d (nx j)).
Proof. intros d j Hj. unfold adjacent, px, py, nx. four Hj; simpl; lia. Qed.

Lemma pos_unique : forall a b, vaddr a -> vaddr b -> length a = length b -> pos_patch a = pos_patch b ->
  pos_x a = pos_x b -> pos_y a = pos_y b -> a = b.
Proof.
  induction a as [|i a IH]; intros b Va Vb L Pp X Y; [destruct Va|].
  destruct b as [|j b]; [discriminate|]. simpl in L.
  destruct a as [|i' a], b as [|j' b]; try discriminate.
  - unfold pos_patch in Pp. simpl in Pp. congruence.
  - apply vaddr_cons in Va; [|discriminate]. apply vaddr_cons in Vb; [|discriminate]. destruct Va as [Hi Va], Vb as [Hj Vb].
    rewrite (pos_patch_cons i), (pos_patch_cons j) in Pp by discriminate. rewrite (pos_x_cons i), (pos_x_cons j) in X by discriminate.
    rewrite (pos_y_cons i), (pos_y_cons j) in Y by discriminate.
    assert (Q : quad_x i = quad_x j /\ quad_y i = quad_y j /\ pos_x (i' :: a) = pos_x (j' :: b) /\ pos_y (i' :: a) = pos_y (j' :: b)).
    { pose proof (quad_le1 i) as Q1. pose proof (quad_le1 j) as Q2. clear -Q1 Q2 X Y. lia. }
    destruct Q as [Q1 [Q2 [Q3 Q4]]]. f_equal.
    + revert Q1 Q2. clear -Hi Hj. four Hi; four Hj; simpl; lia.
    + apply IH; auto.
Qed.

Lemma even_double : forall x y, even_pt (2 * x) (2 * y).
Proof. intros. exists x, y. auto. Qed.
Lemma ctr_odd : forall x y, ctr_pt (2 * x + 1) (2 * y + 1).
Proof. intros. exists x, y. auto. Qed.

(** nodes of the same level *)
Lemma same_level : forall n a b k m, exs s a -> exs s b -> length a = S n -> length b = S n -> k < 4 -> m < 4 ->
  (vx a k = vx b m <-> sp (2 ^ n) (pos_patch a) (px a k) (py a k) (pos_patch b) (px b m) (py b m)).
Proof.
  induction n as [|n IH]; intros a b k m Xa Xb La Lb Hk Hm.
  - destruct a as [|p [|]]; try discriminate. destruct b as [|q [|]]; try discriminate.
    pose proof (patch_lt [p] Xa) as Hp. pose proof (patch_lt [q] Xb) as Hq. unfold pos_patch in *. simpl in Hp, Hq |- *.
    destruct Ov as [_ [V _]]. fold s in V. rewrite (V p k Hp), (V q m Hq). unfold px, py. simpl pos_x. simpl pos_y. rewrite !Nat.add_0_l.
    split.
    + intros E. right; left. exists k, m. unfold corner_pos. rewrite !Nat.mul_1_l. auto 10.
    + intros [[-> [E1 E2]]|[[k' [m' [Hk' [Hm' [C1 [C2 E]]]]]]|[i [j [r [r' [Hi [Hj [O1 [O2 H]]]]]]]]]].
      * assert (k = m) by (clear -Hk Hm E1 E2; four Hk; four Hm; simpl in *; lia). subst; reflexivity.
      * assert (k = k') by (clear -Hk Hk' C1; unfold corner_pos in C1; rewrite !Nat.mul_1_l in C1; destruct C1 as [A B]; four Hk; four Hk'; simpl in *; lia).
        assert (m = m') by (clear -Hm Hm' C2; unfold corner_pos in C2; rewrite !Nat.mul_1_l in C2; destruct C2 as [A B]; four Hm; four Hm'; simpl in *; lia).
        subst; assumption.
      * assert (K1 : (k = i /\ r = 0) \/ (k = nx i /\ r = 1)).
        { apply (corner_on_edge verts 1 k i (quad_x k) (quad_y k) r); auto. unfold corner_pos. lia. }
        assert (K2 : (m = j /\ r' = 0) \/ (m = nx j /\ r' = 1)).
        { apply (corner_on_edge verts 1 m j (quad_x m) (quad_y m) r'); auto. unfold corner_pos. lia. }
        destruct H as [[[A B] H]|[[A B] H]]; unfold nx in *; destruct K1 as [[-> ->]|[-> ->]], K2 as [[-> ->]|[-> ->]]; try discriminate; try lia; assumption.
  - destruct (ex_son _ _ _ _ C a n Xa La) as [i [d [-> [Hi [R Ld]]]]].
    destruct (ex_son _ _ _ _ C b n Xb Lb) as [i' [d' [-> [Hi' [R' Ld']]]]].
    pose proof (cf_ref _ _ _ _ C d R) as Xd. pose proof (cf_ref _ _ _ _ C d' R') as Xd'.
    rewrite !pos_patch_cons by (apply nonroot; assumption).
    pose proof (patch_lt d Xd) as Hp. pose proof (patch_lt d' Xd') as Hq.
    change (2 ^ S n) with (2 * 2 ^ n).
    assert (HE : 0 < 2 ^ n) by (pose proof (Nat.pow_nonzero 2 n); lia).
    assert (PL : pos_level d = n /\ pos_level d' = n) by (unfold pos_level; lia). destruct PL as [PL PL'].
    pose proof (fun k => pos_bound d k Xd) as Bd. pose proof (fun k => pos_bound d' k Xd') as Bd'. rewrite PL in Bd. rewrite PL' in Bd'.
    destruct (vertex_kind d i k R Hi Hk) as [[V [X Y]]|[[j [Hj [V [X Y]]]]|[V [X Y]]]];
    destruct (vertex_kind d' i' m R' Hi' Hm) as [[V' [X' Y']]|[[j' [Hj' [V' [X' Y']]]]|[V' [X' Y']]]];
    rewrite V, V', X, Y, X', Y'; clear V X Y V' X' Y'.
    + rewrite <- sp_double. apply IH; auto.
    + split; intros H; exfalso.
      * apply (proj1 (cf_m2 _ _ _ _ C d' d j' i R' Xd ltac:(lia) Hj' Hi)). assumption.
      * apply sp_even in H; [|apply even_double]. apply (em verts _ _ H). apply (adj_mid verts). apply slot_adjacent. assumption.
    + split; intros H; exfalso.
      * apply (proj2 (cf_m2 _ _ _ _ C d' d 0 i R' Xd ltac:(lia) ltac:(lia) Hi)). assumption.
      * apply sp_even in H; [|apply even_double]. apply (ec verts _ _ H). apply ctr_odd.
    + split; intros H; exfalso.
      * apply (proj1 (cf_m2 _ _ _ _ C d d' j i' R Xd' ltac:(lia) Hj Hi')). auto.
      * apply sp_sym in H. apply sp_even in H; [|apply even_double]. apply (em verts _ _ H). apply (adj_mid verts). apply slot_adjacent. assumption.
    + rewrite (cf_m1 _ _ _ _ C d j d' j') by (auto; lia).
      pose proof (slot_adjacent d j Hj) as Ad. pose proof (slot_adjacent d' j' Hj') as Ad'.
      unfold same_edge. rewrite !IH by (auto using nx_lt). split.
      * intros [[H1 H2]|[H1 H2]].
        -- apply (mid_same_2 verts M); auto.
        -- rewrite (Nat.add_comm (px d' j')), (Nat.add_comm (py d' j')).
           apply (mid_same_2 verts M); auto. unfold adjacent in *; lia.
      * intros H. apply (mid_same_1 verts) in H; auto; apply Bd || apply Bd'.
    + split; intros H; exfalso.
      * apply (proj2 (cf_m3 _ _ _ _ C d' d R' R ltac:(lia)) j Hj). auto.
      * apply sp_sym in H. apply sp_ctr in H; [|apply ctr_odd]. destruct H as [_ [H1 H2]].
        apply (mc verts (px d j + px d (nx j)) (py d j + py d (nx j))); [apply (adj_mid verts), slot_adjacent; assumption|].
        rewrite <- H1, <- H2. apply ctr_odd.
    + split; intros H; exfalso.
      * apply (proj2 (cf_m2 _ _ _ _ C d d' 0 i' R Xd' ltac:(lia) ltac:(lia) Hi')). auto.
      * apply sp_sym in H. apply sp_even in H; [|apply even_double]. apply (ec verts _ _ H). apply ctr_odd.
    + split; intros H; exfalso.
      * apply (proj2 (cf_m3 _ _ _ _ C d d' R R' ltac:(lia)) j' Hj'). auto.
      * apply sp_ctr in H; [|apply ctr_odd]. destruct H as [_ [H1 H2]].
        apply (mc verts (px d' j' + px d' (nx j')) (py d' j' + py d' (nx j'))); [apply (adj_mid verts), slot_adjacent; assumption|].
        rewrite <- H1, <- H2. apply ctr_odd.
    + split; intros H.
      * apply (proj1 (cf_m3 _ _ _ _ C d d' R R' ltac:(lia))) in H. subst d'. left. auto.
      * apply sp_ctr in H; [|apply ctr_odd]. destruct H as [H0 [H1 H2]].
        assert (d = d').
        { apply pos_unique; auto; try lia; eapply wf_vaddr; eauto. }
        subst d'. reflexivity.
Qed.

(** nodes of different levels *)
Lemma two_levels : forall r n a b k m, exs s a -> exs s b -> length a = S n -> length b = S (n + r) -> k < 4 -> m < 4 ->
  (vx a k = vx b m <->
   sp (2 ^ (n + r)) (pos_patch a) (2 ^ r * px a k) (2 ^ r * py a k) (pos_patch b) (px b m) (py b m)).
Proof.
  induction r as [|r IH]; intros n a b k m Xa Xb La Lb Hk Hm.
  - rewrite Nat.add_0_r in *. simpl. rewrite !Nat.add_0_r. apply same_level; auto.
  - destruct (ex_son _ _ _ _ C b (n + r) Xb) as [i' [d' [-> [Hi' [R' Ld']]]]]; [lia|].
    pose proof (cf_ref _ _ _ _ C d' R') as Xd'.
    rewrite (pos_patch_cons i' d') by (apply nonroot; assumption).
    replace (n + S r) with (S (n + r)) by lia. rewrite !(Nat.pow_succ_r' 2), <- !Nat.mul_assoc.
    destruct (vertex_kind d' i' m R' Hi' Hm) as [[V' [X' Y']]|[[j' [Hj' [V' [X' Y']]]]|[V' [X' Y']]]];
    rewrite V', X', Y'.
    + rewrite <- sp_double. apply IH; auto.
    + split; intros H; exfalso.
      * apply (proj1 (cf_m2 _ _ _ _ C d' a j' k R' Xa ltac:(lia) Hj' Hk)). assumption.
      * apply sp_even in H; [|apply even_double]. apply (em verts _ _ H). apply (adj_mid verts). apply slot_adjacent. assumption.
    + split; intros H; exfalso.
      * apply (proj2 (cf_m2 _ _ _ _ C d' a 0 k R' Xa ltac:(lia) ltac:(lia) Hk)). assumption.
      * apply sp_even in H; [|apply even_double]. apply (ec verts _ _ H). apply ctr_odd.
Qed.

Lemma indices : forall a b k m L, exs s a -> exs s b -> k < 4 -> m < 4 -> pos_level a <= L -> pos_level b <= L ->
  (vx a k = vx b m <->
   sp (2 ^ L) (pos_patch a) (2 ^ (L - pos_level a) * px a k) (2 ^ (L - pos_level a) * py a k)
              (pos_patch b) (2 ^ (L - pos_level b) * px b m) (2 ^ (L - pos_level b) * py b m)).
Proof.
  assert (G : forall a b k m L, exs s a -> exs s b -> k < 4 -> m < 4 -> pos_level a <= pos_level b -> pos_level b <= L ->
  (vx a k = vx b m <->
   sp (2 ^ L) (pos_patch a) (2 ^ (L - pos_level a) * px a k) (2 ^ (L - pos_level a) * py a k)
              (pos_patch b) (2 ^ (L - pos_level b) * px b m) (2 ^ (L - pos_level b) * py b m))).
  { intros a b k m L Xa Xb Hk Hm Ha Hb.
    assert (La : length a = S (pos_level a)) by (pose proof (nonroot a Xa); unfold pos_level; destruct a; [congruence|simpl; lia]).
    assert (Lb : length b = S (pos_level a + (pos_level b - pos_level a))) by (pose proof (nonroot b Xb); unfold pos_level in *; destruct b; [congruence|simpl in *; lia]).
    rewrite (two_levels (pos_level b - pos_level a) (pos_level a) a b k m Xa Xb La Lb Hk Hm).
    replace (pos_level a + (pos_level b - pos_level a)) with (pos_level b) by lia.
    rewrite (sp_scale verts (L - pos_level b)).
    rewrite !Nat.mul_assoc, <- !Nat.pow_add_r.
    replace (L - pos_level b + pos_level b) with L by lia.
    replace (L - pos_level b + (pos_level b - pos_level a)) with (L - pos_level a) by lia. tauto. }
  intros a b k m L Xa Xb Hk Hm Ha Hb. destruct (le_dec (pos_level a) (pos_level b)) as [H|H].
  - apply G; auto.
  - split; intros E.
    + apply sp_sym. apply G; auto. lia.
    + symmetry. apply (G b a m k L); auto; [lia|]. apply sp_sym. assumption.
Qed.
End Idx.
