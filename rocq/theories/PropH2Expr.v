(** C73: expressions of H2 matrices. *)
From Coq Require Import List Arith Lia Bool Reals Lra.
From Verif Require Import ModelBase ModelBernstein RSum ModelTree ModelBlock ModelPar ModelH2 SpecH2 PropH2 ModelH2Expr SpecH2Expr.
Import ListNotations.
Local Open Scope nat_scope.

Section Size.
Variables (n cols : nat).

Lemma product_entry : forall H P M A TM alpha rhs res res', h2_of_mesh H P M -> described_by H P M A ->
  let D := h_vd H * comp_size H P M in h2_product H D n TM alpha rhs res res' ->
  forall i, res' i = (res i + alpha * rsum (fun l => rsum (fun q => TM q i * rsum (fun q' => A q q' * TM q' l) D) D * rhs l) n)%R.
Proof.
  intros H P M A TM alpha rhs res res' Hm Hd D Hp i. rewrite (C29_product H P M A n TM alpha rhs res res' Hm Hd Hp i). fold D. f_equal. f_equal.
  rewrite (rsum_ext (fun l => rsum (fun q => TM q i * rsum (fun q' => A q q' * TM q' l) D) D * rhs l)%R (fun l => rsum (fun q => TM q i * rsum (fun q' => A q q' * TM q' l) D * rhs l) D)%R).
  2:{ intros l _. rewrite Rmult_comm, <- rsum_scal. apply rsum_ext. intros q _. ring. }
  rewrite rsum_swap. apply rsum_ext. intros q _.
  rewrite (rsum_ext (fun l => TM q i * rsum (fun q' => A q q' * TM q' l) D * rhs l)%R (fun l => TM q i * rsum (fun q' => A q q' * TM q' l * rhs l) D)%R).
  2:{ intros l _. rewrite Rmult_assoc. f_equal. rewrite Rmult_comm, <- rsum_scal. apply rsum_ext. intros q' _. ring. }
  rewrite rsum_scal. f_equal. rewrite rsum_swap. apply rsum_ext. intros q' _. rewrite <- rsum_scal. apply rsum_ext. intros l _. ring.
Qed.
(** columns are independent of each other: column c of the source may be the constant X or the matrix itself *)
Lemma columns_entry : forall H P M A TM alpha (src : mat -> mat) l d d', h2_of_mesh H P M -> described_by H P M A ->
  let D := h_vd H * comp_size H P M in
  (forall d1 d2 c, (forall i, d1 i c = d2 i c) -> forall i, src d1 i c = src d2 i c) ->
  NoDup l -> h2_columns n H D TM alpha src l d d' ->
  forall i c, d' i c = if in_dec Nat.eq_dec c l then (d i c + alpha * times n (fun i j => rsum (fun q => TM q i * rsum (fun q' => A q q' * TM q' j) D) D) (src d) i c)%R else d i c.
Proof.
  intros H P M A TM alpha src l d d' Hm Hd D Hs Nd C. induction C as [d|c0 rest d d' v Hp C IH]; intros i c; [reflexivity|].
  inversion Nd as [|? ? Ni Nr]; subst. rewrite (IH Nr i c). destruct (in_dec Nat.eq_dec c rest) as [I1|I1], (in_dec Nat.eq_dec c (c0 :: rest)) as [I2|I2].
  - assert (c <> c0) by (intros ->; contradiction). f_equal; [unfold with_col; apply Nat.eqb_neq in H0; rewrite H0; reflexivity|]. f_equal. unfold times. apply rsum_ext. intros q _. f_equal.
    apply Hs. intros j. unfold with_col. apply Nat.eqb_neq in H0. rewrite H0. reflexivity.
  - exfalso. apply I2. right. exact I1.
  - destruct I2 as [->|I2]; [|contradiction]. unfold with_col. rewrite Nat.eqb_refl. apply (product_entry H P M A TM alpha _ _ v Hm Hd Hp i).
  - unfold with_col. destruct (Nat.eqb_spec c c0) as [->|_]; [exfalso; apply I2; left; reflexivity|reflexivity].
Qed.
Lemma seq_cols : forall c, (if in_dec Nat.eq_dec c (seq 0 cols) then true else false) = (c <? cols).
Proof. intros c. destruct (in_dec Nat.eq_dec c (seq 0 cols)) as [I|I]; [rewrite in_seq in I|rewrite in_seq in I]; destruct (Nat.ltb_spec c cols); auto; lia. Qed.
Lemma if_seq : forall {X} c (a b : X), (if in_dec Nat.eq_dec c (seq 0 cols) then a else b) = if c <? cols then a else b.
Proof. intros X c a b. rewrite <- seq_cols. destruct (in_dec Nat.eq_dec c (seq 0 cols)); reflexivity. Qed.

Lemma times_sum : forall A B X i c, times n (fun i j => A i j + B i j)%R X i c = (times n A X i c + times n B X i c)%R.
Proof. intros. unfold times. rewrite <- rsum_plus. apply rsum_ext. intros. ring. Qed.
Lemma times_diff : forall A B X i c, times n (fun i j => A i j - B i j)%R X i c = (times n A X i c - times n B X i c)%R.
Proof. intros. unfold times. rewrite <- rsum_minus. apply rsum_ext. intros. ring. Qed.
Lemma times_scale : forall beta A X i c, times n (fun i j => beta * A i j)%R X i c = (beta * times n A X i c)%R.
Proof. intros. unfold times. rewrite <- rsum_scal. apply rsum_ext. intros. ring. Qed.
Lemma times_ext : forall A X Y i c, (forall l, l < n -> X l c = Y l c) -> times n A X i c = times n A Y i c.
Proof. intros A X Y i c Hxy. unfold times. apply rsum_ext. intros l Hl. rewrite Hxy by exact Hl. reflexivity. Qed.

Definition columnwise (src : mat -> mat) : Prop := forall d1 d2 c, (forall i, d1 i c = d2 i c) -> forall i, src d1 i c = src d2 i c.
Lemma add_entry : forall e alpha src d d', scale_and_add n cols e alpha src d d' -> columnwise src -> forall A, stands_for e A ->
  forall i c, d' i c = if c <? cols then (d i c + alpha * times n A (src d) i c)%R else d i c.
Proof.
  intros e alpha src d d' E. induction E as [H D TM alpha src d d' C|A0 alpha src d|a b alpha src d l r El IHl Er IHr|a b alpha src d l r El IHl Er IHr|beta a alpha src d d' E IH]; intros Cs A St i c.
  - inversion St as [H' P M A' TM' Hm Hd D' E1 E2| | | |]; subst. rewrite (columns_entry H P M A' TM alpha src _ d d' Hm Hd Cs (seq_NoDup cols 0) C i c), if_seq. reflexivity.
  - inversion St; subst. reflexivity.
  - inversion St as [| |a' b' A' B' Sa Sb E1 E2| |]; subst. destruct (c <? cols) eqn:Ec; [|reflexivity].
    assert (Cc : forall X : mat, columnwise (fun _ => X)) by (intros X d1 d2 c0 _ i0; reflexivity).
    rewrite (IHl (Cc _) A' Sa i c), (IHr (Cc _) B' Sb i c), Ec, times_sum. unfold zero_mat. ring.
  - inversion St as [| | |a' b' A' B' Sa Sb E1 E2|]; subst. destruct (c <? cols) eqn:Ec; [|reflexivity].
    assert (Cc : forall X : mat, columnwise (fun _ => X)) by (intros X d1 d2 c0 _ i0; reflexivity).
    rewrite (IHl (Cc _) A' Sa i c), (IHr (Cc _) B' Sb i c), Ec, times_diff. unfold zero_mat. ring.
  - inversion St as [| | | |beta' a' A' Sa E1 E2]; subst. rewrite (IH Cs A' Sa i c), times_scale. destruct (c <? cols); [ring|reflexivity].
Qed.

(** what the statement should do to column c *)
Definition intended (s : assignment) (y p : R) : R := match s with Set_ => p | Add_ => (y + p)%R | Sub_ => (y - p)%R end.

(** C73: y = e * x, y += e * x and y -= e * x multiply with the matrix the expression stands for, in every execution, whenever
    x and y are different matrices, or the statement is += or -=, or the expression is not just an H2 matrix *)
Theorem C73_statement : forall s e A same x y y', stands_for e A -> (same = true -> s = Set_ -> alias_free e = false) ->
  execute n cols s e same x y y' ->
  forall i c, c < cols -> y' i c = intended s (y i c) (times n A (if same then y else x) i c).
Proof.
  intros s e A same x y y' St Al E i c Hc. apply Nat.ltb_lt in Hc. unfold execute in E. destruct (alias_free e) eqn:Fe.
  - destruct same.
    + assert (Cs : columnwise (fun d => d)) by (intros d1 d2 c0 Hd; exact Hd). rewrite (add_entry e _ _ _ _ E Cs A St i c), Hc. destruct s; cbn [start_of sign intended].
      * specialize (Al eq_refl eq_refl). congruence.
      * ring.
      * ring.
    + assert (Cs : columnwise (fun _ => x)) by (intros d1 d2 c0 _ i0; reflexivity). rewrite (add_entry e _ _ _ _ E Cs A St i c), Hc. destruct s; cbn [start_of sign intended]; unfold zero_mat; ring.
  - destruct E as [tmp [E ->]]. rewrite Hc. set (X := if same then y else x) in *. assert (Cs : columnwise (fun _ => X)) by (intros d1 d2 c0 _ i0; reflexivity).
    rewrite (add_entry e _ _ _ _ E Cs A St i c), Hc. destruct s; cbn [start_of sign intended]; unfold zero_mat; ring.
Qed.
(** The remaining case is wrong: x = H * x sets x to zero for every H2 matrix, because x is overwritten before it is read *)
Theorem C73_in_place_refuted : forall H P M TM x y x', h2_of_mesh H P M ->
  execute n cols Set_ (EH2 H (h_vd H * comp_size H P M) TM) true x y x' -> forall i c, c < cols -> x' i c = 0%R.
Proof.
  intros H P M TM x y x' Hm E i c Hc. apply Nat.ltb_lt in Hc. destruct (C29_matrix_exists H P M Hm) as [A Hd]. cbn [execute alias_free start_of sign] in E.
  assert (Cs : columnwise (fun d => d)) by (intros d1 d2 c0 Hd0; exact Hd0). rewrite (add_entry _ _ _ _ _ E Cs _ (st_h2 H P M A TM Hm Hd) i c), Hc.
  unfold zero_mat, times. rewrite rsum_zero by (intros; ring). ring.
Qed.
(** the sum with a zero matrix does it right *)
Theorem C73_in_place_sum : forall H P M A TM x y x', h2_of_mesh H P M -> described_by H P M A ->
  execute n cols Set_ (ESum (EH2 H (h_vd H * comp_size H P M) TM) (EOther zero_mat)) true x y x' ->
  forall i c, c < cols -> x' i c = times n (fun i j => rsum (fun q => TM q i * rsum (fun q' => A q q' * TM q' j) (h_vd H * comp_size H P M)%nat) (h_vd H * comp_size H P M)%nat)%R y i c.
Proof.
  intros H P M A TM x y x' Hm Hd E i c Hc. rewrite (C73_statement Set_ _ _ true x y x' (st_sum _ _ _ _ (st_h2 H P M A TM Hm Hd) (st_other zero_mat)) (fun _ _ => eq_refl) E i c Hc).
  cbn [intended]. rewrite times_sum. unfold times at 2. rewrite (rsum_zero (fun l => zero_mat i l * y l c)%R) by (intros; unfold zero_mat; ring). ring.
Qed.
(** executions exist, and the expression stands for a matrix *)
Theorem C73_defined : forall e, on_meshes e -> (exists A, stands_for e A) /\ forall s same x y, exists y', execute n cols s e same x y y'.
Proof.
  assert (Cx : forall H D TM alpha src l d, exists d', h2_columns n H D TM alpha src l d d').
  { intros H D TM alpha src. induction l as [|c l IH]; intros d; [exists d; constructor|]. destruct (C28_execution_exists H D n TM alpha (fun l0 => src d l0 c) (fun i => d i c)) as [v Hv].
    destruct (IH (with_col d c v)) as [d' Hd']. exists d'. econstructor; eassumption. }
  assert (Ex : forall e alpha src d, exists d', scale_and_add n cols e alpha src d d').
  { induction e as [H D TM|A|a IHa b IHb|a IHa b IHb|beta a IHa]; intros alpha src d.
    - destruct (Cx H D TM alpha src (seq 0 cols) d) as [d' C]. exists d'. constructor. exact C.
    - eexists. constructor.
    - destruct (IHa 1%R (fun _ => src d) zero_mat) as [l Hl]. destruct (IHb 1%R (fun _ => src d) zero_mat) as [r Hr]. eexists. econstructor; eassumption.
    - destruct (IHa 1%R (fun _ => src d) zero_mat) as [l Hl]. destruct (IHb 1%R (fun _ => src d) zero_mat) as [r Hr]. eexists. eapply add_diff; eassumption.
    - destruct (IHa (alpha * beta)%R src d) as [d' Hd']. exists d'. constructor. exact Hd'. }
  intros e O. split.
  - induction O as [H P M TM Hm|A|a b Oa [A Ha] Ob [B Hb]|a b Oa [A Ha] Ob [B Hb]|beta a Oa [A Ha]].
    + destruct (C29_matrix_exists H P M Hm) as [A Hd]. eexists. apply (st_h2 H P M A TM Hm Hd).
    + eexists. constructor.
    + eexists. apply st_sum; eassumption.
    + eexists. apply st_diff; eassumption.
    + eexists. apply st_scale; eassumption.
  - intros s same x y. unfold execute. destruct (alias_free e); [apply Ex|]. destruct (Ex e 1%R (fun _ => if same then y else x) zero_mat) as [tmp Ht]. eexists. exists tmp. split; [exact Ht|reflexivity].
Qed.
End Size.

(** C73: get_dense gives the matrix *)
Theorem C73_get_dense : forall n H P M A TM dense, h2_of_mesh H P M -> described_by H P M A -> let D := h_vd H * comp_size H P M in
  get_dense n H D TM dense ->
  forall i j, j < n -> dense i j = rsum (fun q => TM q i * rsum (fun q' => A q q' * TM q' j) D)%R D.
Proof.
  intros n H P M A TM dense Hm Hd D G i j Hj. destruct (G j Hj) as [y [E Ey]]. rewrite Ey.
  rewrite (C73_statement n 1 Set_ _ _ false (unit_vector j) zero_mat y (st_h2 H P M A TM Hm Hd) ltac:(discriminate) E i 0 ltac:(lia)). cbn [intended]. fold D. unfold times, unit_vector.
  rewrite (rsum_single _ n j Hj); [rewrite Nat.eqb_refl; ring|]. intros l _ Ne. apply Nat.eqb_neq in Ne. rewrite Ne. ring.
Qed.

(** ** examples *)
(** one square, level 0, one dense 1 x 1 block with the entry 1: the matrix is (1), but x = H * x gives 0 *)
Definition one_square : option (tree * btree) := t <- init_tree Nat.eqb [[0; 1; 2; 3]] 0 ;; b <- block_tree t (fun _ _ => true) 0%Z ;; Some (t, b).
Definition one_h2 : h2 := match one_square with Some (t, b) => mkH2 t 0%Z b 1 1 1 1 1 (fun _ _ _ => 1%R) (fun _ _ => 1%R) (fun _ _ _ _ _ _ => 1%R)
  | None => mkH2 (mkTree (fun _ => None) None None 0 0 0 0) 0%Z (BT Dense [] [] 0 0 []) 1 1 1 1 1 (fun _ _ _ => 1%R) (fun _ _ => 1%R) (fun _ _ _ _ _ _ => 1%R) end.
Example one_h2_mesh : h2_of_mesh one_h2 1 0.
Proof.
  exists nat, Nat.eqb, [[0; 1; 2; 3]], (fun _ _ => true). split; [reflexivity|]. split; [lia|]. split; [intros c [<-|[]]; reflexivity|]. split; [reflexivity|]. split; [reflexivity|].
  split; [cbn; lia|]. split; [reflexivity|]. cbn. repeat split; lia.
Qed.
Example one_h2_in_place : exists A, stands_for (EH2 one_h2 1 (fun _ _ => 1%R)) A /\ times 1 A (fun _ _ => 5%R) 0 0 = 5%R /\
  forall x' y, execute 1 1 Set_ (EH2 one_h2 1 (fun _ _ => 1%R)) true y (fun _ _ => 5%R) x' -> x' 0 0 = 0%R.
Proof.
  destruct (C29_matrix_exists one_h2 1 0 one_h2_mesh) as [A Hd]. eexists. split; [apply (st_h2 one_h2 1 0 A (fun _ _ => 1%R) one_h2_mesh Hd)|]. split.
  - assert (E : A 0 0 = 1%R).
    { assert (exists B, In B (leaves (h_blocks one_h2)) /\ b_cc B = Dense /\ start_index (h_tree one_h2) 1 (b_c1 B) = Some 0 /\ end_index (h_tree one_h2) 1 (b_c1 B) = Some 1 /\ start_index (h_tree one_h2) 1 (b_c2 B) = Some 0 /\ end_index (h_tree one_h2) 1 (b_c2 B) = Some 1) as [B [HB [Ec [E1 [E2 [E3 E4]]]]]].
      { eexists. split; [left; reflexivity|]. repeat split. }
      change (A 0 0) with (A (0 * comp_size one_h2 1 0 + 0) (0 * comp_size one_h2 1 0 + 0)). rewrite (Hd 0 0 0 0 B 0 0 ltac:(cbn; lia) ltac:(cbn; lia) ltac:(cbn; lia) ltac:(cbn; lia) HB) by (auto; exists 0, 1, 0, 1; auto 10 with arith).
      unfold block_entry. rewrite Ec. reflexivity. }
    unfold times. cbn [h_vd one_h2 one_square comp_size h_k rsum]. change (h_vd one_h2 * comp_size one_h2 1 0) with 1. cbn [rsum]. rewrite E. ring.
  - intros x' y Ex. apply (C73_in_place_refuted 1 1 one_h2 1 0 (fun _ _ => 1%R) y (fun _ _ => 5%R) x' one_h2_mesh Ex 0 0). lia.
Qed.
(** a combination of several matrices *)
Example an_expression : on_meshes (EDiff (ESum (EH2 one_h2 1 (fun _ _ => 1%R)) (EScale 2 (EH2 one_h2 1 (fun _ _ => 3%R)))) (EOther (fun i j => INR (i + j)))).
Proof. apply om_diff; [apply om_sum; [|apply om_scale]|constructor]; apply (om_h2 one_h2 1 0 _ one_h2_mesh). Qed.

(* BEGIN ASSUMPTIONS *)
Print Assumptions C73_statement.
Print Assumptions C73_in_place_refuted.
Print Assumptions C73_in_place_sum.
Print Assumptions C73_defined.
Print Assumptions C73_get_dense.
