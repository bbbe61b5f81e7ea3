From Coq Require Import List Arith Bool Lia ZArith Reals Lra Permutation.
From Verif Require Import ModelBase ModelBernstein RSum ModelTree ModelBlock ModelPar ModelH2 SpecH2 ProofPar.
Import ListNotations.
Local Open Scope nat_scope.

Lemma divmod_mul : forall a b n, b < n -> (a * n + b) / n = a /\ (a * n + b) mod n = b.
Proof.
  intros a b n H. split.
  - symmetry. apply (Nat.div_unique _ n a b); lia.
  - symmetry. apply (Nat.mod_unique _ n a b); lia.
Qed.

Section Levels.
Variables np nF mc : nat. Variables mom T : mat.
Hypothesis Hnp : 0 < np. Hypothesis HnF : 0 < nF. Hypothesis Hmc : 0 < mc.
Let rows := nF * np.
Let sz (f : nat) := mc * 4 ^ f.
Lemma sz_pos : forall f, 0 < sz f.
Proof. intros f. unfold sz. pose proof (Nat.pow_nonzero 4 f ltac:(lia)). nia. Qed.
Lemma sz_S : forall f, sz (S f) = 4 * sz f.
Proof. intros f. unfold sz. cbn [Nat.pow]. lia. Qed.

Lemma row_split : forall r, r < rows -> r / np < nF /\ r = r / np * np + r mod np /\ r mod np < np.
Proof.
  intros r Hr. unfold rows in Hr. split; [apply Nat.div_lt_upper_bound; lia|]. split; [|apply Nat.mod_upper_bound; lia].
  rewrite (Nat.div_mod r np) at 1 by lia. lia.
Qed.

Lemma forward_step_ok : forall A i col, i < rows ->
  forward_step np nF T A i col = rsum (fun m => rsum (fun u => T (i mod np) (m * np + u)%nat * A (i / np * np + u)%nat (4 * col + m)%nat)%R np) 4.
Proof.
  intros A i col Hi. destruct (row_split i Hi) as [H1 [H2 H3]]. unfold forward_step, mmul. fold rows.
  rewrite rsum_flatten. apply rsum_ext. intros m Hm. apply rsum_ext. intros u Hu.
  destruct (divmod_mul m u np Hu) as [-> ->]. f_equal. unfold reshape, data.
  replace ((i / np + m * nF) * np + u + 4 * rows * col) with ((4 * col + m) * rows + (i / np * np + u)) by (unfold rows; lia).
  destruct (divmod_mul (4 * col + m) (i / np * np + u) rows) as [-> ->]; [unfold rows; nia|reflexivity].
Qed.

Lemma forward_ok : forall x f row j, row < rows ->
  forward np nF mc mom T x f row j = rsum (fun d => basis np mc mom T f row d * x (j * sz f + d)%nat)%R (sz f).
Proof.
  intros x f. induction f as [|f IH]; intros row j Hr.
  - cbn [forward]. unfold mmul, sz. rewrite Nat.pow_0_r, Nat.mul_1_r. apply rsum_ext. intros d Hd. cbn [basis]. unfold reshape. f_equal. f_equal. lia.
  - cbn [forward]. rewrite forward_step_ok by assumption. destruct (row_split row Hr) as [H1 [H2 H3]].
    rewrite sz_S, rsum_flatten. apply rsum_ext. intros m Hm.
    rewrite (rsum_ext _ (fun u => rsum (fun d => T (row mod np) (m * np + u)%nat * (basis np mc mom T f (row / np * np + u)%nat d * x ((4 * j + m) * sz f + d)%nat))%R (sz f)) np).
    2:{ intros u Hu. rewrite IH by (unfold rows; nia). rewrite rsum_scal. reflexivity. }
    rewrite rsum_swap. apply rsum_ext. intros d Hd. cbn [basis]. fold (sz f).
    destruct (divmod_mul m d (sz f) Hd) as [-> ->]. rewrite <- rsum_scal_r. apply rsum_ext. intros u Hu.
    replace ((4 * j + m) * sz f + d) with (j * (4 * sz f) + (m * sz f + d)) by nia. lra.
Qed.

(** the matrix lifted from level i to level i-1 *)
Lemma lift_ok : forall B i row col, row < rows ->
  backward_step np nF T B (S i) i row col = (B i row col +
    rsum (fun q => T q ((col mod 4) * np + row mod np)%nat * B (S i) (row / np * np + q)%nat (col / 4)%nat) np)%R.
Proof.
  intros B i row col Hr. unfold backward_step, updl. replace (S i - 1) with i by lia. rewrite Nat.eqb_refl. f_equal.
  fold rows. unfold reshape, data. destruct (row_split row Hr) as [H1 [H2 H3]].
  assert (E : row + rows * col = col / 4 * (4 * rows) + (col mod 4 * rows + row)).
  { pose proof (Nat.div_mod col 4 ltac:(lia)) as D. nia. }
  pose proof (Nat.mod_upper_bound col 4 ltac:(lia)) as M4.
  rewrite E. destruct (divmod_mul (col / 4) (col mod 4 * rows + row) (4 * rows)) as [-> ->]; [nia|].
  assert (E2 : col mod 4 * rows + row = (col mod 4 * nF + row / np) * np + row mod np) by (unfold rows; nia).
  rewrite E2. destruct (divmod_mul (col mod 4 * nF + row / np) (row mod np) np H3) as [-> ->].
  destruct (divmod_mul (col mod 4) (row / np) nF H1) as [-> ->]. unfold mmul, mtrans. reflexivity.
Qed.
Lemma step_other : forall B i j, j <> i -> backward_step np nF T B (S i) j = B j.
Proof. intros B i j H. unfold backward_step, updl. replace (S i - 1) with i by lia. destruct (Nat.eqb_spec j i); [congruence|reflexivity]. Qed.

(** contribution of level f to entry e of the result *)
Definition level_part (B : nat -> mat) (e f : nat) : R :=
  rsum (fun row => basis np mc mom T f row (e mod sz f)%nat * B f row (e / sz f)%nat)%R rows.
Lemma lift_part : forall (A : mat) e f,
  rsum (fun row => basis np mc mom T f row (e mod sz f)%nat *
     rsum (fun q => T q ((e / sz f)%nat mod 4 * np + row mod np)%nat * A (row / np * np + q)%nat (e / sz f / 4)%nat) np)%R rows =
  rsum (fun row => basis np mc mom T (S f) row (e mod sz (S f))%nat * A row (e / sz (S f))%nat)%R rows.
Proof.
  intros A e f. pose proof (sz_pos f) as Hs. unfold rows. rewrite !rsum_flatten. apply rsum_ext. intros c Hc.
  assert (D : e / sz (S f) = e / sz f / 4) by (rewrite sz_S, (Nat.mul_comm 4), Nat.div_div by lia; reflexivity).
  assert (Dm : e mod sz (S f) / sz f = (e / sz f)%nat mod 4 /\ e mod sz (S f) mod sz f = e mod sz f).
  { rewrite sz_S, (Nat.mul_comm 4), Nat.mod_mul_r by lia.
    replace (e mod sz f + sz f * ((e / sz f)%nat mod 4)) with ((e / sz f)%nat mod 4 * sz f + e mod sz f) by lia.
    apply divmod_mul. apply Nat.mod_upper_bound. lia. }
  destruct Dm as [Dm1 Dm2].
  etransitivity; [|etransitivity].
  2:{ apply (rsum_swap (fun u q => basis np mc mom T f (c * np + u)%nat (e mod sz f)%nat * (T q ((e / sz f)%nat mod 4 * np + u)%nat * A (c * np + q)%nat (e / sz f / 4)%nat))%R np np). }
  - apply rsum_ext. intros u Hu. destruct (divmod_mul c u np Hu) as [-> ->]. rewrite <- rsum_scal. reflexivity.
  - apply rsum_ext. intros q Hq. cbn [basis]. fold (sz f). rewrite Dm1, Dm2, D. destruct (divmod_mul c q np Hq) as [-> ->].
    rewrite <- rsum_scal_r. apply rsum_ext. intros u Hu. lra.
Qed.

Lemma backward_ok : forall steps B e, backward np nF mc mom T steps B e = rsum (level_part B e) (S steps).
Proof.
  induction steps as [|s IH]; intros B e.
  - unfold backward, data, mmul, mtrans. cbn [backward_loop rsum]. unfold level_part. cbn [basis]. unfold sz.
    rewrite Nat.pow_0_r, Nat.mul_1_r. fold rows. lra.
  - unfold backward. cbn [backward_loop]. fold (backward np nF mc mom T s (backward_step np nF T B (S s))).
    change (data mc (mmul (nF * np) (mtrans mom) (backward_loop np nF T s (backward_step np nF T B (S s)) 0)) e)
      with (backward np nF mc mom T s (backward_step np nF T B (S s)) e). rewrite IH.
    cbn [rsum].
    assert (E1 : rsum (level_part (backward_step np nF T B (S s)) e) s = rsum (level_part B e) s).
    { apply rsum_ext. intros f Hf. unfold level_part. rewrite step_other by lia. reflexivity. }
    assert (E2 : level_part (backward_step np nF T B (S s)) e s = (level_part B e s + level_part B e (S s))%R).
    { unfold level_part at 1. rewrite (rsum_ext _ (fun row => basis np mc mom T s row (e mod sz s)%nat * B s row (e / sz s)%nat +
        basis np mc mom T s row (e mod sz s)%nat * rsum (fun q => T q ((e / sz s)%nat mod 4 * np + row mod np)%nat * B (S s) (row / np * np + q)%nat (e / sz s / 4)%nat) np)%R).
      2:{ intros row Hrow. rewrite lift_ok by assumption. lra. }
      rewrite rsum_plus, lift_part. reflexivity. }
    rewrite E1, E2. lra.
Qed.

(** adding a column on one level *)
Lemma level_part_add : forall B e f g col (v : nat -> R),
  level_part (fun h r c => if ((h =? g) && (c =? col))%nat%bool then B h r c + v r else B h r c)%R e f =
  (level_part B e f + (if ((f =? g) && (e / sz f =? col))%nat%bool then rsum (fun row => basis np mc mom T f row (e mod sz f)%nat * v row) rows else 0))%R.
Proof.
  intros B e f g col v. unfold level_part. destruct ((f =? g) && (e / sz f =? col)).
  - rewrite <- rsum_plus. apply rsum_ext. intros; lra.
  - rewrite Rplus_0_r. reflexivity.
Qed.
Lemma backward_add : forall B e g col (v : nat -> R) steps, g <= steps ->
  backward np nF mc mom T steps (fun h r c => if ((h =? g) && (c =? col))%nat%bool then B h r c + v r else B h r c)%R e =
  (backward np nF mc mom T steps B e + (if (e / sz g =? col)%nat then rsum (fun row => basis np mc mom T g row (e mod sz g)%nat * v row) rows else 0))%R.
Proof.
  intros B e g col v steps Hg. rewrite !backward_ok.
  rewrite (rsum_ext _ (fun f => level_part B e f + (if ((f =? g) && (e / sz f =? col))%nat%bool then rsum (fun row => basis np mc mom T f row (e mod sz f)%nat * v row) rows else 0))%R).
  2:{ intros f _. apply level_part_add. }
  rewrite rsum_plus. f_equal. rewrite (rsum_single _ _ g); [|lia|intros f Hf Ne; apply Nat.eqb_neq in Ne; rewrite Ne; reflexivity].
  rewrite Nat.eqb_refl. reflexivity.
Qed.
Lemma backward_zero : forall steps e, backward np nF mc mom T steps (fun _ _ _ => 0%R) e = 0%R.
Proof.
  intros. rewrite backward_ok. apply rsum_zero. intros f _. unfold level_part. apply rsum_zero. intros; lra.
Qed.
End Levels.
