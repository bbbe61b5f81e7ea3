(** Finite sums of reals, used by specifications and proofs.
    [rsum f n] is f 0 + f 1 + ... + f (n-1). *)
From Coq Require Import Reals Lra Lia Arith List.
Local Open Scope R_scope.

Fixpoint rsum (f : nat -> R) (n : nat) : R :=
  match n with
  | O => 0
  | S m => rsum f m + f m
  end.

Lemma rsum_ext : forall f g n, (forall i, (i < n)%nat -> f i = g i) -> rsum f n = rsum g n.
Proof.
  intros f g n; induction n as [|n IH]; intros H; simpl; [reflexivity|].
  rewrite IH by (intros; apply H; lia). rewrite (H n) by lia. reflexivity.
Qed.

Lemma rsum_zero : forall f n, (forall i, (i < n)%nat -> f i = 0) -> rsum f n = 0.
Proof.
  intros f n H. induction n as [|n IH]; simpl; [reflexivity|].
  rewrite IH by (intros; apply H; lia). rewrite (H n) by lia. ring.
Qed.

Lemma rsum_plus : forall f g n, rsum (fun i => f i + g i) n = rsum f n + rsum g n.
Proof. intros f g n; induction n as [|n IH]; simpl; [ring|rewrite IH; ring]. Qed.

Lemma rsum_minus : forall f g n, rsum (fun i => f i - g i) n = rsum f n - rsum g n.
Proof. intros f g n; induction n as [|n IH]; simpl; [ring|rewrite IH; ring]. Qed.

Lemma rsum_scal : forall c f n, rsum (fun i => c * f i) n = c * rsum f n.
Proof. intros c f n; induction n as [|n IH]; simpl; [ring|rewrite IH; ring]. Qed.

Lemma rsum_scal_r : forall c f n, rsum (fun i => f i * c) n = rsum f n * c.
Proof. intros c f n; induction n as [|n IH]; simpl; [ring|rewrite IH; ring]. Qed.

Lemma rsum_split : forall f n m, rsum f (n + m) = rsum f n + rsum (fun i => f (n + i)%nat) m.
Proof.
  intros f n m; induction m as [|m IH]; simpl.
  - rewrite Nat.add_0_r. ring.
  - rewrite Nat.add_succ_r. simpl. rewrite IH. ring.
Qed.

Lemma rsum_shift : forall f n, rsum f (S n) = f O + rsum (fun i => f (S i)) n.
Proof.
  intros f n. change (S n) with (1 + n)%nat. rewrite rsum_split. simpl. ring.
Qed.

Lemma rsum_swap : forall (f : nat -> nat -> R) n m,
  rsum (fun i => rsum (fun j => f i j) m) n = rsum (fun j => rsum (fun i => f i j) n) m.
Proof.
  intros f n m; induction n as [|n IH]; simpl.
  - symmetry; apply rsum_zero; reflexivity.
  - rewrite IH. rewrite <- rsum_plus. apply rsum_ext; intros; ring.
Qed.

Lemma rsum_le : forall f g n, (forall i, (i < n)%nat -> f i <= g i) -> rsum f n <= rsum g n.
Proof.
  intros f g n; induction n as [|n IH]; intros H; simpl; [lra|].
  assert (rsum f n <= rsum g n) by (apply IH; intros; apply H; lia).
  assert (f n <= g n) by (apply H; lia). lra.
Qed.

Lemma rsum_nonneg : forall f n, (forall i, (i < n)%nat -> 0 <= f i) -> 0 <= rsum f n.
Proof.
  intros f n; induction n as [|n IH]; intros H; simpl; [lra|].
  assert (0 <= rsum f n) by (apply IH; intros; apply H; lia).
  assert (0 <= f n) by (apply H; lia). lra.
Qed.

Lemma rsum_member_le : forall f n k,
  (forall i, (i < n)%nat -> 0 <= f i) -> (k < n)%nat -> f k <= rsum f n.
Proof.
  intros f n; induction n as [|n IH]; intros k H Hk; [lia|]. simpl.
  assert (0 <= f n) by (apply H; lia).
  destruct (Nat.eq_dec k n) as [->|Hne].
  - assert (0 <= rsum f n) by (apply rsum_nonneg; intros; apply H; lia). lra.
  - assert (f k <= rsum f n) by (apply IH; [intros; apply H; lia|lia]). lra.
Qed.

Lemma rsum_single : forall f n k, (k < n)%nat ->
  (forall i, (i < n)%nat -> i <> k -> f i = 0) -> rsum f n = f k.
Proof.
  intros f n; induction n as [|n IH]; intros k Hk H; [lia|]. simpl.
  destruct (Nat.eq_dec k n) as [->|Hne].
  - rewrite rsum_zero; [ring|]. intros; apply H; lia.
  - rewrite (IH k) by (try lia; intros; apply H; lia). rewrite (H n) by lia. ring.
Qed.

Lemma rsum_const : forall c n, rsum (fun _ => c) n = INR n * c.
Proof.
  intros c n; induction n as [|n IH]; [simpl; ring|].
  rewrite S_INR. simpl rsum. rewrite IH. ring.
Qed.

Lemma rsum_rev : forall f n, rsum f n = rsum (fun i => f (n - 1 - i)%nat) n.
Proof.
  intros f n; induction n as [|n IH]; [reflexivity|].
  rewrite (rsum_shift (fun i => f (S n - 1 - i)%nat)). simpl rsum at 1.
  replace (S n - 1 - 0)%nat with n by lia.
  rewrite IH. rewrite Rplus_comm. f_equal. apply rsum_ext; intros; f_equal; lia.
Qed.

Lemma rsum_derivable : forall (f df : nat -> R -> R) n x,
  (forall i, (i < n)%nat -> derivable_pt_lim (f i) x (df i x)) ->
  derivable_pt_lim (fun y => rsum (fun i => f i y) n) x (rsum (fun i => df i x) n).
Proof.
  intros f df n x; induction n as [|n IH]; intros H; simpl.
  - apply derivable_pt_lim_const.
  - apply (derivable_pt_lim_plus (fun y => rsum (fun i => f i y) n) (f n)).
    + apply IH; intros; apply H; lia.
    + apply H; lia.
Qed.

(** flattening of a double sum with row-major index *)
Lemma rsum_flatten : forall f n m,
  rsum f (n * m) = rsum (fun i => rsum (fun j => f (i * m + j)%nat) m) n.
Proof.
  intros f n m; induction n as [|n IH]; [reflexivity|].
  simpl rsum at 2. rewrite <- IH. replace (S n * m)%nat with (n * m + m)%nat by lia.
  apply rsum_split.
Qed.
