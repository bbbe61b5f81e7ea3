(** Linear systems: fewer equations than unknowns have a solution which is not zero, square systems with at most one solution have one. *)
From Coq Require Import Reals Lra Lia Arith.
From Verif Require Import RSum.
Local Open Scope R_scope.

Definition skip (j0 j : nat) : nat := if (j <? j0)%nat then j else Datatypes.S j.
Lemma rsum_skip : forall (f : nat -> R) n j0, (j0 <= n)%nat -> rsum f (Datatypes.S n) = f j0 + rsum (fun j => f (skip j0 j)) n.
Proof.
  intros f. induction n as [|n IH]; intros j0 H0.
  - assert (j0 = 0)%nat by lia. subst. cbn [rsum]. ring.
  - destruct (Nat.eq_dec j0 (Datatypes.S n)) as [->|Ne].
    + change (rsum f (Datatypes.S (Datatypes.S n))) with (rsum f (Datatypes.S n) + f (Datatypes.S n)). rewrite Rplus_comm. f_equal. apply rsum_ext. intros j Hj. unfold skip. destruct (Nat.ltb_spec j (Datatypes.S n)); [reflexivity|lia].
    + change (rsum f (Datatypes.S (Datatypes.S n))) with (rsum f (Datatypes.S n) + f (Datatypes.S n)). rewrite (IH j0) by lia. cbn [rsum].
      replace (skip j0 n) with (Datatypes.S n) by (unfold skip; destruct (Nat.ltb_spec n j0); [lia|reflexivity]). ring.
Qed.
Lemma kernel_exists : forall m n (A : nat -> nat -> R), (m < n)%nat ->
  exists x : nat -> R, (exists j, (j < n)%nat /\ x j <> 0) /\ forall i, (i < m)%nat -> rsum (fun j => A i j * x j) n = 0.
Proof.
  induction m as [|m IH]; intros n A Hn.
  - exists (fun _ => 1). split; [exists 0%nat; split; [lia|lra]|intros; lia].
  - assert (D : (exists j, (j < n)%nat /\ A m j <> 0) \/ forall j, (j < n)%nat -> A m j = 0).
    { clear -A. induction n as [|n IH]; [right; intros; lia|]. destruct IH as [[j [H1 H2]]|IH]; [left; exists j; split; [lia|exact H2]|].
      destruct (Req_dec (A m n) 0) as [Z|Z]; [right|left; exists n; split; [lia|exact Z]]. intros j Hj. destruct (Nat.eq_dec j n) as [->|]; [exact Z|apply IH; lia]. }
    destruct D as [[j0 [H0 Pv]]|Z].
    + destruct n as [|n]; [lia|]. set (a := A m j0) in *.
      destruct (IH n (fun i j => A i (skip j0 j) - A i j0 * (A m (skip j0 j) / a)) ltac:(lia)) as [y [[j [Hj Ny]] Hy]].
      set (y0 := - rsum (fun j => A m (skip j0 j) * y j) n / a).
      set (x := fun k => if (k =? j0)%nat then y0 else y (if (k <? j0)%nat then k else k - 1)%nat).
      assert (X0 : x j0 = y0) by (unfold x; rewrite Nat.eqb_refl; reflexivity).
      assert (X1 : forall j, x (skip j0 j) = y j).
      { intros k. unfold x, skip. destruct (Nat.ltb_spec k j0).
        - destruct (Nat.eqb_spec k j0); [lia|]. destruct (Nat.ltb_spec k j0); [reflexivity|lia].
        - destruct (Nat.eqb_spec (Datatypes.S k) j0); [lia|]. destruct (Nat.ltb_spec (Datatypes.S k) j0); [lia|]. f_equal. lia. }
      exists x. split.
      * exists (skip j0 j). split; [unfold skip; destruct (Nat.ltb_spec j j0); lia|]. rewrite X1. exact Ny.
      * assert (E : forall i, rsum (fun j => A i j * x j) (Datatypes.S n) = A i j0 * y0 + rsum (fun j => A i (skip j0 j) * y j) n).
        { intros i. rewrite (rsum_skip _ n j0) by lia. rewrite X0. f_equal. apply rsum_ext. intros k _. rewrite X1. reflexivity. }
        intros i Hi. rewrite E. destruct (Nat.eq_dec i m) as [->|Ne].
        { unfold y0. fold a. field. exact Pv. }
        specialize (Hy i ltac:(lia)). cbv beta in Hy.
        rewrite (rsum_ext _ (fun j => A i (skip j0 j) * y j - A i j0 / a * (A m (skip j0 j) * y j))) in Hy by (intros; unfold Rdiv; ring).
        rewrite rsum_minus, rsum_scal in Hy. unfold y0. etransitivity; [|exact Hy]. field. exact Pv.
    + destruct (IH n A ltac:(lia)) as [x [Nx Hx]]. exists x. split; [exact Nx|]. intros i Hi. destruct (Nat.eq_dec i m) as [->|Ne]; [|apply Hx; lia].
      apply rsum_zero. intros j Hj. rewrite Z by exact Hj. ring.
Qed.
Lemma square_solvable : forall n (A : nat -> nat -> R),
  (forall x, (forall i, (i < n)%nat -> rsum (fun j => A i j * x j) n = 0) -> forall j, (j < n)%nat -> x j = 0) ->
  forall b, exists x, forall i, (i < n)%nat -> rsum (fun j => A i j * x j) n = b i.
Proof.
  intros n A Inj b. destruct (kernel_exists n (Datatypes.S n) (fun i j => if (j =? n)%nat then b i else A i j) ltac:(lia)) as [x [[j [Hj Nx]] Hx]].
  assert (E : forall i, (i < n)%nat -> rsum (fun j => A i j * x j) n + b i * x n = 0).
  { intros i Hi. rewrite <- (Hx i Hi). cbn [rsum]. rewrite Nat.eqb_refl. f_equal. apply rsum_ext. intros k Hk. destruct (Nat.eqb_spec k n); [lia|reflexivity]. }
  destruct (Req_dec (x n) 0) as [Z|Z].
  - exfalso. apply Nx. destruct (Nat.eq_dec j n) as [->|Ne]; [exact Z|]. apply Inj; [|lia]. intros i Hi. rewrite <- (E i Hi), Z. ring.
  - exists (fun j => - (x j / x n)). intros i Hi. rewrite (rsum_ext _ (fun j => - / x n * (A i j * x j))) by (intros; unfold Rdiv; ring). rewrite rsum_scal.
    replace (rsum (fun j => A i j * x j) n) with (- (b i * x n)) by (pose proof (E i Hi); lra). field. exact Z.
Qed.
