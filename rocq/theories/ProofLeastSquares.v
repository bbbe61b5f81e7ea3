(** Least squares solutions exist. *)
From Coq Require Import Reals Arith Bool List Lia Lra ClassicalEpsilon.
From Verif Require Import RSum ModelBall SpecCoefficients.
Import ListNotations.
Local Open Scope R_scope.

Definition image (A : nat -> nat -> R) (cols : nat) (x : nat -> R) (r : nat) : R := rsum (fun c => A r c * x c) cols.
Lemma normal_equations : forall rows A cols b, exists x, forall c, (c < cols)%nat -> rsum (fun r => A r c * (b r - image A cols x r)) rows = 0.
Proof.
  intros rows A cols. induction cols as [|n IH]; intros b; [exists (fun _ => 0); intros; lia|].
  destruct (IH b) as [x Hx0]. destruct (IH (fun r => A r n)) as [y Hy0].
  set (p := fun r => b r - image A n x r) in *. set (q := fun r => A r n - image A n y r) in *. set (qq := rsum (fun r => q r * q r) rows).
  assert (Orth : forall v z, (forall c, (c < n)%nat -> rsum (fun r => A r c * v r) rows = 0) -> rsum (fun r => image A n z r * v r) rows = 0).
  { intros v z Hv. unfold image. rewrite (rsum_ext _ (fun r => rsum (fun c => z c * (A r c * v r)) n)) by (intros r _; rewrite <- rsum_scal_r; apply rsum_ext; intros; ring).
    rewrite rsum_swap. apply rsum_zero. intros c Hc. rewrite rsum_scal, (Hv c Hc). ring. }
  set (s := if Req_EM_T qq 0 then 0 else rsum (fun r => q r * p r) rows / qq).
  exists (fun c => if (c =? n)%nat then s else x c - s * y c).
  assert (Im : forall r, b r - image A (S n) (fun c => if (c =? n)%nat then s else x c - s * y c) r = p r - s * q r).
  { intros r. unfold p, q, image. cbn [rsum]. rewrite Nat.eqb_refl. rewrite (rsum_ext (fun c => A r c * (if (c =? n)%nat then s else x c - s * y c)) (fun c => A r c * x c - s * (A r c * y c))) by (intros c Hc; destruct (Nat.eqb_spec c n); [lia|ring]).
    rewrite rsum_minus, rsum_scal. ring. }
  intros c Hc. rewrite (rsum_ext _ (fun r => A r c * p r - s * (A r c * q r))) by (intros r _; rewrite Im; ring). rewrite rsum_minus, rsum_scal.
  destruct (Nat.eq_dec c n) as [->|Ne].
  - assert (E : forall v, (forall c, (c < n)%nat -> rsum (fun r => A r c * v r) rows = 0) -> rsum (fun r => A r n * v r) rows = rsum (fun r => q r * v r) rows).
    { intros v Hv. rewrite (rsum_ext _ (fun r => q r * v r + image A n y r * v r)) by (intros; unfold q; ring). rewrite rsum_plus, (Orth v y Hv). ring. }
    rewrite (E p Hx0), (E q Hy0). fold qq. unfold s. destruct (Req_EM_T qq 0) as [Z|Z]; [|field; exact Z].
    assert (Q0 : forall r, (r < rows)%nat -> q r = 0).
    { revert Z. unfold qq. clear. induction rows as [|k IH]; intros Z r Hr; [lia|]. cbn [rsum] in Z. assert (0 <= rsum (fun r => q r * q r) k) by (apply rsum_nonneg; intros; nra).
      assert (q k * q k = 0) by nra. destruct (Nat.eq_dec r k) as [->|N]; [nra|apply IH; [nra|lia]]. }
    rewrite Z, (rsum_zero (fun r => q r * p r)) by (intros r Hr; rewrite (Q0 r Hr); ring). ring.
  - change (rsum (fun r => A r c * p r) rows) with (rsum (fun r => A r c * (b r - image A n x r)) rows). change (rsum (fun r => A r c * q r) rows) with (rsum (fun r => A r c * (A r n - image A n y r)) rows). rewrite (Hx0 c ltac:(lia)), (Hy0 c ltac:(lia)). ring.
Qed.
Lemma minimiser_exists : forall rows cols A b, exists x, forall z, residual rows cols A b x <= residual rows cols A b z.
Proof.
  intros rows cols A b. destruct (normal_equations rows A cols b) as [x Hx0]. exists x. intros z. unfold residual.
  assert (E : rsum (fun r => (rsum (fun c => A r c * z c) cols - b r) ^ 2) rows = rsum (fun r => (rsum (fun c => A r c * x c) cols - b r) ^ 2) rows + rsum (fun r => (image A cols (fun c => z c - x c) r) ^ 2) rows).
  { assert (O : rsum (fun r => image A cols (fun c => z c - x c) r * (b r - image A cols x r)) rows = 0).
    { unfold image at 1. rewrite (rsum_ext _ (fun r => rsum (fun c => (z c - x c) * (A r c * (b r - image A cols x r))) cols)) by (intros r _; rewrite <- rsum_scal_r; apply rsum_ext; intros; ring).
      rewrite rsum_swap. apply rsum_zero. intros c Hc. rewrite rsum_scal, (Hx0 c Hc). ring. }
    rewrite <- rsum_plus. rewrite (rsum_ext _ (fun r => (rsum (fun c => A r c * x c) cols - b r) ^ 2 + image A cols (fun c => z c - x c) r ^ 2 + -2 * (image A cols (fun c => z c - x c) r * (b r - image A cols x r)))).
    - rewrite rsum_plus, rsum_scal, O. ring.
    - intros r _. assert (I : rsum (fun c => A r c * z c) cols = image A cols x r + image A cols (fun c => z c - x c) r) by (unfold image; rewrite <- rsum_plus; apply rsum_ext; intros; ring). rewrite I. fold (image A cols x r). ring. }
  rewrite E. assert (0 <= rsum (fun r => (image A cols (fun c => z c - x c) r) ^ 2) rows) by (apply rsum_nonneg; intros; apply pow2_ge_0). lra.
Qed.
Lemma solver_exists : exists solve, least_squares solve.
Proof.
  exists (fun rows cols A b => proj1_sig (constructive_indefinite_description _ (minimiser_exists rows cols A b))).
  intros rows cols A b x. destruct (constructive_indefinite_description _ _) as [y Hy0]. apply Hy0.
Qed.
