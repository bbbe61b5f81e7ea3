(** Bernstein form of polynomials, invertibility of the interpolation problem, piecewise
    polynomials. *)
From Coq Require Import Reals Lra Lia Arith List ZArith Sorting.
From Verif Require Import RSum ModelBase ModelBernstein SpecBernstein ProofBernstein ModelKnots ProofKnots
  SpecInterp ProofInterp SpecDeBoor.
Import ListNotations.
Local Open Scope R_scope.

Lemma C_up : forall p i, (i <= p)%nat -> C p i = INR (i + 1) / INR (p + 1) * C (p + 1) (i + 1).
Proof.
  intros p i H. pose proof (C_absorb p i H) as E.
  replace (p + 1)%nat with (S p) by lia. replace (i + 1)%nat with (S i) by lia.
  assert (INR (S p) <> 0) by (apply not_0_INR; lia).
  unfold Rdiv. replace (INR (S i) * / INR (S p) * C (S p) (S i)) with (/ INR (S p) * (INR (S i) * C (S p) (S i))) by ring.
  rewrite E. field. assumption.
Qed.

Lemma bern_up : forall p i x, (i <= p)%nat -> x * bern p i x = INR (i + 1) / INR (p + 1) * bern (p + 1) (i + 1) x.
Proof.
  intros p i x H. unfold bern. rewrite (C_up p i H). replace (p + 1 - (i + 1))%nat with (p - i)%nat by lia.
  rewrite pow_add. simpl. ring.
Qed.

(** Every polynomial of degree <= p has a Bernstein form. *)
Lemma poly_bernstein : forall p f, polynomial (p + 1) f -> exists a, forall x, f x = bernstein_form p a x.
Proof.
  induction p as [|p IH]; intros f H; replace (0 + 1)%nat with 1%nat in * by lia.
  - apply poly_S in H. destruct H as [c [q [Hq H]]]. exists (fun _ => c). intros x. rewrite H.
    rewrite (proj1 (poly_0 q) Hq). unfold bernstein_form. cbn [rsum Nat.add]. unfold bern, C. simpl. field.
  - replace (S p + 1)%nat with (S (p + 1)) in H by lia. apply poly_S in H. destruct H as [c [q [Hq H]]].
    destruct (IH q Hq) as [b Hb].
    exists (fun i => c + match i with O => 0 | S k => b k * (INR (k + 1) / INR (p + 1)) end).
    intros x. rewrite H, Hb. unfold bernstein_form. replace (S p + 1)%nat with (S (p + 1)) by lia.
    transitivity (rsum (fun i => c * bern (S p) i x) (S (p + 1))
                  + rsum (fun i => match i with O => 0 | S k => b k * (INR (k + 1) / INR (p + 1)) end * bern (S p) i x) (S (p + 1))).
    + f_equal.
      * rewrite rsum_scal. replace (S (p + 1)) with (S p + 1)%nat by lia. rewrite bern_sum. ring.
      * rewrite rsum_shift, <- rsum_scal. rewrite Rmult_0_l, Rplus_0_l. apply rsum_ext. intros i Hi.
        replace (x * (b i * bern p i x)) with (b i * (x * bern p i x)) by ring.
        rewrite bern_up by lia. replace (S p) with (p + 1)%nat by lia. replace (S i) with (i + 1)%nat by lia. ring.
    + rewrite <- rsum_plus. apply rsum_ext. intros i _. ring.
Qed.

Lemma pow_poly : forall k, polynomial (k + 1) (fun x => x ^ k).
Proof.
  intros k. exists (fun i => if (i =? k)%nat then 1 else 0). intros t.
  rewrite (rsum_single (fun i => (if (i =? k)%nat then 1 else 0) * t ^ i) (k + 1) k);
    [rewrite Nat.eqb_refl; ring|lia|].
  intros i Hi Ne. destruct (Nat.eqb_spec i k); [lia|ring].
Qed.

Lemma pow_mul_poly : forall k n p, polynomial n p -> polynomial (k + n) (fun x => x ^ k * p x).
Proof.
  induction k as [|k IH]; intros n p H; [apply (poly_ext _ p); [intros; simpl; ring|exact H]|].
  apply (poly_ext _ (fun x => x * (x ^ k * p x))); [intros; simpl; ring|]. apply (poly_id_mul (k + n)). apply IH. assumption.
Qed.

Lemma bern_poly : forall p i, (i <= p)%nat -> polynomial (p + 1) (bern p i).
Proof.
  intros p i H. unfold bern.
  apply (poly_ext _ (fun x => C p i * (x ^ i * (1 - x) ^ (p - i)))); [intros; ring|].
  apply poly_scal. replace (p + 1)%nat with (i + ((p - i) + 1))%nat by lia. apply pow_mul_poly.
  apply (poly_ext _ (fun x => (fun y => y ^ (p - i)) (-1 * x + 1))).
  - intros t. simpl. replace (-1 * t + 1) with (1 - t) by ring. reflexivity.
  - apply (poly_affine _ (fun y => y ^ (p - i))). apply pow_poly.
Qed.

Lemma bernstein_form_poly : forall p a, polynomial (p + 1) (bernstein_form p a).
Proof.
  intros p a. unfold bernstein_form. apply (poly_sum (p + 1) (p + 1) (fun i x => a i * bern p i x)).
  intros i Hi. apply (poly_scal _ (a i) (bern p i)). apply bern_poly. lia.
Qed.

(** The Bernstein collocation matrix at distinct points has a (two-sided) inverse. *)
Lemma collocation_inverse : forall p (pts : nat -> R), distinct (p + 1) pts ->
  exists im : nat -> nat -> R, forall j k, (j <= p)%nat -> (k <= p)%nat ->
    rsum (fun i => bern p i (pts j) * im i k) (p + 1) = if (j =? k)%nat then 1 else 0.
Proof.
  intros p pts D.
  assert (X : forall k, exists a, (k <= p)%nat -> forall x, lagrange (p + 1) pts k x = bernstein_form p a x).
  { intros k. destruct (le_dec k p) as [Hk|Hk].
    - destruct (poly_bernstein p (lagrange (p + 1) pts k)) as [a Ha]; [apply lagrange_poly; lia|]. exists a. auto.
    - exists (fun _ => 0). lia. }
  assert (Y : forall n, exists im : nat -> nat -> R, forall k, (k < n)%nat -> (k <= p)%nat ->
             forall x, lagrange (p + 1) pts k x = bernstein_form p (fun i => im i k) x).
  { induction n as [|n [im IH]]; [exists (fun _ _ => 0); lia|].
    destruct (X n) as [a Ha]. exists (fun i k => if (k =? n)%nat then a i else im i k).
    intros k Hk Hp x. destruct (Nat.eqb_spec k n) as [->|Ne]; [apply Ha; assumption|apply IH; lia]. }
  destruct (Y (p + 1)%nat) as [im Him]. exists im. intros j k Hj Hk.
  rewrite <- (lagrange_node (p + 1) pts k j D) by lia. rewrite (Him k) by lia.
  unfold bernstein_form. apply rsum_ext. intros i _. ring.
Qed.

(** ** B-splines are polynomials between neighbouring knots *)
Lemma bspline_poly : forall (t : nat -> R) (a b : R),
  (forall i, t i <= a \/ b <= t i) -> a < b ->
  forall k i, exists q, polynomial (k + 1) q /\ forall x, a <= x < b -> bspline t k i x = q x.
Proof.
  intros t a b Ht Hab. induction k as [|k IH]; intros i.
  - cbn [bspline]. destruct (Rle_dec (t i) a) as [L|L].
    + destruct (Ht (S i)) as [L2|L2].
      * exists (fun _ => 0). split; [apply poly_const; lia|]. intros x Hx.
        destruct Rle_dec; [|reflexivity]. destruct Rlt_dec; [lra|reflexivity].
      * exists (fun _ => 1). split; [apply poly_const; lia|]. intros x Hx.
        destruct Rle_dec; [|lra]. destruct Rlt_dec; [reflexivity|lra].
    + exists (fun _ => 0). split; [apply poly_const; lia|]. intros x Hx.
      destruct (Ht i) as [?|L2]; [lra|]. destruct Rle_dec; [lra|reflexivity].
  - destruct (IH i) as [q1 [P1 E1]]. destruct (IH (i + 1)%nat) as [q2 [P2 E2]].
    exists (fun x => (if Req_EM_T (t (i + S k)%nat) (t i) then 0
                else (x - t i) / (t (i + S k)%nat - t i) * q1 x)
              + (if Req_EM_T (t (i + S k + 1)%nat) (t (i + 1)%nat) then 0
                 else (t (i + S k + 1)%nat - x) / (t (i + S k + 1)%nat - t (i + 1)%nat) * q2 x)).
    split.
    + replace (S k + 1)%nat with (S (k + 1)) by lia. apply poly_plus.
      * destruct Req_EM_T as [Q|Q]; [apply poly_const; lia|].
        apply (poly_ext _ (fun x => (/ (t (i + S k)%nat - t i) * x + (- t i / (t (i + S k)%nat - t i))) * q1 x)).
        { intros x. unfold Rdiv. ring. }
        apply poly_lin_mul. assumption.
      * destruct Req_EM_T as [Q|Q]; [apply poly_const; lia|].
        apply (poly_ext _ (fun x => (- / (t (i + S k + 1)%nat - t (i + 1)%nat) * x
             + (t (i + S k + 1)%nat / (t (i + S k + 1)%nat - t (i + 1)%nat))) * q2 x)).
        { intros x. unfold Rdiv. ring. }
        apply poly_lin_mul. assumption.
    + intros x Hx. cbn [bspline]. rewrite <- (E1 x Hx), <- (E2 x Hx). reflexivity.
Qed.

Lemma spline_poly : forall knots c p a b, (forall i, (i < length c + p + 1)%nat -> nth i knots 0 <= a \/ b <= nth i knots 0) ->
  length knots = (length c + p + 1)%nat -> 0 <= a \/ b <= 0 -> a < b ->
  exists q, polynomial (p + 1) q /\ forall x, a <= x < b -> spline knots c p x = q x.
Proof.
  intros knots c p a b H L Z Hab.
  assert (Ht : forall i, nth i knots 0 <= a \/ b <= nth i knots 0).
  { intros i. destruct (lt_dec i (length knots)); [apply H; lia|]. rewrite nth_overflow by lia. assumption. }
  assert (X : forall n, exists q, polynomial (p + 1) q /\ forall x, a <= x < b ->
     rsum (fun i => nth i c 0 * bspline (fun j => nth j knots 0) p i x) n = q x).
  { induction n as [|n [q [P E]]].
    - exists (fun _ => 0). split; [apply poly_const; lia|]. reflexivity.
    - destruct (bspline_poly (fun j => nth j knots 0) a b Ht Hab p n) as [q' [P' E']].
      exists (fun x => q x + nth n c 0 * q' x). split; [apply poly_plus; [assumption|apply poly_scal; assumption]|].
      intros x Hx. cbn [rsum]. rewrite E, E' by assumption. reflexivity. }
  apply X.
Qed.
