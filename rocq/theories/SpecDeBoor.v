(** Cox-de Boor definition of the i-th B-spline of degree k of a knot sequence t
    (the usual convention that a quotient with vanishing denominator counts as zero). *)
From Coq Require Import Reals List.
From Verif Require Import RSum.
Local Open Scope R_scope.

Fixpoint bspline (t : nat -> R) (k i : nat) (x : R) : R :=
  match k with
  | O => if Rle_dec (t i) x then (if Rlt_dec x (t (S i)) then 1 else 0) else 0
  | S m =>
      (if Req_EM_T (t (i + k)%nat) (t i) then 0
       else (x - t i) / (t (i + k)%nat - t i) * bspline t m i x)
      + (if Req_EM_T (t (i + k + 1)%nat) (t (i + 1)%nat) then 0
         else (t (i + k + 1)%nat - x) / (t (i + k + 1)%nat - t (i + 1)%nat) * bspline t m (i + 1) x)
  end.

(** The spline with coefficients c and knots t, degree p. *)
Definition spline (t : list R) (c : list R) (p : nat) (x : R) : R :=
  rsum (fun i => nth i c 0 * bspline (fun j => nth j t 0) p i x) (length c).

(** Knot vectors are non-decreasing lists. *)
Definition nondecreasing (t : list R) : Prop :=
  forall i j, (i <= j)%nat -> (j < length t)%nat -> nth i t 0 <= nth j t 0.

(** Tensor-product spline: rows of [cp] belong to y, columns to x. *)
Definition tp_spline (kx ky : list R) (cp : list (list R)) (px py : nat) (x y : R) : R :=
  rsum (fun j => rsum (fun i => nth i (nth j cp nil) 0
                                * bspline (fun m => nth m kx 0) px i x
                                * bspline (fun m => nth m ky 0) py j y)
                      (length (nth j cp nil))) (length cp).
