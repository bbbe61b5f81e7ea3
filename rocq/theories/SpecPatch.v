(** Rational tensor-product surfaces (for C42, C43, C57). *)
From Coq Require Import Reals List Arith Sorting.
From Verif Require Import RSum ModelBernstein SpecBernstein ModelKnots SpecDeBoor ModelPatch.
Import ListNotations.
Local Open Scope R_scope.

(** rectangular matrix: rows belong to y, columns to x *)
Definition rectangular (rows cols : nat) (M : list (list R)) : Prop :=
  length M = rows /\ forall row, In row M -> length row = cols.
Definition entry (M : list (list R)) (j i : nat) : R := nth i (nth j M []) 0.

(** tensor-product Bernstein sum of degree (m, n) with the coefficients C i j *)
Definition bezier_surface (m n : nat) (C : nat -> nat -> R) (x y : R) : R :=
  rsum (fun i => rsum (fun j => C i j * (bern m i x * bern n j y)) (n + 1)) (m + 1).

(** the point of space with homogeneous coordinates H 0, H 1, H 2 and weight H 3 *)
Definition projected (H : nat -> R) : list R := [H 0%nat / H 3%nat; H 1%nat / H 3%nat; H 2%nat / H 3%nat].

(** the function f of one variable tends to v from the left at x *)
Definition left_limit (f : R -> R) (x v : R) : Prop :=
  forall eps, 0 < eps -> exists delta, 0 < delta /\ forall t, x - delta < t < x -> Rabs (f t - v) < eps.

(** A knot vector of a spline of degree p with n coefficients on [0, b]: the first and the last
    p + 1 knots coincide, and knots are equal or more than [tol] apart. *)
Definition clamped (tol : R) (knots : list R) (p n : nat) : Prop :=
  length knots = (n + p + 1)%nat /\ (p < n)%nat
  /\ (forall i, (i <= p)%nat -> nth i knots 0 = 0)
  /\ (forall i, (n <= i < length knots)%nat -> nth i knots 0 = last knots 0)
  /\ (forall i j, (i < j < length knots)%nat ->
        nth i knots 0 = nth j knots 0 \/ nth i knots 0 + tol < nth j knots 0)
  /\ 0 < last knots 0.

(** a patch object as produced by the constructor or by cutting *)
Record patch_ok (P : patch) : Prop := {
  pk_degx : (1 <= p_degx P <= MaxP + 1)%nat;
  pk_degy : (1 <= p_degy P <= MaxP + 1)%nat;
  pk_lenx : (2 <= length (p_knx P))%nat;
  pk_leny : (2 <= length (p_kny P))%nat;
  pk_sortx : StronglySorted (fun a b => a + generic_tolerance < b) (p_knx P);
  pk_sorty : StronglySorted (fun a b => a + generic_tolerance < b) (p_kny P);
  pk_0x : nth 0 (p_knx P) 0 = 0;
  pk_0y : nth 0 (p_kny P) 0 = 0;
  pk_data : length (p_data P) = (4 * (p_degx P * (length (p_knx P) - 1) * p_degy P * (length (p_kny P) - 1)))%nat }.

(** x lies in span i of u: half open, closed for the last span *)
Definition in_span (u : list R) (i : nat) (x : R) : Prop :=
  (i + 1 < length u)%nat /\ nth i u 0 <= x
  /\ (x < nth (i + 1) u 0 \/ ((i + 2 = length u)%nat /\ x = nth (i + 1) u 0)).

(** k-th coordinate of the result of an evaluation *)
Definition coordinate (k : nat) (v : option (list R)) : R := match v with Some l => nth k l 0 | None => 0 end.

(** Eigen's inverse(): the result is an inverse whenever there is one *)
Definition is_inverse (N : nat) (A B : nat -> nat -> R) : Prop :=
  forall r l, (r < N)%nat -> (l < N)%nat -> rsum (fun c => A r c * B c l) N = if (r =? l)%nat then 1 else 0.
Definition good_inverse (inv : (nat -> nat -> R) -> nat -> nat -> nat -> R) : Prop :=
  forall A N, (exists B, is_inverse N A B) -> is_inverse N A (inv A N).

(** the knot vector has a knot strictly between its end points *)
Definition has_inner_knot (knots : list R) : Prop := exists x, In x knots /\ 0 < x < last knots 0.
