(** Smoothness of a function on the open unit interval, for the error of interpolation. *)
From Coq Require Import Reals.
Local Open Scope R_scope.
Definition inside (t : R) : Prop := 0 < t < 1.
(** f is n times differentiable on (0,1) and its n-th derivative is bounded by B there *)
Definition derivative_bounded (n : nat) (B : R) (f : R -> R) : Prop :=
  exists F : nat -> R -> R, (forall x, inside x -> F O x = f x) /\
    (forall k x, (k < n)%nat -> inside x -> derivable_pt_lim (F k) x (F (S k) x)) /\
    (forall x, inside x -> Rabs (F n x) <= B).
(** the same in each of the four variables of a kernel on a pair of unit squares *)
Definition kernel_bounded (n : nat) (B : R) (K : R * R -> R * R -> R) : Prop :=
  (forall b c d, inside b -> inside c -> inside d -> derivative_bounded n B (fun a => K (a, b) (c, d))) /\
  (forall a c d, inside a -> inside c -> inside d -> derivative_bounded n B (fun b => K (a, b) (c, d))) /\
  (forall a b d, inside a -> inside b -> inside d -> derivative_bounded n B (fun c => K (a, b) (c, d))) /\
  (forall a b c, inside a -> inside b -> inside c -> derivative_bounded n B (fun d => K (a, b) (c, d))).
(** the error of one-dimensional interpolation in n Chebyshev points, and of interpolation in four variables *)
Definition cheb_error (n : nat) (B : R) : R := 2 * B / (4 ^ n * INR (fact n)).
Definition cheb_error4 (n : nat) (B : R) : R :=
  let L := 2 * INR n - 1 in (1 + L + L ^ 2 + L ^ 3) * cheb_error n B.
