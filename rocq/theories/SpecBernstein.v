(** Specification of Bernstein polynomials, independent of the model:
    B_{i,p}(x) = (p choose i) x^i (1-x)^(p-i) with the standard library's real
    binomial coefficient [C p i = p! / (i! (p-i)!)] and power [^]. *)
From Coq Require Import Reals.
From Verif Require Import RSum.
Local Open Scope R_scope.

Definition bern (p i : nat) (x : R) : R := C p i * x ^ i * (1 - x) ^ (p - i).

(** The polynomial with Bernstein coefficients a_0 .. a_p. *)
Definition bernstein_form (p : nat) (a : nat -> R) (x : R) : R :=
  rsum (fun i => a i * bern p i x) (p + 1).
