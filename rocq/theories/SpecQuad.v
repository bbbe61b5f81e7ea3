(** Quadrature: values of rules, polynomials and exact integrals. *)
From Coq Require Import List Arith Reals.
From Coquelicot Require Import Coquelicot.
From Verif Require Import RSum.
Local Open Scope R_scope.

(** the value of the rule with points x and weights w on the function f *)
Definition quad (x w : list R) (f : R -> R) : R :=
  rsum (fun k => nth k w 0 * f (nth k x 0)) (length w).
(** the polynomial with coefficients c_0 .. c_(n-1) *)
Definition poly_eval (c : nat -> R) (n : nat) (t : R) : R := rsum (fun j => c j * t ^ j) n.
(** the integral over the unit interval is v *)
Definition integral01 (f : R -> R) (v : R) : Prop := is_RInt f 0 1 v.
(** the rule integrates the polynomials of degree less than d exactly *)
Definition exact_rule (d : nat) (x w : list R) : Prop :=
  length x = length w /\ forall c v, integral01 (poly_eval c d) v -> quad x w (poly_eval c d) = v.
