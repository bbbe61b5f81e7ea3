(** Polynomials and Lagrange interpolation, independently of the Newton form. *)
From Coq Require Import List Arith Reals.
From Verif Require Import RSum.
Local Open Scope R_scope.

(** p is a polynomial of degree less than n *)
Definition polynomial (n : nat) (p : R -> R) : Prop :=
  exists c : nat -> R, forall t, p t = rsum (fun k => c k * t ^ k) n.
(** product over j < n *)
Fixpoint rprod (f : nat -> R) (n : nat) : R :=
  match n with O => 1 | S m => rprod f m * f m end.
(** the i-th Lagrange polynomial for the points x_0 .. x_(n-1) *)
Definition lagrange (n : nat) (x : nat -> R) (i : nat) (t : R) : R :=
  rprod (fun j => if Nat.eqb j i then 1 else (t - x j) / (x i - x j)) n.
Definition distinct (n : nat) (x : nat -> R) : Prop :=
  forall i j, (i < n)%nat -> (j < n)%nat -> i <> j -> x i <> x j.
(** the value at t of the polynomial of degree < n through the points (x_i, f_i) *)
Definition interpolant (n : nat) (x f : nat -> R) (t : R) : R :=
  rsum (fun i => f i * lagrange n x i t) n.

(** tensor product quadrature with the one-dimensional rule (xi, w) *)
Definition tensor_quad (xi w : list R) (f : R -> R -> R) : R :=
  rsum (fun k => rsum (fun l => nth k w 0 * nth l w 0 * f (nth k xi 0) (nth l xi 0)) (length w)) (length w).
(** interpolation of a kernel in the four reference coordinates *)
Definition interpolated (n : nat) (x : nat -> R) (K : R * R -> R * R -> R) (s t : R * R) : R :=
  rsum (fun i => rsum (fun j => rsum (fun i' => rsum (fun j' =>
    lagrange n x i (fst s) * lagrange n x j (snd s) * K (x i, x j) (x i', x j') *
    (lagrange n x i' (fst t) * lagrange n x j' (snd t))) n) n) n) n.
