(** Specification for the projector: what is assumed of Eigen's solver, uniform B-splines, spans of matrices. *)
From Coq Require Import Reals Arith List QArith Qreals.
From Verif Require Import RSum ModelBase ModelBernstein SpecBernstein ModelTree SpecDeBoor SpecPatch.
Import ListNotations.
Local Close Scope Q_scope.
Local Open Scope R_scope.

(** Eigen's PartialPivLU: the solution computed for an invertible matrix solves the system *)
Definition good_solve (solve : nat -> mat -> arr -> arr) : Prop :=
  forall N A b, (exists B, is_inverse N A B) -> forall r, (r < N)%nat -> rsum (fun c => A r c * solve N A b c) N = b r.

(** the element e is the cell (X, Y) of the n x n grid of its patch *)
Definition at_cell (n : nat) (e : node) (X Y : nat) : Prop :=
  (X < n)%nat /\ (Y < n)%nat /\ Q2R (fst (n_llc e)) = INR X / INR n /\ Q2R (snd (n_llc e)) = INR Y / INR n /\ Q2R (get_h e) = / INR n.

(** ** uniform B-splines *)
(** the clamped knots 0, ..., 0, 1/n, ..., 1/n, 2/n, ..., 1, ..., 1 for degree k, the inner ones rep times each *)
Definition uniform_knots (k n rep : nat) : list R :=
  repeat 0 (k + 1) ++ flat_map (fun j => repeat (INR (j + 1) / INR n) rep) (seq 0 (n - 1)) ++ repeat 1 (k + 1).
(** the number of B-splines *)
Definition spline_dim (k n rep : nat) : nat := (k + 1 + rep * (n - 1))%nat.
(** the d-th B-spline of degree k *)
Definition uspline (k n rep d : nat) (x : R) : R := bspline (fun j => nth j (uniform_knots k n rep) 0) k d x.
(** number of the tensor product (dx, dy) on patch q; off is the number of the first one of the component *)
Definition spline_dof (kx ky n rep off q dx dy : nat) : nat :=
  (off + q * (spline_dim kx n rep * spline_dim ky n rep) + spline_dim kx n rep * dy + dx)%nat.
(** the tensor product spline on patch q with the coefficients v *)
Definition tensor_spline (kx ky n rep off q : nat) (v : nat -> R) (x y : R) : R :=
  rsum (fun dy => rsum (fun dx => v (spline_dof kx ky n rep off q dx dy) * (uspline kx n rep dx x * uspline ky n rep dy y)) (spline_dim kx n rep)) (spline_dim ky n rep).
(** sum of the absolute values of the coefficients of the splines which are not zero on the cell (X, Y) *)
Definition active_coefficients (kx ky n rep off q : nat) (v : nat -> R) (X Y : nat) : R :=
  rsum (fun j => rsum (fun i => Rabs (v (spline_dof kx ky n rep off q (X * rep + i) (Y * rep + j)))) (kx + 1)) (ky + 1).
