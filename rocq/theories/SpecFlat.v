(** Flat surfaces: every patch is a parallelogram. *)
From Coq Require Import Reals.
From Verif Require Import ModelBall ModelOperators.
Local Open Scope R_scope.
(** patch p is the parallelogram with corner O p and sides U p, V p, parametrised affinely *)
Definition flat_surface (X : surface) (O U V : nat -> vec3) : Prop :=
  forall p st, X p st = (vadd (O p) (vadd (vscal (fst st) (U p)) (vscal (snd st) (V p))), U p, V p).
Definition area (U V : nat -> vec3) (p : nat) : R := vnorm (vcross (U p) (V p)).
(** the points of a surface *)
Definition points_of (X : surface) (p : nat) (x y : R) : vec3 := fst (fst (X p (x, y))).
(** the unit normal of patch p *)
Definition unit_normal (U V : nat -> vec3) (p : nat) : vec3 := vscal (/ area U V p) (vcross (U p) (V p)).
(** the growth of the error of interpolation in four variables with n points each *)
Definition growth (n : nat) : R := let L := 2 * INR n - 1 in 1 + L + L ^ 2 + L ^ 3.
(** the integrands of the Galerkin method on the pair of elements with points x, y: kernel, areas and shape functions *)
Definition single_layer_integrand (x y : vec3) : R := / (4 * PI * vnorm (vsub x y)).
(** derivative of the kernel in the direction n at y (double layer) or at x (adjoint double layer) *)
Definition double_layer_integrand (x y n : vec3) : R := vdot (vsub x y) n / (4 * PI * vnorm (vsub x y) ^ 3).
Definition adjoint_layer_integrand (x y n : vec3) : R := vdot (vsub y x) n / (4 * PI * vnorm (vsub x y) ^ 3).
