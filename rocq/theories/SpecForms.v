(** Quadrature over the surface, surface gradients and divergences, for C61 - C63. *)
From Coq Require Import Reals Arith List QArith Qreals.
From Coquelicot Require Import Complex.
From Verif Require Import ModelBase RSum ModelBernstein SpecBernstein ModelTree ModelBall ModelQuad ModelDuffy ModelOperators.
Import ListNotations.
Local Close Scope Q_scope.
Local Open Scope R_scope.

(** ** discrete functions *)
(** the i-th tensor product Bernstein polynomial of degree p, the first coordinate running first *)
Definition tensor_bernstein (p i : nat) (s : R * R) : R := bern p (i mod (p + 1)) (fst s) * bern p (i / (p + 1)) (snd s).
(** the transformation matrix T (nd columns) has one row for every component c, element k (of N) and polynomial i, in this
    order; this is the coefficient belonging to them of the function with coefficient vector v *)
Definition local_coefficient (p N nd : nat) (T : mat) (v : arr) (c k i : nat) : R :=
  rsum (fun j => T (((c * N + k) * ((p + 1) * (p + 1))) + i)%nat j * v j) nd.
(** component c of the discrete function on element k of width h, at the point s of the unit square *)
Definition discrete_value (p N nd : nat) (T : mat) (v : arr) (c k : nat) (h : R) (s : R * R) : R :=
  rsum (fun i => local_coefficient p N nd T v c k i * tensor_bernstein p i s) ((p + 1) * (p + 1)) / h.

(** ** quadrature *)
(** the sum over all elements of the cubature Q applied to f on the parameter domain of the element, a square of width h *)
Definition surface_sum (els : list node) (Q : cubature) (f : node -> R * R -> R) : R :=
  rsum (fun k => match nth_error els k with
    | Some e => Q2R (get_h e) * Q2R (get_h e) * rsum (fun q => q_w Q q * f e (q_xi Q q)) (q_size Q)
    | None => 0 end) (length els).
(** inner product of two vectors of length n *)
Definition dotp (n : nat) (u v : arr) : R := rsum (fun i => u i * v i) n.
(** matrix times vector *)
Definition times (n : nat) (A : mat) (v : arr) : arr := fun i => rsum (fun j => A i j * v j) n.

(** a, b are the derivatives of the function u of the reference coordinates of an element of width h at s, with respect
    to the coordinates of the patch *)
Definition patch_derivatives (h : R) (u : R * R -> R) (s : R * R) (a b : R) : Prop :=
  derivable_pt_lim (fun t => u (fst s + t / h, snd s)) 0 a /\ derivable_pt_lim (fun t => u (fst s, snd s + t / h)) 0 b.
(** g is the surface gradient of u at the surface point p: the tangential vector whose products with the tangents are
    the derivatives of u *)
Definition surface_gradient (h : R) (u : R * R -> R) (p : spoint) (g : vec3) : Prop :=
  exists a b, patch_derivatives h u (p_s p) a b /\ vdot g (p_dx p) = a /\ vdot g (p_dy p) = b /\ vdot g (p_n p) = 0.

(** ** potentials *)
Definition csurface_sum (els : list node) (Q : cubature) (f : node -> R * R -> Complex.C) : Complex.C :=
  (surface_sum els Q (fun e s => fst (f e s)), surface_sum els Q (fun e s => snd (f e s))).
(** x is none of the quadrature points on the surface *)
Definition off_surface (X : surface) (els : list node) (Q : cubature) (x : vec3) : Prop :=
  forall e q, In e els -> (q < q_size Q)%nat -> p_f (surf_point X e (q_xi Q q) 1) <> x.
