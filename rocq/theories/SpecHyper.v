(** The hypersingular operator: the surface curl of a function given in the coordinates of an element. *)
From Coq Require Import Reals Arith.
From Coquelicot Require Import Coquelicot.
From Verif Require Import SpecBernstein ModelBall ModelOperators SpecFlat.
Local Open Scope R_scope.
(** the q-th shape function, a product of Bernstein polynomials (the first coordinate runs first), and its derivatives with respect
    to the two coordinates of the element *)
Definition shape_function (p q : nat) (s1 s2 : R) : R := bern p (q mod (p + 1)) s1 * bern p (q / (p + 1)) s2.
Definition shape_d1 (p q : nat) (s : R * R) : R := Derive (fun a => shape_function p q a (snd s)) (fst s).
Definition shape_d2 (p q : nat) (s : R * R) : R := Derive (fun a => shape_function p q (fst s) a) (snd s).
(** an element of width h of a flat patch with the tangents u and v, on which the coordinates (s1, s2) stand for the point
    o + h s1 u + h s2 v: the surface curl n x grad of the q-th shape function, as a function on the surface.
    (PropHyper.C89_curl: it is the vector product of the unit normal and the gradient.) *)
Definition tangential_curl (u v : vec3) (h : R) (p q : nat) (s : R * R) : vec3 :=
  vscal (/ (h * vnorm (vcross u v))) (vsub (vscal (shape_d1 p q s) v) (vscal (shape_d2 p q s) u)).
(** the integrand of the bilinear form of the hypersingular operator *)
Definition hypersingular_integrand (x y : vec3) (curl1 curl2 : vec3) : R := single_layer_integrand x y * vdot curl1 curl2.
