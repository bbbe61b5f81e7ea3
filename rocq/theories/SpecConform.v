(** Vocabulary for the continuity of discrete functions on a surface glued from patches. *)
From Coq Require Import Reals Arith List QArith Qreals.
From Verif Require Import ModelTree ModelBall ModelOperators SpecMesh.
Import ListNotations.
Local Close Scope Q_scope.
Local Open Scope R_scope.

(** the closed unit square *)
Definition unit_square (s : R * R) : Prop := 0 <= fst s <= 1 /\ 0 <= snd s <= 1.
Definition corner (s : R * R) : Prop := (fst s = 0 \/ fst s = 1) /\ (snd s = 0 \/ snd s = 1).
(** the point of the patch with coordinates s in the element *)
Definition patch_point (e : node) (s : R * R) : R * R :=
  (Q2R (fst (n_llc e)) + Q2R (get_h e) * fst s, Q2R (snd (n_llc e)) + Q2R (get_h e) * snd s).
(** the counter-clockwise boundary of the unit square: edge i from corner i to corner i + 1 *)
Definition along (i : nat) (u : R) : R * R :=
  match i with O => (u, 0) | 1%nat => (1, u) | 2%nat => (1 - u, 1) | _ => (0, 1 - u) end.
(** the points x of patch a and y of patch b lie on a common edge and are the same point of the surface: edge i of a and edge j
    of b have the same end points and the boundaries run through them in opposite directions *)
Definition on_interface (verts : list (list nat)) (a b i j : nat) (x y : R * R) : Prop :=
  (i < 4)%nat /\ (j < 4)%nat /\ opposed verts a i b j /\ exists u, 0 <= u <= 1 /\ x = along i u /\ y = along j (1 - u).
Definition same_surface_point (verts : list (list nat)) (a : nat) (x : R * R) (b : nat) (y : R * R) : Prop :=
  (a = b /\ x = y) \/ exists i j, on_interface verts a b i j x y.

(** ** vector fields: fa, fb are the derivatives of the parametrisation of the surface with respect to the coordinates of the patch *)
(** derivative of the boundary curve on edge i *)
Definition boundary_tangent (i : nat) (fa fb : vec3) : vec3 :=
  match i with O => fa | 1%nat => fb | 2%nat => vscal (-1) fa | _ => vscal (-1) fb end.
(** the direction of the other coordinate, leaving the patch through edge i *)
Definition outward (i : nat) (fa fb : vec3) : vec3 :=
  match i with O => vscal (-1) fb | 1%nat => fa | 2%nat => fb | _ => vscal (-1) fa end.
(** the unit vector tangential to the surface, normal to edge i, pointing outwards *)
Definition conormal (i : nat) (fa fb nu : vec3) : Prop :=
  vdot nu nu = 1 /\ vdot nu (vcross fa fb) = 0 /\ vdot nu (boundary_tangent i fa fb) = 0 /\ 0 < vdot nu (outward i fa fb).

(** ** splines on closed patches *)
From Verif Require Import RSum SpecProj.
(** the B-splines continued to the right end of the parameter interval (the recursion gives zero there) *)
Definition closed_uspline (k n rep d : nat) (x : R) : R :=
  if Req_EM_T x 1 then (if (d =? spline_dim k n rep - 1)%nat then 1 else 0) else uspline k n rep d x.
(** the tensor product spline with the coefficients v at the point x of patch q *)
Definition patch_spline (kx ky n rep off q : nat) (v : nat -> R) (x : R * R) : R :=
  rsum (fun dy => rsum (fun dx => v (spline_dof kx ky n rep off q dx dy) *
    (closed_uspline kx n rep dx (fst x) * closed_uspline ky n rep dy (snd x))) (spline_dim kx n rep)) (spline_dim ky n rep).
(** one value at every point of the surface *)
Definition continuous_spline (verts : list (list nat)) (p n rep : nat) (v : nat -> R) : Prop :=
  forall a b x y, (a < length verts)%nat -> (b < length verts)%nat -> unit_square x -> unit_square y ->
    same_surface_point verts a x b y -> patch_spline p p n rep 0 a v x = patch_spline p p n rep 0 b v y.
(** *** vector fields: the first component has the degrees (p, p - 1), the second one (p - 1, p); its coefficients come after those
    of the first one *)
From Verif Require Import SpecGlue.
Definition vector_spline (p n rep P q : nat) (v : nat -> R) (second : bool) (x : R * R) : R :=
  if second then patch_spline (p - 1) p n rep (P * (spline_dim p n rep * spline_dim (p - 1) n rep)) q v x else patch_spline p (p - 1) n rep 0 q v x.
(** what leaves one patch enters the other one, at all points of the interfaces inside of elements *)
Definition flux_spline (verts : list (list nat)) (p n rep : nat) (v : nat -> R) : Prop :=
  forall a b i j u, (a < length verts)%nat -> (b < length verts)%nat -> (i < 4)%nat -> (j < 4)%nat -> opposed verts a i b j ->
    0 < u < 1 -> (forall m, u <> INR m / INR n) ->
    IZR (out_flux i) * vector_spline p n rep (length verts) a v (normal_comp i) (along i u)
    + IZR (out_flux j) * vector_spline p n rep (length verts) b v (normal_comp j) (along j (1 - u)) = 0.
