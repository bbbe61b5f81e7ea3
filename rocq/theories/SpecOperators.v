(** Derivatives along lines in space, for real and complex functions; surface differential operators. *)
From Coq Require Import Reals.
From Coquelicot Require Import Complex.
From Verif Require Import RSum SpecBernstein ModelBall.
Local Open Scope R_scope.

(** the point x + t d *)
Definition along (x d : vec3) (t : R) : vec3 := vadd x (vscal t d).
(** l is the derivative of f at x in the direction d *)
Definition directional (f : vec3 -> R) (x d : vec3) (l : R) : Prop := derivable_pt_lim (fun t => f (along x d t)) 0 l.
(** the same for a complex valued function: both parts *)
Definition cdirectional (f : vec3 -> Complex.C) (x d : vec3) (l : Complex.C) : Prop :=
  directional (fun z => fst (f z)) x d (fst l) /\ directional (fun z => snd (f z)) x d (snd l).
Definition e1 : vec3 := (1, 0, 0).
Definition e2 : vec3 := (0, 1, 0).
Definition e3 : vec3 := (0, 0, 1).
(** l is the Laplacian of f at x: f has first derivatives around x, whose derivatives at x add up to l *)
Definition laplacian (f : vec3 -> R) (x : vec3) (l : R) : Prop :=
  exists g1 g2 g3 l1 l2 l3, 
    (exists eps, 0 < eps /\ forall z, vnorm (vsub z x) < eps ->
       directional f z e1 (g1 z) /\ directional f z e2 (g2 z) /\ directional f z e3 (g3 z)) /\
    directional g1 x e1 l1 /\ directional g2 x e2 l2 /\ directional g3 x e3 l3 /\ l = l1 + l2 + l3.
Definition claplacian (f : vec3 -> Complex.C) (x : vec3) (l : Complex.C) : Prop :=
  laplacian (fun z => fst (f z)) x (fst l) /\ laplacian (fun z => snd (f z)) x (snd l).

(** psi false m: the m-th Bernstein polynomial of degree p; psi true m: its derivative *)
Definition shape_values (p : nat) (psi : bool -> nat -> R -> R) : Prop :=
  (forall m s, psi false m s = bern p m s) /\ (forall m s, (m <= p)%nat -> derivable_pt_lim (bern p m) s (psi true m s)).
(** the i-th shape function of an element of width h (a tensor product, the first coordinate runs first), or its
    derivative with respect to the coordinates of the patch, at the reference point s *)
Definition component (p : nat) (h : R) (psi : bool -> nat -> R -> R) (kinds : bool * bool) (i : nat) (s : R * R) : R :=
  psi (fst kinds) (i mod (p + 1))%nat (fst s) * psi (snd kinds) (i / (p + 1))%nat (snd s) *
  (if fst kinds then 1 / h else 1) * (if snd kinds then 1 / h else 1).
(** sums of complex numbers *)
Definition csum (f : nat -> Complex.C) (n : nat) : Complex.C := (rsum (fun k => fst (f k)) n, rsum (fun k => snd (f k)) n).
