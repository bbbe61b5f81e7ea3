(** Integrals over the surface, for C75. *)
From Coq Require Import Reals Arith List QArith Qreals.
From Coquelicot Require Import Coquelicot.
From Verif Require Import RSum ModelTree SpecConform.
Local Close Scope Q_scope.
Local Open Scope R_scope.

(** the iterated (Riemann) integral of F over the unit square is v *)
Definition square_integral (F : R * R -> R) (v : R) : Prop :=
  exists inner, (forall x, 0 < x < 1 -> is_RInt (fun y => F (x, y)) 0 1 (inner x)) /\ is_RInt inner 0 1 v.
(** the integral over P patches of F, a function of the patch and of the point in its parameter square *)
Definition patches_integral (P : nat) (F : nat -> R * R -> R) (v : R) : Prop :=
  exists vs, (forall p, (p < P)%nat -> square_integral (F p) (vs p)) /\ v = rsum vs P.
(** F is given by f on every element: f e is a function of the local coordinates of the element e *)
Definition given_on_elements (els : list node) (f : node -> R * R -> R) (F : nat -> R * R -> R) : Prop :=
  forall e s, In e els -> 0 <= fst s < 1 -> 0 <= snd s < 1 -> F (n_patch e) (patch_point e s) = f e s.
(** a polynomial in two variables of degree less than d in each *)
Definition tensor_poly (d : nat) (c : nat -> nat -> R) (s : R * R) : R := rsum (fun a => rsum (fun b => c a b * fst s ^ a * snd s ^ b) d) d.
Definition is_tensor_poly (d : nat) (f : R * R -> R) : Prop := exists c, forall s, f s = tensor_poly d c s.
