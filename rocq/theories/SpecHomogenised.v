(** The periodic problem. *)
From Coq Require Import Reals Arith List.
From Verif Require Import RSum ModelBall SpecSpherical.
Local Open Scope R_scope.

(** the 27 lattice points around the origin, numbered by i, j, k = 0, 1, 2 *)
Definition lattice (i j k : nat) : vec3 := (INR i - 1, INR j - 1, INR k - 1).
Definition off_lattice (x : vec3) : Prop := forall i j k, (i < 3)%nat -> (j < 3)%nat -> (k < 3)%nat -> x <> lattice i j k.
(** sum over the lattice points m of 1/(4 pi |x - m|), plus |x|^2/6 *)
Definition modified (x : vec3) : R :=
  rsum (fun i => rsum (fun j => rsum (fun k => 1 / (4 * PI * vnorm (vsub x (lattice i j k)))) 3) 3) 3 + vdot x x / 6.
(** the value of a partial function *)
Definition value (f : vec3 -> option R) (x : vec3) : R := match f x with Some v => v | None => 0 end.
(** the coefficients of odd degree below N vanish *)
Definition no_odd (cs : list R) (N : nat) : Prop := forall n j, (n < N)%nat -> Nat.odd n = true -> (j < 2 * n + 1)%nat -> nth (n * n + j) cs 0 = 0.
