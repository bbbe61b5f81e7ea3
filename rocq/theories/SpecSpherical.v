(** Spherical harmonics. *)
From Coq Require Import Reals Arith List.
From Coquelicot Require Import Coquelicot.
From Verif Require Import RSum ModelBall.
Local Open Scope R_scope.

(** the Legendre polynomials, by Bonnet's recursion (n + 1) P_(n+1) = (2 n + 1) t P_n - n P_(n-1); the pair P_n, P_(n-1) *)
Fixpoint legendre_pair (n : nat) (t : R) : R * R :=
  match n with
  | O => (1, 0)
  | S k => let '(p, q) := legendre_pair k t in (((2 * INR k + 1) * t * p - INR k * q) / (INR k + 1), p)
  end.
Definition legendre (n : nat) (t : R) : R := fst (legendre_pair n t).

(** powers of the complex number a + i b *)
Fixpoint cpower (a b : R) (m : nat) : Complex.C :=
  match m with O => RtoC 1 | S k => Cmult (a, b) (cpower a b k) end.

(** the spherical harmonic Y_n^m on the unit sphere, without the sign (-1)^m:
    sqrt ((2n+1)/(4 pi) (n-m)!/(n+m)!) (y1 + i y2)^m times the m-th derivative of P_n at y3 *)
Definition harmonic_norm (n m : nat) : R := sqrt ((2 * INR n + 1) / (4 * PI) * (INR (fact (n - m)) / INR (fact (n + m)))).
Definition harmonic (n m : nat) (y : vec3) : Complex.C :=
  Cmult (RtoC (harmonic_norm n m * Derive_n (legendre n) m (vz y))) (cpower (vx y) (vy y) m).
(** the solid harmonic |x|^n Y_n^m(x/|x|) *)
Definition solid (n m : nat) (x : vec3) : Complex.C := Cmult (RtoC (vnorm x ^ n)) (harmonic n m (vscal (1 / vnorm x) x)).

(** ** series with real coefficients, stored in the order (0,0), (1,-1), (1,0), (1,1), (2,-2), ...; Y_n^(-m) is the conjugate of Y_n^m *)
Definition order_of (n j : nat) : nat := if (j <? n)%nat then (n - j)%nat else (j - n)%nat.
(** sum over n < N and -n <= m <= n of c_(n,m) f n |m| *)
Definition series (cs : list R) (N : nat) (f : nat -> nat -> R) : R :=
  rsum (fun n => rsum (fun j => nth (n * n + j) cs 0 * f n (order_of n j)) (2 * n + 1)) N.
Definition symmetric_coefficients (cs : list R) (N : nat) : Prop :=
  forall n m, (n < N)%nat -> (m <= n)%nat -> nth (n * n + n - m) cs 0 = nth (n * n + n + m) cs 0.
