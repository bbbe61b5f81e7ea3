(** Model of Quadrature/QuadratureVector.hpp, TensorProductQuadratureVector.hpp, GaussLegendreRule.hpp and of the
    choice of quadrature degrees in LinearOperator/LinearOperatorBase.hpp.  Numbers are real. *)
From Coq Require Import List Arith ZArith Reals QArith Qreals.
From Verif Require Import GaussTable.
Import ListNotations.
Local Close Scope Q_scope.
Local Open Scope nat_scope.

(** a quadrature rule: points and weights *)
Definition rule := (list R * list R)%type.
(** GaussLegendreRule<n> for n <= 20 *)
Definition gauss_rule (n : nat) : option rule :=
  match gauss_table n with Some (x, w) => Some (map Q2R x, map Q2R w) | None => None end.

(** QuadratureVector<QR, Order>::operator[], QuadratureVector.hpp 24-56: recursion on the template argument; the
    base case returns the one-point rule for every index.  qr n is the rule QR<n>. *)
Fixpoint qvector {A : Type} (qr : nat -> A) (order i : nat) : A :=
  match order with
  | O => qr 1
  | S o => if i =? S o then qr (S o + 1) else qvector qr o i
  end.
(** TensorProductQuadratureVector, 24-36: the cubature (points, weights) built from a one-dimensional rule *)
Definition cubature := (list (R * R) * list R)%type.
Definition tensor_rule (g : rule) : cubature :=
  let n := length (fst g) in
  (map (fun k => (nth (k / n) (fst g) 0, nth (k mod n) (fst g) 0)%R) (seq 0 (n * n)),
   map (fun k => let m := length (snd g) in nth (k / m) (snd g) 0 * nth (k mod m) (snd g) 0)%R (seq 0 (length (snd g) * length (snd g)))).

(** the GaussLegendreRule<Order> for Order > 20, GaussLegendreRule.hpp 28-47: A has only the subdiagonal entries
    i / sqrt(4 i^2 - 1), the solver reads the lower triangle, that is, it works on the symmetric matrix *)
Definition jacobi (i j : nat) : R :=
  if i =? S j then (INR i / sqrt (4 * INR i * INR i - 1))%R
  else if j =? S i then (INR j / sqrt (4 * INR j * INR j - 1))%R else 0%R.
(** lam and V are the eigenvalues and eigenvectors (columns) returned by the solver *)
Definition eigen_rule (n : nat) (lam : nat -> R) (V : nat -> nat -> R) : rule :=
  (map (fun i => 1 / 2 * (lam i + 1))%R (seq 0 n), map (fun i => V 0%nat i * V 0%nat i)%R (seq 0 n)).

(** conversion of a double to int: truncation *)
Definition trunc (x : R) : Z := if Rle_dec 0 x then Int_part x else (- Int_part (- x))%Z.
(** get_FarfieldQuadratureDegree, LinearOperatorBase.hpp 56-58; order is OperatorOrder *)
Definition farfield_degree (p order : Z) : Z := (p - order + 1)%Z.
(** getNearfieldQuadratureDegree, 69-89; level >= 0 *)
Definition distance_log (distance : R) (level : nat) : R :=
  if Rlt_dec (distance * 2 ^ level) 1 then (- (INR level * ln 2))%R else ln distance.
Definition nearfield_numerator (p order : Z) (distance : R) (level : nat) : R :=
  let alpha := (2 - order + 2 * p)%Z in
  (IZR (alpha + p) * INR level * ln 2 - IZR (2 - p + order) * distance_log distance level)%R.
Definition nearfield_denominator (distance : R) (level : nat) : R :=
  (INR (level + 2) * ln 2 + distance_log distance level)%R.
Definition nearfield_degree (p order : Z) (distance : R) (level : nat) : Z :=
  trunc (1 / 2 * nearfield_numerator p order distance level / nearfield_denominator distance level)%R.
