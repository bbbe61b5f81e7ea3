(** Model of Bembel/src/Spline/Knots.hpp and Localize.hpp.
    std::vector<double> is [list R]; int arguments that are loop bounds are [nat]
    (negative bounds run no iteration, like 0). *)
From Coq Require Import Reals Lra Lia Arith List ZArith.
From Verif Require Import RSum ModelBernstein.
Import ListNotations.
Local Open Scope R_scope.

(** std::vector::push_back *)
Definition push_back (v : list R) (x : R) : list R := v ++ [x].

(** Knots.hpp 21-28.  [reserve] has no observable effect. *)
Definition MakeBezierKnotVector (p : nat) : list R :=
  let out := for_loop p (fun _ out => push_back out 0) [] in
  for_loop p (fun _ out => push_back out 1) out.

(** Knots.hpp 32: tol of GetPolynomialDegreeFromKnotVector. *)
Definition degree_tol : R := 1 / 10000000.

(** Knots.hpp 35-40: the loop [while (++i < sz)], [v] being the knots from index i on. *)
Fixpoint degree_scan (v : list R) (i : nat) : nat :=
  match v with
  | [] => 0
  | x :: v' => if Rlt_dec degree_tol x then i else degree_scan v' (S i)
  end.

(** Knots.hpp 30-41.  The pre-increment skips index 0. *)
Definition GetPolynomialDegreeFromKnotVector (v : list R) : nat := degree_scan (tl v) 1.

(** Knots.hpp 43-54; the loop [for (i = 1; i < interior + 1; i++)] is run as i = k+1, k < interior. *)
Definition MakeUniformKnotVector (p interior rep : nat) : list R :=
  let h := 1 / INR (interior + 1) in
  let out := for_loop p (fun _ out => push_back out 0) [] in
  let out := for_loop interior (fun k out =>
               for_loop rep (fun _ out => push_back out (INR (k + 1) * h)) out) out in
  for_loop p (fun _ out => push_back out 1) out.

(** util/Constants.hpp 20 *)
Definition generic_tolerance : R := 1 / 1000000.

(** Knots.hpp 69-71: the loop, [prev] = in[i-1]. *)
Fixpoint unique_loop (prev : R) (v out : list R) : list R :=
  match v with
  | [] => out
  | x :: v' => unique_loop x v' (if Rlt_dec (prev + generic_tolerance) x then push_back out x else out)
  end.

(** Knots.hpp 62-73; in[0] of an empty vector is undefined behaviour (None). *)
Definition ExtractUniqueKnotVector (v : list R) : option (list R) :=
  match v with
  | [] => None
  | x :: v' => Some (unique_loop x v' (push_back [] x))
  end.

(** Knots.hpp 81-84: the loop from index i on, [v] the remaining vector; [dflt] = size - 2. *)
Fixpoint find_loop (x : R) (v : list R) (i dflt : Z) : Z :=
  match v with
  | a :: ((b :: _) as v') =>
      if Rle_dec a x then (if Rlt_dec x b then i else find_loop x v' (i + 1) dflt)
      else find_loop x v' (i + 1) dflt
  | _ => dflt
  end.

(** Knots.hpp 76-85 *)
Definition FindLocationInKnotVector (x : R) (v : list R) : Z :=
  if Rlt_dec (x - generic_tolerance) 0 then
    if Rlt_dec 0 (x + generic_tolerance) then 0%Z
    else find_loop x v 0 (Z.of_nat (length v) - 2)
  else find_loop x v 0 (Z.of_nat (length v) - 2).

(** Localize.hpp 25-27 *)
Definition Rescale (x a b : R) : R :=
  if Req_EM_T a 0 then (if Req_EM_T b 1 then x else (x - a) / (b - a)) else (x - a) / (b - a).

(** Localize.hpp 31-39 *)
Definition MakeInterpolationMask (p : nat) : list R :=
  let h := 1 / INR (p + 1) in
  map (fun i => INR (i + 1) * h) (seq 0 p).

(** Localize.hpp 46-60.  For an empty [uniq] and non-empty [mask], reserve gets a huge
    number in a noexcept function (termination): None. *)
Fixpoint points_loop (uniq mask : list R) (out : list R) : list R :=
  match uniq with
  | a :: ((b :: _) as u') =>
      points_loop u' mask (fold_left (fun out m => push_back out (a + m * (b - a))) mask out)
  | _ => out
  end.
Definition MakeInterpolationPoints (uniq mask : list R) : option (list R) :=
  match uniq, mask with
  | [], _ :: _ => None
  | _, _ => Some (points_loop uniq mask [])
  end.

(** Localize.hpp 67-78: the collocation matrix, before [inverse()] (line 80): row j holds the
    Bernstein basis at mask[j].  The local array [val] is uninitialised (argument junk). *)
Definition collocation (junk : arr) (p : nat) (mask : nat -> R) : nat -> nat -> R :=
  fun j i => evalBasis p junk (mask j) i.

(** Localize.hpp 97-107: coefficients from values with a given inverse matrix [im];
    Eigen's product [im * rhs]. *)
Definition GetCoefficients (im : nat -> nat -> R) (p incr : nat) (values : arr) (coefs : arr) : arr :=
  for_loop incr (fun i coefs =>
    let rhs := fun j => values (i * (p + 1) + j)%nat in
    let tmp := fun j => rsum (fun l => im j l * rhs l) (p + 1) in
    for_loop (p + 1) (fun j coefs => upd coefs (i * (p + 1) + j)%nat (tmp j)) coefs) coefs.
