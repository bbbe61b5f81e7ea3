(** Model of Bembel/src/Spline/DeBoor.hpp and DeBoorTP.hpp (T = double as exact reals). *)
From Coq Require Import Reals List Arith Lia.
From Verif Require Import ModelBase ModelBernstein.
Import ListNotations.
Local Open Scope R_scope.

Definition Rleb (a b : R) : bool := if Rle_dec a b then true else false.

(** DeBoor.hpp 84: while (knot_vector[l] <= x && l != cols) l++;  (fuel: l grows to at most n) *)
Fixpoint span_loop (fuel : nat) (knots : list R) (x : R) (n l : nat) : option nat :=
  match fuel with
  | O => None
  | S f =>
      t <- get knots l ;;
      if (Rleb t x && negb (l =? n))%bool then span_loop f knots x n (S l) else Some l
  end.

(** DeBoor.hpp 100-101: one quotient; a zero denominator is None. *)
Definition weight (knots : list R) (x : R) (l k i : nat) : option R :=
  a <- get knots (l - k + 1 + i)%nat ;;
  b <- get knots (l + 1 + i)%nat ;;
  if Req_EM_T (b - a) 0 then None else Some ((x - a) / (b - a)).

(** DeBoor.hpp 98-106: one pass of the k loop over ws and temp. *)
Definition deboor_step (knots : list R) (x : R) (l k : nat) (st : list R * list R)
  : option (list R * list R) :=
  let (ws, temp) := st in
  ws <- for_opt k (fun i ws => w <- weight knots x l k i ;; set ws i w) ws ;;
  temp <- for_opt k (fun i temp =>
            w <- get ws i ;;
            t1 <- get temp (1 + i)%nat ;;
            t0 <- get temp i ;;
            set temp i (w * t1 + (1 - w) * t0)) temp ;;
  Some (ws, temp).

(** DeBoor.hpp 98: for (k = p; 0 != k; k--) *)
Fixpoint deboor_loop (k : nat) (knots : list R) (x : R) (l : nat) (st : list R * list R)
  : option (list R * list R) :=
  match k with
  | O => Some st
  | S k' => st <- deboor_step knots x l k st ;; deboor_loop k' knots x l st
  end.

(** DeBoor.hpp 77-108, one evaluation point.  [junk] is the uninitialised array ws, whose
    length is 20 in every overload; [maxdeg] is the bound asserted: 19 in the std::vector
    overload (line 94), MaxP = 20 in the matrix overloads (lines 49, 146).
    Line 90 reads control_points[l-p .. l]. *)
Definition DeBoor_point (maxdeg : nat) (junk c knots : list R) (x : R) : option R :=
  let n := length c in
  _ <- assert (n + 1 <=? length knots)%nat ;;
  let p := (length knots - n - 1)%nat in
  tp <- get knots p ;;
  tn <- get knots (n + p)%nat ;;
  _ <- assert (Rleb tp x && Rleb x tn)%bool ;;
  l1 <- span_loop (n + 1) knots x n 0 ;;
  _ <- assert (1 <=? l1)%nat ;;
  let l := (l1 - 1)%nat in
  _ <- assert ((p <=? l) && (l <? n))%nat%bool ;;
  let temp := firstn (p + 1) (skipn (l - p) c) in
  _ <- assert (p <=? maxdeg)%nat ;;
  r <- deboor_loop p knots x l (junk, temp) ;;
  get (snd r) 0.

(** DeBoor.hpp 67-110: all evaluation points (each is independent of the others). *)
Definition DeBoor (junk c knots pts : list R) : option (list R) :=
  map_opt (DeBoor_point 19 junk c knots) pts.

(** DeBoor.hpp 21-65: matrix overload. A matrix is the list of its rows; column operations
    act on every row with the same weights. *)
Definition DeBoorMat (junk : list R) (rows : list (list R)) (knots pts : list R)
  : option (list (list R)) :=
  map_opt (fun row => map_opt (DeBoor_point MaxP junk row knots) pts) rows.

(** DeBoorTP.hpp 28-33, one row: differences of control points; the loop runs downwards over
    i = cols-2 .. 0, the entries are independent. *)
Definition der_coefs (c knots : list R) : option (list R) :=
  let n := length c in
  let p := (length knots - n - 1)%nat in
  map_opt (fun i =>
    b <- get knots (i + p + 1)%nat ;;
    a <- get knots (i + 1)%nat ;;
    c1 <- get c (i + 1)%nat ;;
    c0 <- get c i ;;
    if Req_EM_T (b - a) 0 then None else Some (INR p / (b - a) * (c1 - c0))) (seq 0 (n - 1)).

(** DeBoorTP.hpp 35 / 64: vector(knot.begin() + 1, knot.end() - 1) *)
Definition inner_knots (knots : list R) : list R := removelast (tl knots).

(** DeBoorTP.hpp 21-37 for a matrix with the given rows. *)
Definition DeBoorDer_row (junk c knots pts : list R) : option (list R) :=
  d <- der_coefs c knots ;;
  map_opt (DeBoor_point MaxP junk d (inner_knots knots)) pts.
Definition DeBoorDer (junk : list R) (rows : list (list R)) (knots pts : list R)
  : option (list (list R)) :=
  map_opt (fun row => DeBoorDer_row junk row knots pts) rows.

(** Eigen transpose of a matrix with [cols] columns. *)
Definition transpose (cols : nat) (rows : list (list R)) : list (list R) :=
  map (fun j => map (fun r => nth j r 0) rows) (seq 0 cols).

(** DeBoorTP.hpp 98-107 *)
Definition DeBoorTP (junk : list R) (cp : list (list R)) (kx ky px py : list R)
  : option (list (list R)) :=
  tmp <- DeBoorMat junk cp kx px ;;
  DeBoorMat junk (transpose (length px) tmp) ky py.

(** DeBoorTP.hpp 124-137 *)
Definition DeBoorTPDer (junk : list R) (cp : list (list R)) (kx ky px py : list R)
  (xder yder : bool) : option (list (list R)) :=
  tmp <- (if xder then DeBoorDer junk cp kx px else DeBoorMat junk cp kx px) ;;
  (if yder then DeBoorDer junk (transpose (length px) tmp) ky py
           else DeBoorMat junk (transpose (length px) tmp) ky py).
