(** Model of Bembel/src/AnsatzSpace/Projector.hpp and of the product in AnsatzSpace.hpp 102-111.
    double is R, int is nat; the vectors vals, rows and cols of _proj_info, which are extended together, are one list of
    triplets (row, column, value).  A failed assert or an access out of bounds is [None]. *)
From Coq Require Import Reals Arith Bool List QArith Qreals.
From Verif Require Import ModelBase RSum ModelBernstein ModelKnots ModelTree ModelDeBoor.
Import ListNotations.
Local Close Scope Q_scope.
Local Open Scope R_scope.

(** util/Constants.hpp 37 *)
Definition projector_tolerance : R := 1 / 10000.

(** 217-234: system(iy * masksize + ix, jy * mp + jx) = vals_x[jx] * vals_y[jy]; the matrix and the arrays vals_x, vals_y are
    not initialised (junk, j1, j2); mask[i] is in range by the assert 209 *)
Definition proj_system (junk : mat) (j1 j2 : arr) (mp : nat) (mask : list R) : mat :=
  for_loop mp (fun iy m => let vals_y := evalBasis (mp - 1) j1 (nth iy mask 0) in
    for_loop mp (fun ix m => let vals_x := evalBasis (mp - 1) j2 (nth ix mask 0) in
      for_loop mp (fun jy m => for_loop mp (fun jx m =>
        updm m (iy * mp + ix)%nat (jy * mp + jx)%nat (vals_x jx * vals_y jy)) m) m) m) junk.

(** 259-270: the degrees of freedom whose knots enclose the midpoint.  (The code stores the indices as doubles.) *)
Definition nonzero_dofs (knots : list R) (pp1 dim : nat) (mid : R) : option (list nat) :=
  for_opt dim (fun d l => a <- get knots d ;; b <- get knots (d + pp1)%nat ;;
    Some (if (Rleb a mid && Rleb mid b)%bool then l ++ [d] else l)) [].

(** 274-318: one basis function on one element.  [solve N A b] is the solution computed by PartialPivLU(A).solve(b). *)
Definition dof_projection (ws : list R) (solve : nat -> mat -> arr -> arr) (sys : mat) (kx ky : list R) (dimx dimy mp n : nat) (mask : list R)
  (pos : R * R) (number patch dof_x dof_y : nat) : option (list (nat * nat * R)) :=
  let local_mask_x := map (fun m => fst pos + 1 / INR n * m) mask in
  let local_mask_y := map (fun m => snd pos + 1 / INR n * m) mask in
  let inside := fun x => if Rlt_dec x 1 then (if Rlt_dec 0 x then true else false) else false in
  _ <- assert (forallb inside local_mask_x && forallb inside local_mask_y)%bool ;;
  c_coefs_x <- set (repeat 0 dimx) dof_x 1 ;; c_coefs_y <- set (repeat 0 dimy) dof_y 1 ;;
  vals_x <- DeBoor ws c_coefs_x kx local_mask_x ;; vals_y <- DeBoor ws c_coefs_y ky local_mask_y ;;
  let rhs := fun r => nth (r mod mp) vals_x 0 * nth (r / mp) vals_y 0 in
  let sol := solve (mp * mp)%nat sys rhs in
  Some (flat_map (fun i => if Rlt_dec projector_tolerance (Rabs (sol i))
      then [((number * mp * mp + i)%nat, (patch * (dimx * dimy) + dimx * dof_y + dof_x)%nat, sol i)] else []) (seq 0 (mp * mp))).

(** 242-321: the elements in the order of the iterator, number = element_number *)
Fixpoint element_projections (ws : list R) (solve : nat -> mat -> arr -> arr) (sys : mat) (kx ky : list R) (pp1x pp1y dimx dimy mp n : nat) (mask : list R)
  (els : list node) (number : nat) : option (list (nat * nat * R)) :=
  match els with
  | [] => Some []
  | e :: r =>
      let pos := (Q2R (fst (n_llc e)), Q2R (snd (n_llc e))) in
      let h := Q2R (get_h e) in
      dofs_y <- nonzero_dofs ky pp1y dimy (snd pos + / 2 * h) ;;
      dofs_x <- nonzero_dofs kx pp1x dimx (fst pos + / 2 * h) ;;
      t <- map_opt (fun dof_y => map_opt (fun dof_x => dof_projection ws solve sys kx ky dimx dimy mp n mask pos number (n_patch e) dof_x dof_y) dofs_x) dofs_y ;;
      rest <- element_projections ws solve sys kx ky pp1x pp1y dimx dimy mp n mask r (S number) ;;
      Some (concat (map (@concat _) t) ++ rest)
  end.

(** _proj_info, 143-149 *)
Record proj_info := mkInfo { pi_trips : list (nat * nat * R); pi_c : nat; pi_dc : nat }.

(** makeLocalProjectionTriplets, 165-337; p, M, P: polynomial degree, refinement level and number of patches of the super space *)
Definition local_projection (ws : list R) (junk : mat) (j1 j2 : arr) (solve : nat -> mat -> arr -> arr) (p M P pp1x pp1y rep_in : nat) (els : list node) : option proj_info :=
  let mp := Nat.max pp1x pp1y in
  _ <- assert (mp =? p + 1)%nat ;;
  let minp := Nat.min pp1x pp1y in
  let rep := if (mp <=? rep_in)%nat then minp else rep_in in
  let n := (2 ^ M)%nat in
  _ <- assert (mp - minp <=? 1)%nat ;;
  let kx := MakeUniformKnotVector pp1x (n - 1) rep in
  let ky := MakeUniformKnotVector pp1y (n - 1) rep in
  let dimx := (length kx - pp1x)%nat in
  let dimy := (length ky - pp1y)%nat in
  let mask := MakeInterpolationMask mp in
  _ <- assert (length mask =? mp)%nat ;;
  let sys := proj_system junk j1 j2 mp mask in
  t <- element_projections ws solve sys kx ky pp1x pp1y dimx dimy mp n mask els 0 ;;
  Some (mkInfo t (dimx * dimy * P) (mp * mp * n * n * P)).

(** the result of makeMatrix: number of rows and columns and the triplets of setFromTriplets *)
Record smatrix := mkSM { sm_rows : nat; sm_cols : nat; sm_trips : list (nat * nat * R) }.
(** setFromTriplets adds up triplets of the same position and checks their range *)
Definition in_range (rows cols : nat) (t : nat * nat * R) : bool := ((fst (fst t) <? rows) && (snd (fst t) <? cols))%nat.
Definition set_from_triplets (rows cols : nat) (l : list (nat * nat * R)) : option smatrix :=
  _ <- assert (forallb (in_range rows cols) l) ;; Some (mkSM rows cols l).
Definition sm_entry (A : smatrix) : mat :=
  fun r c => fold_right (fun t acc => (if ((fst (fst t) =? r) && (snd (fst t) =? c))%nat then snd t else 0) + acc) 0 (sm_trips A).

(** 411-431 *)
Definition projector_discontinuous ws junk j1 j2 solve (p M P rep : nat) (els : list node) : option smatrix :=
  info <- local_projection ws junk j1 j2 solve p M P (p + 1) (p + 1) rep els ;;
  set_from_triplets (pi_dc info) (pi_c info) (pi_trips info).
(** 340-358 *)
Definition projector_continuous ws junk j1 j2 solve (p M P rep : nat) (els : list node) : option smatrix :=
  _ <- assert (1 <=? p)%nat ;; _ <- assert (rep <=? p)%nat ;;
  projector_discontinuous ws junk j1 j2 solve p M P rep els.
(** 369-404 *)
Definition projector_div ws junk j1 j2 solve (p M P rep : nat) (els : list node) : option smatrix :=
  _ <- assert (1 <=? p)%nat ;; _ <- assert (rep <=? p)%nat ;;
  info1 <- local_projection ws junk j1 j2 solve p M P (p + 1) p rep els ;;
  info2 <- local_projection ws junk j1 j2 solve p M P p (p + 1) rep els ;;
  _ <- assert (length (pi_trips info1) =? length (pi_trips info2))%nat ;;
  set_from_triplets (pi_dc info1 + pi_dc info2) (pi_c info1 + pi_c info2)
    (pi_trips info1 ++ map (fun t => ((fst (fst t) + pi_dc info1)%nat, (snd (fst t) + pi_c info1)%nat, snd t)) (pi_trips info2)).
