(** Model of Bembel/src/Geometry/Patch.hpp, Spline/Unroll.hpp and Spline/Bezierextraction.hpp
    (double as exact reals).  An Eigen matrix is the list of its rows; [None] is undefined
    behaviour, a failed assertion or a division by zero. *)
From Coq Require Import Reals List Arith ZArith Lia.
From Verif Require Import RSum ModelBase ModelBernstein ModelKnots ModelDeBoor.
Import ListNotations.
Local Open Scope R_scope.

(** Patch.hpp 369-375: the data members.  polynomial_degree_x_ holds degree + 1. *)
Record patch := Patch { p_data : list R; p_degx : nat; p_degy : nat; p_knx : list R; p_kny : list R }.

Definition m_rows (M : list (list R)) : nat := length M.
Definition m_cols (M : list (list R)) : nat := length (hd [] M).

(** Unroll.hpp 22-32: out(i * ny + j) = M(j, i). *)
Definition Unroll (M : list (list R)) : option (list R) :=
  for_opt (m_cols M) (fun i out =>
    for_opt (m_rows M) (fun j out =>
      row <- get M j ;; v <- get row i ;; set out (i * m_rows M + j)%nat v) out)
    (repeat 0 (m_cols M * m_rows M)).

(** Bezierextraction.hpp 65-77 [BezBasis].  The array coef is zero on entry and on exit except
    for the entry written in between.  The reads of [uniq] are in range: pos < (size - 1) * deg. *)
Definition BezBasis (uniq : list R) (deg pos : nat) (pt : R) : R :=
  let quot := (pos / deg)%nat in
  let rem := (pos mod deg)%nat in
  if Rlt_dec (nth (quot + 1) uniq 0) pt then 0
  else if Rlt_dec pt (nth quot uniq 0) then 0
  else evalCoef (deg - 1) (upd zero_arr rem 1) (Rescale pt (nth quot uniq 0) (nth (quot + 1) uniq 0)).

(** Bezierextraction.hpp 81-93: the entry (r, c) of tempsolver.  The four loops write the entry
    (y * size_phi_x + x, ix * size_phi_y + iy) once each; x = r mod size_phi_x etc. *)
Definition tempsolver (ux uy : list R) (dx dy : nat) (xpoint ypoint : list R) (r c : nat) : R :=
  let sx := ((length ux - 1) * dx)%nat in
  let sy := ((length uy - 1) * dy)%nat in
  BezBasis ux dx (c / sy) (nth (r mod sx) xpoint 0) * BezBasis uy dy (c mod sy) (nth (r / sx) ypoint 0).

(** the zero matrix with one entry 1 at row j, column i (Bezierextraction.hpp 103-113) *)
Definition unit_matrix (rows cols j i : nat) : list (list R) :=
  map (fun a => map (fun b => if ((a =? j)%nat && (b =? i)%nat)%bool then 1 else 0) (seq 0 cols)) (seq 0 rows).

(** Eigen: pruned(reference) drops the coefficients v with |v| <= |reference| * dummy_precision
    (1e-12 for double); sparseTol = 0.001 (Bezierextraction.hpp 32, 116). *)
Definition prune_tol : R := / 1000 * / 1000000000000.
Definition prune (v : R) : R := if Rle_dec (Rabs v) prune_tol then 0 else v.

(** Bezierextraction.hpp 22-117.  [inv A n] stands for Eigen's tempsolver.inverse() (line 100); the
    rank assertion (line 98) holds when it is an inverse.  The result maps column i * size_psi_y + j
    to the column of Proj; a column is the list of its size_phi entries. *)
Definition MakeProjection (inv : (nat -> nat -> R) -> nat -> nat -> nat -> R) (junk : list R)
  (kx ky ux uy : list R) (dx dy : nat) : option (list (list R)) :=
  let sphix := ((length ux - 1) * dx)%nat in
  let sphiy := ((length uy - 1) * dy)%nat in
  let sphi := (sphix * sphiy)%nat in
  let spsix := (length kx - dx)%nat in
  let spsiy := (length ky - dy)%nat in
  xpoint <- MakeInterpolationPoints ux (MakeInterpolationMask dx) ;;
  ypoint <- MakeInterpolationPoints uy (MakeInterpolationMask dy) ;;
  _ <- assert (length xpoint =? sphix)%nat ;;
  _ <- assert (length ypoint =? sphiy)%nat ;;
  let solve := inv (tempsolver ux uy dx dy xpoint ypoint) sphi in
  map_opt (fun c =>
    let i := (c / spsiy)%nat in
    let j := (c mod spsiy)%nat in
    M <- DeBoorTP junk (unit_matrix spsiy spsix j i) kx ky xpoint ypoint ;;
    small <- Unroll M ;;
    _ <- assert (length small =? sphi)%nat ;;
    Some (map (fun r => prune (rsum (fun l => solve r l * nth l small 0) sphi)) (seq 0 sphi)))
    (seq 0 (spsix * spsiy)).

(** Patch.hpp 86-88, 101-106: data_[j * 4 + i] = tmp[j]. *)
Definition store_component (i : nat) (tmp data : list R) : option (list R) :=
  for_opt (length tmp) (fun j data => v <- get tmp j ;; set data (j * 4 + i)%nat v) data.

(** Patch.hpp 68-112.  A negative polynomial_degree (more columns than knots) makes the resize throw. *)
Definition init_Patch (inv : (nat -> nat -> R) -> nat -> nat -> nat -> R) (junk : list R)
  (xyzw : list (list (list R))) (x_knots y_knots : list R) : option patch :=
  _ <- assert (length xyzw =? 4)%nat ;;
  M0 <- get xyzw 0 ;;
  ux <- ExtractUniqueKnotVector x_knots ;;
  uy <- ExtractUniqueKnotVector y_knots ;;
  _ <- assert (m_cols M0 <=? length x_knots)%nat ;;
  _ <- assert (m_rows M0 <=? length y_knots)%nat ;;
  let dx := (length x_knots - m_cols M0)%nat in
  let dy := (length y_knots - m_rows M0)%nat in
  let data0 := repeat 0 (4 * (dx * (length ux - 1) * dy * (length uy - 1))) in
  data <-
    (if ((length ux =? 2) && (length uy =? 2))%nat%bool then
       for_opt 4 (fun i data =>
         M <- get xyzw i ;; tmp <- Unroll M ;; store_component i tmp data) data0
     else
       phi <- MakeProjection inv junk x_knots y_knots ux uy dx dy ;;
       for_opt 4 (fun i data =>
         M <- get xyzw i ;;
         u <- Unroll M ;;
         _ <- assert (length u =? length phi)%nat ;;
         let tmp := map (fun r => rsum (fun c => nth c u 0 * nth r (nth c phi []) 0) (length phi))
                        (seq 0 ((length ux - 1) * dx * ((length uy - 1) * dy))) in
         store_component i tmp data) data0) ;;
  Some (Patch data dx dy ux uy).

(** Patch.hpp 121-131 (and 165-175, 292-300): span and local coordinate of one direction. *)
Definition locate (x : R) (u : list R) : option (nat * R) :=
  let z := FindLocationInKnotVector x u in
  _ <- assert (0 <=? z)%Z ;;
  let loc := Z.to_nat z in
  a <- get u loc ;;
  b <- get u (loc + 1)%nat ;;
  Some (loc, Rescale x a b).

(** Patch.hpp 145-146 *)
Definition accs (P : patch) (xl yl i j : nat) : nat :=
  let numy := ((length (p_kny P) - 1) * p_degy P)%nat in
  (4 * (numy * (p_degx P * xl + i) + p_degy P * yl + j))%nat.

(** Patch.hpp 120-159.  j1, j2: content of the uninitialised arrays xbasis, ybasis. *)
Definition eval (j1 j2 : arr) (P : patch) (x y : R) : option (list R) :=
  lx <- locate x (p_knx P) ;;
  ly <- locate y (p_kny P) ;;
  _ <- assert ((1 <=? p_degx P) && (1 <=? p_degy P))%nat%bool ;;
  let xbasis := evalBasis (p_degx P - 1) j1 (snd lx) in
  let ybasis := evalBasis (p_degy P - 1) j2 (snd ly) in
  tmp <- for_opt (p_degx P) (fun i tmp =>
           for_opt (p_degy P) (fun j tmp =>
             let tpbasisval := xbasis i * ybasis j in
             for_opt 4 (fun k tmp =>
               d <- get (p_data P) (accs P (fst lx) (fst ly) i j + k)%nat ;;
               Some (upd tmp k (tmp k + d * tpbasisval))) tmp) tmp) zero_arr ;;
  if Req_EM_T (tmp 3%nat) 0 then None
  else Some [tmp 0%nat / tmp 3%nat; tmp 1%nat / tmp 3%nat; tmp 2%nat / tmp 3%nat].

(** Patch.hpp 197-216 and 318-341: the loop over the control points of evalJacobian and
    updateSurfacePoint; the state is (tmp, tmpDx, tmpDy). *)
Definition jacobian_sums (P : patch) (xl yl : nat) (xbasis ybasis xbasisD ybasisD : arr)
  : option (arr * arr * arr) :=
  for_opt (p_degx P) (fun i st =>
    for_opt (p_degy P) (fun j st =>
      let tpbasisval := xbasis i * ybasis j in
      let tpbasisvalDx := xbasisD i * ybasis j in
      let tpbasisvalDy := xbasis i * ybasisD j in
      for_opt 4 (fun k st =>
        d <- get (p_data P) (accs P xl yl i j + k)%nat ;;
        let '(tmp, tmpDx, tmpDy) := st in
        Some (upd tmp k (tmp k + d * tpbasisval),
              upd tmpDx k (tmpDx k + d * tpbasisvalDx),
              upd tmpDy k (tmpDy k + d * tpbasisvalDy))) st) st) (zero_arr, zero_arr, zero_arr).

(** Patch.hpp 163-232: the two columns of the Jacobian. *)
Definition evalJacobian (j1 j2 j3 j4 : arr) (P : patch) (x y : R) : option (list R * list R) :=
  lx <- locate x (p_knx P) ;;
  ly <- locate y (p_kny P) ;;
  _ <- assert ((1 <=? p_degx P) && (1 <=? p_degy P))%nat%bool ;;
  let xbasis := evalBasis (p_degx P - 1) j1 (snd lx) in
  let ybasis := evalBasis (p_degy P - 1) j2 (snd ly) in
  let xbasisD := evalDerBasis (p_degx P - 1) j3 (snd lx) in
  let ybasisD := evalDerBasis (p_degy P - 1) j4 (snd ly) in
  st <- jacobian_sums P (fst lx) (fst ly) xbasis ybasis xbasisD ybasisD ;;
  let '(tmp, tmpDx, tmpDy) := st in
  if Req_EM_T (tmp 3%nat) 0 then None
  else
    let bot := 1 / (tmp 3%nat * tmp 3%nat) in
    Some (map (fun k => (tmpDx k * tmp 3%nat - tmp k * tmpDx 3%nat) * bot) [0; 1; 2]%nat,
          map (fun k => (tmpDy k * tmp 3%nat - tmp k * tmpDy 3%nat) * bot) [0; 1; 2]%nat).

(** Eigen: cross product of vectors of length 3 *)
Definition cross (a b : list R) : list R :=
  let a0 := nth 0 a 0 in let a1 := nth 1 a 0 in let a2 := nth 2 a 0 in
  let b0 := nth 0 b 0 in let b1 := nth 1 b 0 in let b2 := nth 2 b 0 in
  [a1 * b2 - a2 * b1; a2 * b0 - a0 * b2; a0 * b1 - a1 * b0].

(** Patch.hpp 240-244 *)
Definition evalNormal (j1 j2 j3 j4 : arr) (P : patch) (x y : R) : option (list R) :=
  jac <- evalJacobian j1 j2 j3 j4 P x y ;; Some (cross (fst jac) (snd jac)).

(** Patch.hpp 289-362: the twelve entries of the surface point.  The pointers into [buffer] are
    modelled as separate arrays (the regions are disjoint: 4 + 4 + 4 + 2 (px + py) entries). *)
Definition updateSurfacePoint (j1 j2 j3 j4 : arr) (P : patch) (x y w xi0 xi1 : R) : option (list R) :=
  lx <- locate x (p_knx P) ;;
  ly <- locate y (p_kny P) ;;
  _ <- assert ((1 <=? p_degx P) && (1 <=? p_degy P))%nat%bool ;;
  let xbasis := evalBasis (p_degx P - 1) j1 (snd lx) in
  let ybasis := evalBasis (p_degy P - 1) j2 (snd ly) in
  let xbasisD := evalDerBasis (p_degx P - 1) j3 (snd lx) in
  let ybasisD := evalDerBasis (p_degy P - 1) j4 (snd ly) in
  st <- jacobian_sums P (fst lx) (fst ly) xbasis ybasis xbasisD ybasisD ;;
  let '(tmp, tmpDx, tmpDy) := st in
  if Req_EM_T (tmp 3%nat) 0 then None
  else
    let bot := 1 / tmp 3%nat in
    let botsqr := bot * bot in
    Some [xi0; xi1; w;
          tmp 0%nat * bot; tmp 1%nat * bot; tmp 2%nat * bot;
          (tmpDx 0%nat * tmp 3%nat - tmp 0%nat * tmpDx 3%nat) * botsqr;
          (tmpDx 1%nat * tmp 3%nat - tmp 1%nat * tmpDx 3%nat) * botsqr;
          (tmpDx 2%nat * tmp 3%nat - tmp 2%nat * tmpDx 3%nat) * botsqr;
          (tmpDy 0%nat * tmp 3%nat - tmp 0%nat * tmpDy 3%nat) * botsqr;
          (tmpDy 1%nat * tmp 3%nat - tmp 1%nat * tmpDy 3%nat) * botsqr;
          (tmpDy 2%nat * tmp 3%nat - tmp 2%nat * tmpDy 3%nat) * botsqr].

(** Patch.hpp 384-430.  [out] is built piece by piece (index = ix * ychips + iy) in the order of the
    two outer loops; std::vector::push_back appends. *)
Definition PatchShredder (P : patch) : option (list patch) :=
  if ((length (p_kny P) =? 2) && (length (p_knx P) =? 2))%nat%bool then Some [P]
  else
    let xchips := (length (p_knx P) - 1)%nat in
    let ychips := (length (p_kny P) - 1)%nat in
    let xp := p_degx P in
    let yp := p_degy P in
    let numy := (ychips * yp)%nat in
    for_opt xchips (fun ix out =>
      for_opt ychips (fun iy out =>
        let index := (ix * ychips + iy)%nat in
        for_opt xp (fun jx out =>
          for_opt yp (fun jy out =>
            let accs := (4 * (numy * (xp * ix + jx) + yp * iy + jy))%nat in
            for_opt 4 (fun k out =>
              d <- get (p_data P) (accs + k)%nat ;;
              piece <- get out index ;;
              set out index (Patch (p_data piece ++ [d]) (p_degx piece) (p_degy piece) (p_knx piece) (p_kny piece)))
              out) out) out) out)
      (repeat (Patch [] xp yp [0; 1] [0; 1]) (xchips * ychips)).

(** Patch.hpp 438-455 *)
Fixpoint shred_loop (patches : list patch) (out : list patch) : option (list patch) :=
  match patches with
  | [] => Some out
  | P :: rest => tmp <- PatchShredder P ;; shred_loop rest (out ++ tmp)
  end.
Definition PatchShredder_all (patches : list patch) : option (list patch) := shred_loop patches [].
