(** Model of Bembel/src/HomogenisedLaplace/Coefficients.hpp, 60-207, 238-280 and 346-382: the coefficients of the periodic kernel.
    A matrix is a function of row and column, its uninitialised memory is [junk].  The points of the quadrature rule
    GaussSquare<POINT_DEGREE>[POINT_DEGREE], shifted by -0.5, and its weights are inputs; so is Eigen's least squares solver
    [solve rows columns matrix right-hand side].  [mem v]: contents of the memory allocated by the calls of
    spherical_harmonics_full and Dsolid_harmonics_full at the point v. *)
From Coq Require Import Reals Arith Bool List ZArith.
From Verif Require Import ModelBase ModelBall ModelSpherical ModelQuad.
Import ListNotations.
Local Open Scope R_scope.

Definition memory : Type := (list R * list R) * R * list R * list vec3.
(** ps_left, ps_front, ps_bottom, 81-92, for the face 0, 1, 2; ex, ey, ez, 77-79; the row of the gradient in difft, 115, 143, 172 *)
Definition face_point (f : nat) (q : R * R) : vec3 :=
  match f with O => (-0.5, fst q, snd q) | 1%nat => (fst q, -0.5, snd q) | _ => (fst q, snd q, -0.5) end.
Definition face_shift (f : nat) : vec3 := match f with O => (1, 0, 0) | 1%nat => (0, 1, 0) | _ => (0, 0, 1) end.
Definition face_component (f : nat) (v : vec3) : R := match f with O => vx v | 1%nat => vy v | _ => vz v end.

(** M.block(r, c0, 1, l.size()) = l *)
Definition write_row (M : nat -> nat -> R) (r c0 : nat) (l : list R) : nat -> nat -> R :=
  fun i j => if ((i =? r) && (c0 <=? j) && (j <? c0 + length l))%nat%bool then nth (j - c0) l 0 else M i j.
(** M(i) = x *)
Definition write (a : nat -> R) (i : nat) (x : R) : nat -> R := fun j => if (j =? i)%nat then x else a j.

(** v.segment(1, n) *= 2.0 *)
Definition twice (l : list R) : list R := match l with [] => [] | a :: r => a :: map (fun x => x * 2) r end.

(** the body of the loop over k for one face: 99-124 (f = 0), 126-153 (f = 1), 155-182 (f = 2) *)
Definition face_rows (mem : vec3 -> memory) (deg Msquare f k : nat) (q : R * R) (A : nat -> nat -> R) : option (nat -> nat -> R) :=
  let v := face_point f q in let v' := vadd v (face_shift f) in
  let norm := vnorm v in
  let '(jY, st, jL, jG) := mem v in let '(jY', st', jL', jG') := mem v' in
  pre <- spherical_harmonics_full jY st v deg ;; pst <- spherical_harmonics_full jY' st' v' deg ;;
  Dpre <- Dsolid_harmonics_full jL jG v deg pre ;; Dpst <- Dsolid_harmonics_full jL' jG' v' deg pst ;;
  for_opt deg (fun i A => let n := S i in
    let scale := norm ^ n in
    diff <- map_opt (fun m => a <- get (fst pre) (n * n + n + m) ;; b <- get (fst pst) (n * n + n + m) ;; Some (scale * (a - b))) (seq 0 (n + 1)) ;;
    difft <- map_opt (fun m => a <- get Dpre (n * n + n + m) ;; b <- get Dpst (n * n + n + m) ;; Some (face_component f a - face_component f b)) (seq 0 (n + 1)) ;;
    let A := write_row A (k + 2 * f * Msquare) ((n * (n + 1)) / 2 - 1) (twice diff) in
    Some (write_row A (k + (2 * f + 1) * Msquare) ((n * (n + 1)) / 2 - 1) (twice difft))) A.
(** 94-183; Msquare, 69, is the number of points of the rule *)
Definition system_matrix (mem : vec3 -> memory) (junk : nat -> nat -> R) (deg : nat) (xs : list (R * R)) : option (nat -> nat -> R) :=
  let Msquare := length xs in
  for_opt Msquare (fun k A => q <- get xs k ;;
    A <- face_rows mem deg Msquare 0 k q A ;; A <- face_rows mem deg Msquare 1 k q A ;; face_rows mem deg Msquare 2 k q A) junk.

(** getDisplacement, 238-280 *)
Definition face_displacement (Msquare f : nat) (xs : list (R * R)) (d : nat -> R) : option (nat -> R) :=
  for_opt Msquare (fun k d => q <- get xs k ;; let v := face_point f q in let v' := vadd v (face_shift f) in
    g <- Dk_mod v ;; g' <- Dk_mod v' ;; a <- k_mod v ;; b <- k_mod v' ;;
    Some (write (write d (k + 2 * f * Msquare) (a - b)) (k + (2 * f + 1) * Msquare) (face_component f (vsub g g')))) d.
Definition getDisplacement (junk : nat -> R) (xs : list (R * R)) : option (nat -> R) :=
  d <- face_displacement (length xs) 0 xs junk ;; d <- face_displacement (length xs) 1 xs d ;; face_displacement (length xs) 2 xs d.

(** calculateFirstCoefficient, 346-382; cs_tmp(0) = 0 *)
Definition scaled (norm : R) (cs : list R) (deg : nat) : option (list R) :=
  for_opt deg (fun i t => let n := S i in
    for_opt (2 * n + 1) (fun j t => c <- get cs (n * n + j) ;; set t (n * n + j) (norm ^ n * c)) t) (repeat 0 (length cs)).
Definition calculateFirstCoefficient (cs : list R) (deg : nat) (xs : list (R * R)) (ws : list R) : option R :=
  res <- for_opt (length xs) (fun k res => q <- get xs k ;; w <- get ws k ;;
    let norm := vnorm (face_point 0 q) in
    cs_tmp <- scaled norm cs deg ;;
    if Req_EM_T norm 0 then None else
    a <- k_mod (face_point 0 q) ;; b <- evaluate_sphericals (vscal (1 / norm) (face_point 0 q)) cs_tmp deg ;; let res := res + w * (a + b) in
    a <- k_mod (face_point 1 q) ;; b <- evaluate_sphericals (vscal (1 / norm) (face_point 1 q)) cs_tmp deg ;; let res := res + w * (a + b) in
    a <- k_mod (face_point 2 q) ;; b <- evaluate_sphericals (vscal (1 / norm) (face_point 2 q)) cs_tmp deg ;; Some (res + w * (a + b))) 0 ;;
  Some (-2 * sqrt PI * (res / 3 + 1 / 24)).

(** 191-200: copy into the full list *)
Definition copy_coefficients (junk : list R) (coeffs : nat -> R) (deg : nat) : option (list R) :=
  full <- set junk 0 0 ;;
  for_opt deg (fun i full => let n := S i in
    full <- set full (n * n + n) (coeffs ((n * (n + 1)) / 2)%nat) ;;
    for_opt n (fun i full => let m := S i in
      full <- set full (n * n + n + m) (coeffs ((n * (n + 1)) / 2 + m)%nat) ;;
      set full (n * n + n - m) (coeffs ((n * (n + 1)) / 2 + m)%nat)) full) full.
(** getCoefficients, 60-207 *)
Definition getCoefficients (solve : nat -> nat -> (nat -> nat -> R) -> (nat -> R) -> nat -> R) (mem : vec3 -> memory) (junkA : nat -> nat -> R) (junkd : nat -> R) (junkf : list R)
    (xs : list (R * R)) (ws : list R) (precision : R) : option (list R) :=
  let deg := getDegree precision in
  displacement <- getDisplacement junkd xs ;;
  A <- system_matrix mem junkA deg xs ;;
  let x := solve (6 * length xs)%nat (((deg + 1) * (deg + 2)) / 2 - 1)%nat A (fun i => - displacement i) in
  let coeffs := fun i => if (i =? 0)%nat then 0 else x (i - 1)%nat in
  full <- copy_coefficients junkf coeffs deg ;;
  c0 <- calculateFirstCoefficient full deg xs ws ;;
  set full 0 c0.

(** the rule: GS[POINT_DEGREE] with POINT_DEGREE = 20 is the cubature of GaussLegendreRule<21>, which is computed from the eigenvalues lam and the eigenvectors V;
    the points shifted by -0.5, 72-74; its weights, 350-351 *)
Definition POINT_DEGREE : nat := 20.
Definition point_rule (lam : nat -> R) (V : nat -> nat -> R) : cubature := qvector (fun n => tensor_rule (eigen_rule n lam V)) POINT_DEGREE POINT_DEGREE.
Definition shifted_points (lam : nat -> R) (V : nat -> nat -> R) : list (R * R) := map (fun q => (fst q - 0.5, snd q - 0.5)) (fst (point_rule lam V)).
Definition rule_weights (lam : nat -> R) (V : nat -> nat -> R) : list R := snd (point_rule lam V).
