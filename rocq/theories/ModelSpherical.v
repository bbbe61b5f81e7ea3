(** Model of Bembel/src/util/Sphericals.hpp and of Bembel/src/HomogenisedLaplace.
    double is R, BEMBEL_PI and M_PI are PI.  Eigen vectors are lists with checked access; the memory of a new vector is not
    initialised ([junk], of the right length).  [None] is an access out of range, a failed assertion, the use of an uninitialised
    variable or the division by the norm of the zero vector. *)
From Coq Require Import Reals Arith Bool List ZArith.
From Verif Require Import ModelBase ModelBall.
Import ListNotations.
Local Open Scope R_scope.

(** pow_int, Sphericals.hpp 741-764: the loop multiplies |n| - 1 times *)
Definition pow_int (x : R) (n : Z) : R :=
  if Z.eqb n 0 then 1 else
  let ul := Z.abs_nat n in
  let res := fold_left (fun res _ => res * x) (seq 1 (ul - 1)) x in
  if Z.ltb 0 n then res else 1 / res.

(** y = x / x.norm() *)
Definition normalized (x : vec3) : option vec3 := if Req_EM_T (vnorm x) 0 then None else Some (vscal (1 / vnorm x) x).

(** spherical_prev, 470-495; y1 = (y1(0), y1(1)), y2 likewise *)
Definition spherical_prev (x : vec3) (m n : nat) (y1 y2 : R * R) : option (R * R) :=
  _ <- assert (if Rlt_dec (Rabs (vnorm x - 1)) (/ 10 ^ 14) then true else false) ;;
  let M := INR m in let N := INR n in
  Some (if ((m =? 0) && (n =? 0))%nat%bool then (0.5 / sqrt PI, 0)
  else if (m =? n)%nat then
    (sqrt ((2 * M + 1) / (2 * M)) * (vx x * fst y1 - vy x * fst y2), sqrt ((2 * M + 1) / (2 * M)) * (vx x * fst y2 + vy x * fst y1))
  else if (m + 1 =? n)%nat then (fst y1 * sqrt (2 * M + 3) * vz x, fst y2 * sqrt (2 * M + 3) * vz x)
  else
    (sqrt ((2 * N + 1) / ((N - M) * (N + M))) * (sqrt (2 * N - 1) * vz x * fst y1 - sqrt (((N + M - 1) * (N - M - 1)) / (2 * N - 3)) * snd y1),
     sqrt ((2 * N + 1) / ((N - M) * (N + M))) * (sqrt (2 * N - 1) * vz x * fst y2 - sqrt (((N + M - 1) * (N - M - 1)) / (2 * N - 3)) * snd y2))).

(** 415-422, 429-437, 443-451: real(n*n + n + m) = tmp(0), and the conjugate for -m *)
Definition store_pair (st : list R * list R) (n m : nat) (tmp : R * R) : option (list R * list R) :=
  re <- set (fst st) (n * n + n + m) (fst tmp) ;; im <- set (snd st) (n * n + n + m) (snd tmp) ;;
  if (0 <? m)%nat then re <- set re (n * n + n - m) (fst tmp) ;; im <- set im (n * n + n - m) (- snd tmp) ;; Some (re, im)
  else Some (re, im).

(** spherical_harmonics_full, 383-462.  stale: the component z(1) that spherical_prev does not use in the cases m = n-1, n *)
Definition spherical_harmonics_full (junk : list R * list R) (stale : R) (x : vec3) (N : nat) : option (list R * list R) :=
  y <- normalized x ;;
  re <- set (fst junk) 0 (0.5 / sqrt PI) ;; im <- set (snd junk) 0 0 ;;
  for_opt N (fun k st => let n := S k in
    st <- for_opt (n - 1) (fun m st =>
      a <- get (fst st) ((n - 1) * (n - 1) + n - 1 + m) ;; b <- get (fst st) ((n - 2) * (n - 2) + n - 2 + m) ;;
      c <- get (snd st) ((n - 1) * (n - 1) + n - 1 + m) ;; d <- get (snd st) ((n - 2) * (n - 2) + n - 2 + m) ;;
      tmp <- spherical_prev y m n (a, b) (c, d) ;; store_pair st n m tmp) st ;;
    let m := (n - 1)%nat in
    a <- get (fst st) (m * m + m + m) ;; c <- get (snd st) (m * m + m + m) ;;
    tmp <- spherical_prev y m n (a, stale) (c, stale) ;; st <- store_pair st n m tmp ;;
    a <- get (fst st) ((n - 1) * (n - 1) + n - 1 + n - 1) ;; c <- get (snd st) ((n - 1) * (n - 1) + n - 1 + n - 1) ;;
    tmp <- spherical_prev y n n (a, stale) (c, stale) ;; store_pair st n n tmp) (re, im).

(** legendreFull, 672-701 *)
Definition legendreFull (junk : list R) (N : nat) (t : R) : option (list R) :=
  L <- set junk 0 1 ;; L <- set L 1 t ;; L <- set L 2 1 ;;
  for_opt (N - 1) (fun k L => let n := (k + 2)%nat in let s := ((n * (n + 1)) / 2)%nat in
    L <- for_opt (n - 1) (fun m L =>
      a <- get L ((n * (n - 1)) / 2 + m) ;; b <- get L (((n - 1) * (n - 2)) / 2 + m) ;;
      set L (s + m) (((2 * INR n - 1) * t * a - (INR n + INR m - 1) * b) / (INR n - INR m))) L ;;
    let m := (n - 1)%nat in
    a <- get L ((m * (m + 1)) / 2 + m) ;; L <- set L (s + m) ((2 * INR m + 1) * t * a) ;;
    a <- get L ((n * (n - 1)) / 2 + n - 1) ;; set L (s + n) ((2 * INR n - 1) * a)) L.

(** constant, 706-715 *)
Definition constant (m n : nat) : R :=
  fold_left (fun c i => c * (1 / sqrt ((INR n + INR i + 1) * (INR n - INR i)))) (seq 0 m) (sqrt ((2 * INR n + 1) / (4 * PI))).

(** c = x(0) * z(r,0) - x(1) * z(r,1); z(r,1) = x(0) * z(r,1) + x(1) * z(r,0); z(r,0) = c *)
Definition turn (x : vec3) (z : R * R) : R * R := (vx x * fst z - vy x * snd z, vx x * snd z + vy x * fst z).

(** dspherical_prev, 540-596: the rows of z are pairs (real, imaginary) *)
Definition dspherical_prev (x : vec3) (m n : nat) (L : list R) : option ((R * R) * (R * R) * (R * R)) :=
  _ <- assert (if Rlt_dec (Rabs (vnorm x - 1)) (/ 10 ^ 14) then true else false) ;;
  rows <- (if (m =? 0)%nat then
      z20 <- (if (n <? 1)%nat then Some 0 else get L ((n * (n + 1)) / 2 + 1)) ;; Some ((0, 0), (z20, 0))
    else
      z00 <- (if (n <? m)%nat then Some 0 else get L ((n * (n + 1)) / 2 + m)) ;;
      z20 <- (if (n <? m + 1)%nat then Some 0 else get L ((n * (n + 1)) / 2 + m + 1)) ;;
      Some (fold_left (fun st _ => (turn x (fst st), turn x (snd st))) (seq 1 (m - 1)) ((z00, 0), turn x (z20, 0)))) ;;
  let '(r0, r2) := rows in
  let c := constant m n in
  let z0 := (fst r0 * (INR m * c), snd r0 * (INR m * c)) in
  Some (z0, (- snd z0, fst z0), (fst r2 * c, snd r2 * c)).

(** functionalMatrix, 720-736, times a vector *)
Definition functionalMatrix (z v : vec3) : vec3 :=
  let r := vnorm z in
  ((r * r - vx z * vx z) * vx v + - vx z * vy z * vy v + - vx z * vz z * vz v,
   - vx z * vy z * vx v + (r * r - vy z * vy z) * vy v + - vy z * vz z * vz v,
   - vx z * vz z * vx v + - vy z * vz z * vy v + (r * r - vz z * vz z) * vz v).

(** dsolid_spherical_prev, 602-667, for m >= 0 (it is not called with m < 0); the two columns *)
Definition dsolid_spherical_prev (y : vec3) (m n : nat) (L : list R) (y_re y_im : R) : option (vec3 * vec3) :=
  x <- normalized y ;;
  let r := vnorm y in
  z <- dspherical_prev x m n L ;;
  let '(z0, z1, z2) := z in
  let r_n3 := if (3 <? n)%nat then r ^ (n - 3) else if (n =? 3)%nat then 1 else (1 / r) ^ (3 - n) in
  let harm := fun pr : R * R -> R => vscal r_n3 (functionalMatrix y (pr z0, pr z1, pr z2)) in
  let nr_n1 := if (n =? 1)%nat then 1 else INR n * r ^ (n - 1) in
  let rad := fun w : R => if (n =? 0)%nat then (0, 0, 0) else vscal (w * nr_n1) x in
  Some (vadd (harm fst) (rad y_re), vadd (harm snd) (rad y_im)).

(** Dsolid_harmonics_full, 500-535; only the real parts are returned *)
Definition Dsolid_harmonics_full (junkL : list R) (junk : list vec3) (x : vec3) (N : nat) (spherical_val : list R * list R) : option (list vec3) :=
  x' <- normalized x ;;
  L <- legendreFull junkL N (vz x / vnorm x) ;;
  for_opt (N + 1) (fun n st => for_opt (n + 1) (fun m st =>
    a <- get (fst spherical_val) (n * n + n + m) ;; b <- get (snd spherical_val) (n * n + n + m) ;;
    z <- dsolid_spherical_prev x m n L a b ;;
    st <- set st (n * n + n + m) (fst z) ;;
    if (0 <? m)%nat then set st (n * n + n - m) (fst z) else Some st) st) junk.

(** ** evaluation of series *)
Definition csmul (a : R) (z : R * R) : R * R := (a * fst z, a * snd z).
(** root_2 * (rootTimesZ * z2 - root_3 * z1), 90-94 *)
Definition next_z (m n : nat) (z : R) (z1 z2 : R * R) : R * R :=
  let N := INR n in let M := INR m in
  let root_2 := sqrt ((2 * N + 1) / ((N - M) * (N + M))) in
  let rootTimesZ := sqrt (2 * N - 1) * z in
  let root_3 := sqrt (((N + M - 1) * (N - M - 1)) / (2 * N - 3)) in
  (root_2 * (rootTimesZ * fst z2 - root_3 * fst z1), root_2 * (rootTimesZ * snd z2 - root_3 * snd z1)).
(** 101-103: the first function for m + 1 *)
Definition next_start (m : nat) (x : vec3) (z : R * R) : R * R :=
  csmul (sqrt ((2 * INR m + 3) / (2 * INR m + 2))) (vx x * fst z - vy x * snd z, vx x * snd z + vy x * fst z).

(** evaluate_sphericals, 68-107 *)
Definition evaluate_sphericals (x : vec3) (cs : list R) (deg : nat) : option R :=
  _ <- assert (if Rlt_dec (Rabs (vnorm x - 1)) (1 / 1000000) then true else false) ;;
  let z0 := (0.5 / sqrt PI, 0) in
  if (deg <=? 1)%nat then c <- get cs 0 ;; Some (c * fst z0) else
  st <- for_opt (deg - 1) (fun m st =>
    let '(r, z1_start) := st in
    let fac := if (m =? 0)%nat then 1 else 2 in
    let z2 := csmul (sqrt (2 * INR m + 3) * vz x) z1_start in
    c1 <- get cs (m * (m + 1) + m) ;; c2 <- get cs ((m + 1) * (m + 2) + m) ;;
    let r := r + fac * c1 * fst z1_start + fac * c2 * fst z2 in
    st <- for_opt (deg - (m + 2)) (fun k st =>
      let n := (m + 2 + k)%nat in let '(r, z1, z2) := st in
      let z3 := next_z m n (vz x) z1 z2 in
      c <- get cs (n * (n + 1) + m) ;;
      Some (r + fac * c * fst z3, z2, z3)) (r, z1_start, z2) ;;
    Some (fst (fst st), next_start m x z1_start)) (0, z0) ;;
  c <- get cs ((deg - 1) * (deg + 1)) ;;
  Some (fst st + 2 * c * fst (snd st)).

(** evaluate_solid_sphericals, 120-194; the loop state also has fac and fac_tot, which are used after the loop *)
Definition evaluate_solid_sphericals (x : vec3) (cs : list R) (deg : nat) (grad : bool) : option R :=
  let z0 := (0.5 / sqrt PI, 0) in
  if (deg <=? 1)%nat then (if grad then Some 0 else c <- get cs 0 ;; Some (c * fst z0)) else
  y <- normalized x ;;
  let norm := vnorm x in
  st <- for_opt (deg - 1) (fun m st =>
    let '(r, z1_start, _, _) := st in
    let fac := if (m =? 0)%nat then 1 else 2 in
    let fac_tot := if grad then fac * INR m * pow_int norm (Z.of_nat m - 1) else fac * pow_int norm (Z.of_nat m) in
    let z2 := csmul (sqrt (2 * INR m + 3) * vz y) z1_start in
    c1 <- get cs (m * (m + 1) + m) ;;
    let r := r + fac_tot * c1 * fst z1_start in
    let fac_tot := if grad then fac * (INR m + 1) * pow_int norm (Z.of_nat m) else fac_tot * norm in
    c2 <- get cs ((m + 1) * (m + 2) + m) ;;
    let r := r + fac_tot * c2 * fst z2 in
    st <- for_opt (deg - (m + 2)) (fun k st =>
      let n := (m + 2 + k)%nat in let '(r, z1, z2, fac_tot) := st in
      let fac_tot := if grad then fac * INR n * pow_int norm (Z.of_nat n - 1) else fac_tot * norm in
      let z3 := next_z m n (vz y) z1 z2 in
      c <- get cs (n * (n + 1) + m) ;;
      Some (r + fac_tot * c * fst z3, z2, z3, fac_tot)) (r, z1_start, z2, fac_tot) ;;
    let '(r, _, _, fac_tot) := st in
    Some (r, next_start m y z1_start, fac, fac_tot)) (0, z0, 0, 0) ;;
  let '(r, z1, fac, fac_tot) := st in
  let fac_tot := if grad then fac * INR deg * pow_int norm (Z.of_nat deg - 1) else fac_tot * norm in
  c <- get cs ((deg - 1) * (deg + 1)) ;;
  Some (r + fac_tot * c * fst z1).

(** evaluate_dsphericals, 213-291.  deg = 0 makes deg - 1 wrap around (the loop leaves the coefficients): [None] *)
Definition evaluate_dsphericals (x : vec3) (cs : list R) (deg : nat) : option vec3 :=
  _ <- assert (if Rlt_dec (Rabs (vnorm x - 1)) (1 / 1000000) then true else false) ;;
  if (deg =? 0)%nat then None else if (deg =? 1)%nat then Some (0, 0, 0) else
  st <- for_opt (deg - 2) (fun i st =>
    let m := S i in let '(dr, z1_start) := st in let '(dx, dy, dz) := dr in let M := INR m in
    let z2 := csmul (sqrt (2 * M + 3) * vz x) z1_start in
    c1 <- get cs (m * (m + 1) + m) ;; c2 <- get cs ((m + 1) * (m + 2) + m) ;;
    let dx := dx + 2 * M * (c1 * fst z1_start) + 2 * M * (c2 * fst z2) in
    let dy := dy - 2 * M * (c1 * snd z1_start) - 2 * M * (c2 * snd z2) in
    let fac := if (m =? 1)%nat then 1 else 2 in
    c3 <- get cs (m * (m + 1) + (m - 1)) ;; c4 <- get cs ((m + 1) * (m + 2) + (m - 1)) ;;
    dz <- (if (m =? 1)%nat then
        c5 <- get cs (m * (m + 1) - (m - 1)) ;; c6 <- get cs ((m + 1) * (m + 2) - (m - 1)) ;;
        Some (dz + fac * sqrt (2 * M) * (c3 * fst z1_start + c5 * snd z1_start) + fac * sqrt (4 * M + 2) * (c4 * fst z2 + c6 * snd z2))
      else Some (dz + fac * sqrt (2 * M) * (c3 * fst z1_start) + fac * sqrt (4 * M + 2) * (c4 * fst z2))) ;;
    st <- for_opt (deg - (m + 2)) (fun k st =>
      let n := (m + 2 + k)%nat in let '(dx, dy, dz, z1, z2) := st in
      let z3 := next_z m n (vz x) z1 z2 in
      c <- get cs (n * (n + 1) + m) ;; c' <- get cs (n * (n + 1) + (m - 1)) ;;
      Some (dx + 2 * M * (c * fst z3), dy - 2 * M * (c * snd z3), dz + fac * sqrt ((INR n + M) * (INR n - M + 1)) * (c' * fst z3), z2, z3))
      (dx, dy, dz, z1_start, z2) ;;
    let '(dx, dy, dz, _, _) := st in
    Some ((dx, dy, dz), next_start m x z1_start)) ((0, 0, 0), (sqrt (0.375 / PI), 0)) ;;
  let '(dr, z1) := st in let '(dx, dy, dz) := dr in let D := INR deg in
  c1 <- get cs ((deg - 1) * (deg + 1)) ;; c2 <- get cs (deg * (deg - 1) + (deg - 2)) ;; c3 <- get cs (deg * (deg - 1) - (deg - 2)) ;;
  Some (dx + (D - 1) * (2 * c1 * fst z1), dy - (D - 1) * (2 * c1 * snd z1), dz + 2 * sqrt (2 * (D - 1)) * (c2 * fst z1 + c3 * snd z1)).

(** evaluate_dsolid_sphericals, 302-379; r_n3 is not initialised before the loop.  m - 3 is unsigned and becomes the negative
    exponent of pow_int for m = 1, 2 *)
Definition evaluate_dsolid_sphericals (x : vec3) (cs : list R) (deg : nat) : option vec3 :=
  y <- normalized x ;;
  let norm := vnorm x in
  if (deg =? 0)%nat then None else if (deg =? 1)%nat then Some (0, 0, 0) else
  st <- for_opt (deg - 2) (fun i st =>
    let m := S i in let '(dr, z1_start, _) := st in let '(dx, dy, dz) := dr in let M := INR m in
    let r_n3 := pow_int norm (Z.of_nat m - 3) in
    let z2 := csmul (sqrt (2 * M + 3) * vz y) z1_start in
    c1 <- get cs (m * (m + 1) + m) ;; c2 <- get cs ((m + 1) * (m + 2) + m) ;;
    let dx := dx + 2 * M * r_n3 * (c1 * fst z1_start) + 2 * M * r_n3 * norm * (c2 * fst z2) in
    let dy := dy - 2 * M * r_n3 * (c1 * snd z1_start) - 2 * M * r_n3 * norm * (c2 * snd z2) in
    let fac := if (m =? 1)%nat then 1 else 2 in
    c3 <- get cs (m * (m + 1) + (m - 1)) ;; c4 <- get cs ((m + 1) * (m + 2) + (m - 1)) ;;
    dz <- (if (m =? 1)%nat then
        c5 <- get cs (m * (m + 1) - (m - 1)) ;; c6 <- get cs ((m + 1) * (m + 2) - (m - 1)) ;;
        Some (dz + fac * r_n3 * sqrt (2 * M) * (c3 * fst z1_start + c5 * snd z1_start) + fac * r_n3 * norm * sqrt (4 * M + 2) * (c4 * fst z2 + c6 * snd z2))
      else Some (dz + fac * r_n3 * sqrt (2 * M) * (c3 * fst z1_start) + fac * r_n3 * norm * sqrt (4 * M + 2) * (c4 * fst z2))) ;;
    let r_n3 := r_n3 * norm in
    st <- for_opt (deg - (m + 2)) (fun k st =>
      let n := (m + 2 + k)%nat in let '(dx, dy, dz, z1, z2, r_n3) := st in
      let r_n3 := r_n3 * norm in
      let z3 := next_z m n (vz y) z1 z2 in
      c <- get cs (n * (n + 1) + m) ;; c' <- get cs (n * (n + 1) + (m - 1)) ;;
      Some (dx + 2 * M * r_n3 * (c * fst z3), dy - 2 * M * r_n3 * (c * snd z3), dz + fac * r_n3 * sqrt ((INR n + M) * (INR n - M + 1)) * (c' * fst z3), z2, z3, r_n3))
      (dx, dy, dz, z1_start, z2, r_n3) ;;
    let '(dx, dy, dz, _, _, r_n3) := st in
    Some ((dx, dy, dz), next_start m y z1_start, Some r_n3)) ((0, 0, 0), (sqrt (0.375 / PI), 0), None) ;;
  let '(dr, z1, r_n3) := st in let '(dx, dy, dz) := dr in let D := INR deg in
  r_n3 <- r_n3 ;;
  let r_n3 := r_n3 * norm in
  c1 <- get cs ((deg - 1) * (deg + 1)) ;; c2 <- get cs (deg * (deg - 1) + (deg - 2)) ;; c3 <- get cs (deg * (deg - 1) - (deg - 2)) ;;
  Some (dx + (D - 1) * r_n3 * (2 * c1 * fst z1), dy - (D - 1) * r_n3 * (2 * c1 * snd z1), dz + 2 * r_n3 * sqrt (2 * (D - 1)) * (c2 * fst z1 + c3 * snd z1)).

(** ** HomogenisedLaplace/Coefficients.hpp *)
(** the loops over i, j, k = -1, 0, 1 of 291-298 and 318-325, in this order *)
Definition shifts : list vec3 := flat_map (fun i => flat_map (fun j => map (fun k => (i, j, k)) [-1; 0; 1]) [-1; 0; 1]) [-1; 0; 1].
(** k_mod, 286-306; [None]: division by zero *)
Definition k_mod (x : vec3) : option R :=
  r <- fold_left (fun r m => r <- r ;; if Req_EM_T (vnorm (vsub x m)) 0 then None else Some (r + 1 / vnorm (vsub x m))) shifts (Some 0) ;;
  Some (r / (4 * PI) + vdot x x / 6).
(** Dk_mod, 312-337 *)
Definition Dk_mod (x : vec3) : option vec3 :=
  r <- fold_left (fun r m => r <- r ;; let s := vsub x m in let snorm := vnorm s in
    if Req_EM_T snorm 0 then None else Some (vsub r (vscal (1 / (snorm * snorm * snorm)) s))) shifts (Some (0, 0, 0)) ;;
  Some (vadd (vscal (1 / (4 * PI)) r) (vscal (1 / 3) x)).
(** getDegree, 221-229 *)
Definition getDegree (precision : R) : nat :=
  if Rlt_dec (1 / 10000) precision then 4 else if Rlt_dec (1 / 1000000) precision then 8 else 12.
(** evaluateKernel, SingleLayerOperator.hpp 124-128 and SingleLayerPotential.hpp 87-91 *)
Definition homogenised_kernel (cs : list R) (deg : nat) (x y : vec3) : option R :=
  a <- k_mod (vsub x y) ;; b <- evaluate_solid_sphericals (vsub x y) cs deg false ;; Some (a + b).
