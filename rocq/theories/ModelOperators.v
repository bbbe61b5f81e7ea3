(** Model of the kernels, the integrands (evaluateIntegrand_impl) and the far-field interpolation matrices
    (evaluateFMMInterpolation_impl) of the linear operators in Bembel/src/Laplace, Helmholtz, Maxwell, Identity and
    LaplaceBeltrami, of the basis interactions of AnsatzSpace/SuperSpace.hpp 170-300 they call, and of the kernels of
    the potentials.  double is R, std::complex<double> is Coquelicot's complex numbers, BEMBEL_PI is PI. *)
From Coq Require Import Reals Arith List Qreals.
From Coquelicot Require Import Complex.
From Verif Require Import ModelBase ModelBernstein ModelTree ModelBall ModelInterp ModelH2Init ModelDuffy.
Import ListNotations.
Local Open Scope R_scope.

(** ** Eigen vectors of length 3 *)
Definition vcross (a b : vec3) : vec3 :=
  (vy a * vz b - vz a * vy b, vz a * vx b - vx a * vz b, vx a * vy b - vy a * vx b).
(** Eigen's normalized(): the zero vector is returned unchanged *)
Definition vnormalized (a : vec3) : vec3 :=
  if Rlt_dec 0 (vdot a a) then (vx a / vnorm a, vy a / vnorm a, vz a / vnorm a) else a.

(** ** SurfacePoint, Geometry/SurfacePoint.hpp 17-42 and Geometry/Patch.hpp 289-362: a vector of length 12 with the reference coordinates
    segment<2>(0), the weight (2), the point segment<3>(3) and the two tangential derivatives segment<3>(6), segment<3>(9) *)
Record spoint := mkSP { p_s : R * R; p_w : R; p_f : vec3; p_dx : vec3; p_dy : vec3 }.
Definition of_vector (v : list R) : option spoint :=
  match v with
  | [s; t; w; f0; f1; f2; x0; x1; x2; y0; y1; y2] => Some (mkSP (s, t) w (f0, f1, f2) (x0, x1, x2) (y0, y1, y2))
  | _ => None
  end.
(** f_dx.cross(f_dy) and its norm *)
Definition p_n (p : spoint) : vec3 := vcross (p_dx p) (p_dy p).
Definition p_kappa (p : spoint) : R := vnorm (p_n p).

(** ** SuperSpace: degree, refinement level; the arrays are the uninitialised memory of the basis evaluation *)
Record sspace := mkSS { ss_p : nat; ss_M : nat; ss_j1 : arr; ss_j2 : arr; ss_ja : arr; ss_jb : arr }.
Definition ss_n2 (ss : sspace) : nat := ((ss_p ss + 1) * (ss_p ss + 1))%nat.
(** h = 1. / (1 << get_refinement_level()) *)
Definition ss_h (ss : sspace) : R := 1 / 2 ^ ss_M ss.

(** SuperSpace.hpp 173-179 *)
Definition addScaledBasisInteraction (ss : sspace) (w : R) (s t : R * R) (intval : mat) : mat :=
  Phi_times_Phi (ss_j1 ss) (ss_j2 ss) (ss_ja ss) (ss_jb ss) (ss_p ss) intval w (fst s) (snd s) (fst t) (snd t).
(** 183-191 *)
Definition basisInteraction (ss : sspace) (s t : R * R) : mat :=
  addScaledBasisInteraction ss 1 s t (fun _ _ => 0).
(** basisDx, basisDy: 330-337, 351-358 *)
Definition basisDx (ss : sspace) (s : R * R) : arr := phiphi_dx (ss_j1 ss) (ss_j2 ss) (ss_p ss) zero_arr 1 (fst s) (snd s).
Definition basisDy (ss : sspace) (s : R * R) : arr := phiphi_dy (ss_j1 ss) (ss_j2 ss) (ss_p ss) zero_arr 1 (fst s) (snd s).
(** 196-217: column i of s_curl *)
Definition surface_curl (ss : sspace) (p : spoint) (i : nat) : vec3 :=
  vscal (1 / p_kappa p) (vadd (vscal (basisDy ss (p_s p) i) (vscal (-1) (p_dx p))) (vscal (basisDx ss (p_s p) i) (p_dy p))).
(** the linear index j * n2 + i of the column-major matrix with n2 rows is the entry (i, j) *)
Definition addScaledSurfaceCurlInteraction (ss : sspace) (w : R) (p1 p2 : spoint) (intval : mat) : mat :=
  let n2 := ss_n2 ss in
  for_loop n2 (fun j m => for_loop n2 (fun i m =>
    let l := (j * n2 + i)%nat in
    updm m (l mod n2)%nat (l / n2)%nat (m (l mod n2)%nat (l / n2)%nat + w * vdot (surface_curl ss p1 i) (surface_curl ss p2 j))) m) intval.
(** 223-229 *)
Definition addScaledSurfaceGradientInteraction (ss : sspace) (w : R) (p1 p2 : spoint) (intval : mat) : mat :=
  addScaledSurfaceCurlInteraction ss w p1 p2 intval.
(** 236-258: intval->block(r, c, n2, n2) += v * B *)
Definition block_add (n2 r c : nat) (v : R) (B : mat) (m : mat) : mat :=
  for_loop n2 (fun i m => for_loop n2 (fun j m => updm m (r + i)%nat (c + j)%nat (m (r + i)%nat (c + j)%nat + v * B i j)) m) m.
Definition addScaledVectorBasisInteraction (ss : sspace) (w : R) (s t : R * R) (xdx xdy ydx ydy : vec3) (intval : mat) : mat :=
  let n2 := ss_n2 ss in
  let B := basisInteraction ss s t in
  let m := block_add n2 0 0 (w * vdot xdx ydx) B intval in
  let m := block_add n2 0 n2 (w * vdot xdx ydy) B m in
  let m := block_add n2 n2 0 (w * vdot xdy ydx) B m in
  block_add n2 n2 n2 (w * vdot xdy ydy) B m.
(** 279-283 *)
Definition addScaledVectorBasisDivergenceInteraction (ss : sspace) (w : R) (s t : R * R) (intval : mat) : mat :=
  Div_Phi_times_Div_Phi (ss_j1 ss) (ss_j2 ss) (ss_p ss) intval w (fst s) (snd s) (fst t) (snd t).

(** The same templates for Scalar = std::complex<double>: all basis values (and curls) have imaginary part zero, so that
    in exact arithmetic the real and the imaginary part of the matrix are updated independently with the real and the
    imaginary part of the factor.  (dot conjugates its first argument, which is real.) *)
Definition cmat := nat -> nat -> Complex.C.
Definition on_parts (f : R -> mat -> mat) (w : Complex.C) (m : cmat) : cmat :=
  fun i j => (f (fst w) (fun i j => fst (m i j)) i j, f (snd w) (fun i j => snd (m i j)) i j).

(** ** Kernels *)
(** Laplace/SingleLayerOperator.hpp 115-118 (the same function in HypersingularOperator.hpp 114-117 and
    SingleLayerPotential.hpp 77-80) *)
Definition laplace_kernel (x y : vec3) : R := 1 / 4 / PI / vnorm (vsub x y).
(** Laplace/DoubleLayerOperator.hpp 114-120 *)
Definition laplace_dl_kernel (x y y_n : vec3) : R :=
  let c := vsub x y in let r := vnorm c in let r3 := r * r * r in
  vdot c y_n / 4 / PI / r3.
(** Laplace/AdjointDoubleLayerOperator.hpp 112-119 *)
Definition laplace_adl_kernel (x x_n y : vec3) : R :=
  let c := vsub x y in let r := vnorm c in let r3 := r * r * r in
  vdot (vscal (-1) c) x_n / 4 / PI / r3.
(** Laplace/SingleLayerPotentialGradient.hpp 73-79 *)
Definition laplace_gradient (x y : vec3) : vec3 :=
  let c := vsub x y in let r := vnorm c in let r3 := r * r * r in
  (- vx c / r3 / 4 / PI, - vy c / r3 / 4 / PI, - vz c / r3 / 4 / PI).
(** Laplace/DoubleLayerPotential.hpp 71-77 *)
Definition laplace_dl_gradient (x y : vec3) : vec3 :=
  let c := vsub x y in let r := vnorm c in let r3 := r * r * r in
  (vx c / 4 / PI / r3, vy c / 4 / PI / r3, vz c / 4 / PI / r3).
(** std::exp of a complex number *)
Definition cexp (z : Complex.C) : Complex.C := (exp (fst z) * cos (snd z), exp (fst z) * sin (snd z)).
(** Helmholtz/SingleLayerOperator.hpp 115-120 (the same function in HypersingularOperator.hpp 125-130,
    SingleLayerPotential.hpp 78-83, Maxwell/SingleLayerOperator.hpp 125-130, Maxwell/SingleLayerPotential.hpp 81-86) *)
Definition helmholtz_kernel (k : Complex.C) (x y : vec3) : Complex.C :=
  let r := vnorm (vsub x y) in
  (cexp (- Ci * k * RtoC r) / RtoC 4 / RtoC PI / RtoC r)%C.
(** Helmholtz/DoubleLayerOperator.hpp 112-121, DoubleLayerPotential.hpp 71-80 *)
Definition helmholtz_dl_kernel (k : Complex.C) (x y y_n : vec3) : Complex.C :=
  let c := vsub x y in let r := vnorm c in let r3 := r * r * r in
  (RtoC (vdot c y_n) * cexp (- Ci * k * RtoC r) * (RtoC 1 + Ci * k * RtoC r) / RtoC 4 / RtoC PI / RtoC r3)%C.
(** Helmholtz/AdjointDoubleLayerOperator.hpp 112-121 *)
Definition helmholtz_adl_kernel (k : Complex.C) (x x_n y : vec3) : Complex.C :=
  let c := vsub x y in let r := vnorm c in let r3 := r * r * r in
  (RtoC (vdot (vscal (-1) c) x_n) * cexp (- Ci * k * RtoC r) * (RtoC 1 + Ci * k * RtoC r) / RtoC 4 / RtoC PI / RtoC r3)%C.
(** Maxwell/SingleLayerPotential.hpp 90-99 *)
Definition maxwell_gradient (k : Complex.C) (x y : vec3) : Complex.C * Complex.C * Complex.C :=
  let c := vsub x y in let r := vnorm c in let r3 := r * r * r in
  let a := (cexp (- Ci * k * RtoC r) * (- RtoC 1 - Ci * k * RtoC r) / RtoC 4 / RtoC PI / RtoC r3)%C in
  ((a * RtoC (vx c))%C, (a * RtoC (vy c))%C, (a * RtoC (vz c))%C).

(** ** Integrands of the boundary integral operators.  The argument intval is the matrix the contribution is added to. *)
(** Laplace/SingleLayerOperator.hpp 45-85 *)
Definition laplace_sl_integrand (ss : sspace) (p1 p2 : spoint) : mat -> mat :=
  addScaledBasisInteraction ss (laplace_kernel (p_f p1) (p_f p2) * p_kappa p1 * p_kappa p2 * p_w p1 * p_w p2) (p_s p1) (p_s p2).
(** Laplace/DoubleLayerOperator.hpp 41-83 *)
Definition laplace_dl_integrand (ss : sspace) (p1 p2 : spoint) : mat -> mat :=
  let y_n := vnormalized (p_n p2) in
  addScaledBasisInteraction ss (laplace_dl_kernel (p_f p1) (p_f p2) y_n * p_kappa p2 * p_kappa p1 * p_w p1 * p_w p2) (p_s p1) (p_s p2).
(** Laplace/AdjointDoubleLayerOperator.hpp 41-81 *)
Definition laplace_adl_integrand (ss : sspace) (p1 p2 : spoint) : mat -> mat :=
  addScaledBasisInteraction ss (laplace_adl_kernel (p_f p1) (p_n p1) (p_f p2) * p_kappa p2 * p_w p1 * p_w p2) (p_s p1) (p_s p2).
(** Laplace/HypersingularOperator.hpp 40-81 *)
Definition laplace_hs_integrand (ss : sspace) (p1 p2 : spoint) : mat -> mat :=
  let h := ss_h ss in
  addScaledSurfaceCurlInteraction ss (laplace_kernel (p_f p1) (p_f p2) * p_kappa p1 * p_kappa p2 * p_w p1 * p_w p2 / h / h) p1 p2.
(** Helmholtz/SingleLayerOperator.hpp 45-85 *)
Definition helmholtz_sl_integrand (k : Complex.C) (ss : sspace) (p1 p2 : spoint) : cmat -> cmat :=
  on_parts (fun w => addScaledBasisInteraction ss w (p_s p1) (p_s p2))
    (helmholtz_kernel k (p_f p1) (p_f p2) * RtoC (p_kappa p1) * RtoC (p_kappa p2) * RtoC (p_w p1) * RtoC (p_w p2))%C.
(** Helmholtz/DoubleLayerOperator.hpp 41-81: y_n is not normalised *)
Definition helmholtz_dl_integrand (k : Complex.C) (ss : sspace) (p1 p2 : spoint) : cmat -> cmat :=
  on_parts (fun w => addScaledBasisInteraction ss w (p_s p1) (p_s p2))
    (helmholtz_dl_kernel k (p_f p1) (p_f p2) (p_n p2) * RtoC (p_kappa p1) * RtoC (p_w p1) * RtoC (p_w p2))%C.
(** Helmholtz/AdjointDoubleLayerOperator.hpp 41-81 *)
Definition helmholtz_adl_integrand (k : Complex.C) (ss : sspace) (p1 p2 : spoint) : cmat -> cmat :=
  on_parts (fun w => addScaledBasisInteraction ss w (p_s p1) (p_s p2))
    (helmholtz_adl_kernel k (p_f p1) (p_n p1) (p_f p2) * RtoC (p_kappa p2) * RtoC (p_w p1) * RtoC (p_w p2))%C.
(** Helmholtz/HypersingularOperator.hpp 41-87; wavenumber2_ is the square of the wave number (134-137) *)
Definition helmholtz_hs_integrand (k : Complex.C) (ss : sspace) (p1 p2 : spoint) (intval : cmat) : cmat :=
  let h := ss_h ss in
  let kernel := helmholtz_kernel k (p_f p1) (p_f p2) in
  let integrandScalar := (- kernel * RtoC (vdot (p_n p1) (p_n p2)) * (k * k) * RtoC (p_w p1) * RtoC (p_w p2))%C in
  let integrandCurl := (kernel * RtoC (p_kappa p1) * RtoC (p_kappa p2) * RtoC (p_w p1) * RtoC (p_w p2) / RtoC h / RtoC h)%C in
  let m := on_parts (fun w => addScaledBasisInteraction ss w (p_s p1) (p_s p2)) integrandScalar intval in
  on_parts (fun w => addScaledSurfaceCurlInteraction ss w p1 p2) integrandCurl m.
(** Maxwell/SingleLayerOperator.hpp 45-88 *)
Definition maxwell_sl_integrand (k : Complex.C) (ss : sspace) (p1 p2 : spoint) (intval : cmat) : cmat :=
  let h := ss_h ss in
  let kernel_evaluation := (helmholtz_kernel k (p_f p1) (p_f p2) * RtoC (p_w p1) * RtoC (p_w p2))%C in
  let integrand_divergence := (- kernel_evaluation / (k * k) / RtoC h / RtoC h)%C in
  let m := on_parts (fun w => addScaledVectorBasisInteraction ss w (p_s p1) (p_s p2) (p_dx p1) (p_dy p1) (p_dx p2) (p_dy p2))
             kernel_evaluation intval in
  on_parts (fun w => addScaledVectorBasisDivergenceInteraction ss w (p_s p1) (p_s p2)) integrand_divergence m.

(** ** Far-field interpolation: evaluateFMMInterpolation_impl *)
(** Laplace/SingleLayerOperator.hpp 87-110 *)
Definition laplace_sl_fmm (p1 p2 : spoint) : mat := fun _ _ => laplace_kernel (p_f p1) (p_f p2) * p_kappa p1 * p_kappa p2.
(** Laplace/DoubleLayerOperator.hpp 85-109 *)
Definition laplace_dl_fmm (p1 p2 : spoint) : mat := fun _ _ => laplace_dl_kernel (p_f p1) (p_f p2) (p_n p2) * p_kappa p1.
(** Laplace/AdjointDoubleLayerOperator.hpp 83-107 *)
Definition laplace_adl_fmm (p1 p2 : spoint) : mat := fun _ _ => laplace_adl_kernel (p_f p1) (p_n p1) (p_f p2) * p_kappa p2.
(** Laplace/HypersingularOperator.hpp 83-109 *)
Definition laplace_hs_fmm (p1 p2 : spoint) : mat :=
  let kernel := laplace_kernel (p_f p1) (p_f p2) in
  let intval : mat := fun _ _ => 0 in
  let intval := updm intval 0 0 (kernel * vdot (p_dy p1) (p_dy p2)) in
  let intval := updm intval 0 1 (- kernel * vdot (p_dy p1) (p_dx p2)) in
  let intval := updm intval 1 0 (- kernel * vdot (p_dx p1) (p_dy p2)) in
  updm intval 1 1 (kernel * vdot (p_dx p1) (p_dx p2)).
(** entry of a complex matrix *)
Definition updc (c : cmat) (i j : nat) (v : Complex.C) : cmat :=
  fun k l => if (Nat.eqb k i && Nat.eqb l j)%bool then v else c k l.
(** Helmholtz/SingleLayerOperator.hpp 87-110 *)
Definition helmholtz_sl_fmm (k : Complex.C) (p1 p2 : spoint) : cmat :=
  fun _ _ => (helmholtz_kernel k (p_f p1) (p_f p2) * RtoC (p_kappa p1) * RtoC (p_kappa p2))%C.
(** Helmholtz/DoubleLayerOperator.hpp 83-107 *)
Definition helmholtz_dl_fmm (k : Complex.C) (p1 p2 : spoint) : cmat :=
  fun _ _ => (helmholtz_dl_kernel k (p_f p1) (p_f p2) (p_n p2) * RtoC (p_kappa p1))%C.
(** Helmholtz/AdjointDoubleLayerOperator.hpp 83-107 *)
Definition helmholtz_adl_fmm (k : Complex.C) (p1 p2 : spoint) : cmat :=
  fun _ _ => (helmholtz_adl_kernel k (p_f p1) (p_n p1) (p_f p2) * RtoC (p_kappa p2))%C.
(** Helmholtz/HypersingularOperator.hpp 89-120 *)
Definition helmholtz_hs_fmm (k : Complex.C) (p1 p2 : spoint) : cmat :=
  let kernel := helmholtz_kernel k (p_f p1) (p_f p2) in
  let intval : cmat := fun _ _ => RtoC 0 in
  let intval := updc intval 0 0 (- kernel * (k * k) * RtoC (vdot (p_n p1) (p_n p2)))%C in
  let intval := updc intval 1 1 (kernel * RtoC (vdot (p_dy p1) (p_dy p2)))%C in
  let intval := updc intval 1 2 (- kernel * RtoC (vdot (p_dy p1) (p_dx p2)))%C in
  let intval := updc intval 2 1 (- kernel * RtoC (vdot (p_dx p1) (p_dy p2)))%C in
  updc intval 2 2 (kernel * RtoC (vdot (p_dx p1) (p_dx p2)))%C.
(** Maxwell/SingleLayerOperator.hpp 90-120 *)
Definition maxwell_sl_fmm (k : Complex.C) (p1 p2 : spoint) : cmat :=
  let kernel := helmholtz_kernel k (p_f p1) (p_f p2) in
  let intval : cmat := fun _ _ => RtoC 0 in
  let intval := updc intval 0 0 (kernel * RtoC (vdot (p_dx p1) (p_dx p2)))%C in
  let intval := updc intval 0 2 (kernel * RtoC (vdot (p_dx p1) (p_dy p2)))%C in
  let intval := updc intval 2 0 (kernel * RtoC (vdot (p_dy p1) (p_dx p2)))%C in
  let intval := updc intval 2 2 (kernel * RtoC (vdot (p_dy p1) (p_dy p2)))%C in
  let intval := updc intval 1 1 (- kernel / (k * k))%C in
  let intval := updc intval 1 3 (- kernel / (k * k))%C in
  let intval := updc intval 3 1 (- kernel / (k * k))%C in
  updc intval 3 3 (- kernel / (k * k))%C.

(** ** Local operators *)
(** Identity/IdentityOperatorBase.hpp 28-51; the second point is not used *)
Definition identity_integrand (ss : sspace) (p1 p2 : spoint) : mat -> mat :=
  addScaledBasisInteraction ss (p_kappa p1 * p_w p1) (p_s p1) (p_s p1).
(** LaplaceBeltrami/LaplaceBeltramiOperatorBase.hpp 26-43 *)
Definition laplace_beltrami_integrand (ss : sspace) (p1 p2 : spoint) : mat -> mat :=
  let h := ss_h ss in addScaledSurfaceGradientInteraction ss (p_kappa p1 * p_w p1 / (h * h)) p1 p2.

(** ** What the assembly and the H2 matrix use of an operator: the vector dimension of its space (DifferentialFormTraits),
    NumberOfFMMComponents, the two functions above, and the one-dimensional moments of each component of Moment2D (true: derivative) *)
Record operator (M : Type) := mkOperator { op_vd : nat; op_nF : nat; op_integrand : sspace -> spoint -> spoint -> M -> M;
  op_fmm : spoint -> spoint -> M; op_kinds : nat -> nat -> bool * bool }.
Arguments op_vd {M}. Arguments op_nF {M}. Arguments op_integrand {M}. Arguments op_fmm {M}. Arguments op_kinds {M}.
(** H2Multipole.hpp 299-317 *)
Definition plain_kinds (c f : nat) : bool * bool := (false, false).
(** Laplace/HypersingularOperator.hpp 125-149: moment_dx above moment_dy *)
Definition curl_kinds (c f : nat) : bool * bool := match f with O => (true, false) | _ => (false, true) end.
(** Helmholtz/HypersingularOperator.hpp 152-182: moment, moment_dx, moment_dy *)
Definition hs_kinds (c f : nat) : bool * bool := match f with O => (false, false) | 1%nat => (true, false) | _ => (false, true) end.
(** Maxwell/SingleLayerOperator.hpp 150-182: component 0: moment, moment_dx; component 1: moment, moment_dy *)
Definition maxwell_kinds (c f : nat) : bool * bool :=
  match f with O => (false, false) | _ => match c with O => (true, false) | _ => (false, true) end end.
Definition laplace_sl := mkOperator mat 1 1 laplace_sl_integrand laplace_sl_fmm plain_kinds.
Definition laplace_dl := mkOperator mat 1 1 laplace_dl_integrand laplace_dl_fmm plain_kinds.
Definition laplace_adl := mkOperator mat 1 1 laplace_adl_integrand laplace_adl_fmm plain_kinds.
Definition laplace_hs := mkOperator mat 1 2 laplace_hs_integrand laplace_hs_fmm curl_kinds.
Definition helmholtz_sl k := mkOperator cmat 1 1 (helmholtz_sl_integrand k) (helmholtz_sl_fmm k) plain_kinds.
Definition helmholtz_dl k := mkOperator cmat 1 1 (helmholtz_dl_integrand k) (helmholtz_dl_fmm k) plain_kinds.
Definition helmholtz_adl k := mkOperator cmat 1 1 (helmholtz_adl_integrand k) (helmholtz_adl_fmm k) plain_kinds.
Definition helmholtz_hs k := mkOperator cmat 1 3 (helmholtz_hs_integrand k) (helmholtz_hs_fmm k) hs_kinds.
Definition maxwell_sl k := mkOperator cmat 2 2 (maxwell_sl_integrand k) (maxwell_sl_fmm k) maxwell_kinds.

(** The surface points of an element or a cluster, AnsatzSpace/SuperSpace.hpp 163-168: updateSurfacePoint (Patch.hpp 289-362) for
    the parameter llc + h xi of its patch; X is the map computed by the patches: point and both derivatives *)
Definition surface := nat -> R * R -> vec3 * vec3 * vec3.
Definition surf_point (X : surface) (n : node) (xi : R * R) (w : R) : spoint :=
  let st := (Q2R (fst (n_llc n)) + Q2R (get_h n) * fst xi, Q2R (snd (n_llc n)) + Q2R (get_h n) * snd xi) in
  let v := X (n_patch n) st in mkSP xi w (fst (fst v)) (snd (fst v)) (snd v).
Definition zero_matrix : mat := fun _ _ => 0.
Definition zero_cmatrix : cmat := fun _ _ => RtoC 0.
(** the function of two points in the quadrature routines of DuffyTrick (ModelDuffy.kern) for an operator *)
Definition op_kern (op : operator mat) (ss : sspace) (X : surface) : kern :=
  fun e1 s e2 t a b => op_integrand op ss (surf_point X (e_node e1) s 1) (surf_point X (e_node e2) t 1) zero_matrix a b.
(** what H2Matrix uses of an operator (ModelH2Init.linop); form: the matrices of evaluateBilinearForm *)
Definition kind_of (b : bool) : moment_kind := if b then Deriv else Plain.
Definition op_linop (op : operator mat) (ss : sspace) (X : surface) (form : node -> node -> mat) : linop :=
  mkOp (op_vd op) (op_nF op) (ss_p ss) form (fun c1 s c2 t => op_fmm op (surf_point X c1 s 0) (surf_point X c2 t 0))
    (fun c f => (kind_of (fst (op_kinds op c f)), kind_of (snd (op_kinds op c f)))).
(** the real or the imaginary part of an operator with complex values; all moments and shape functions are real *)
Definition part_of (pr : Complex.C -> R) (op : operator cmat) : operator mat :=
  mkOperator mat (op_vd op) (op_nF op) (fun ss p1 p2 m i j => m i j + pr (op_integrand op ss p1 p2 zero_cmatrix i j))
    (fun p1 p2 i j => pr (op_fmm op p1 p2 i j)) (op_kinds op).
