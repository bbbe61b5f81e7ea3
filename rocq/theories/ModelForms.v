(** Model of the discrete functions, linear forms, local operators and potentials: AnsatzSpace/FunctionEvaluator.hpp,
    AnsatzSpace/FunctionEvaluatorEval.hpp, LinearForm/*.hpp, LinearOperator/DiscreteLocalOperator.hpp, the integrands
    of the potentials in Laplace/.  Scalars are real numbers. *)
From Coq Require Import Reals Arith Bool List QArith Qreals.
From Coquelicot Require Import Complex.
From Verif Require Import ModelBase RSum ModelBernstein ModelTree ModelBall ModelQuad ModelAssembly ModelDuffy ModelUtil ModelOperators.
Import ListNotations.
Local Close Scope Q_scope.
Local Open Scope R_scope.

(** ** products with the transformation matrix of the ansatz space (D rows, nd columns) *)
Definition transform (nd : nat) (T : mat) (v : arr) : arr := fun r => rsum (fun c => T r c * v c) nd.
Definition transform_t (D : nat) (T : mat) (u : arr) : arr := fun c => rsum (fun r => T r c * u r) D.

(** ** FunctionEvaluator *)
(** set_function, FunctionEvaluator.hpp 131-142: the long vector is read as a column-major matrix with vd columns;
    the result is the list of its rows *)
Definition set_function (vd D nd : nat) (T : mat) (v : arr) : list arr :=
  let longfun := transform nd T v in
  let rows := (D / vd)%nat in map (fun r c => longfun (c * rows + r)%nat) (seq 0 rows).
(** SuperSpace::basis, SuperSpace.hpp 310-317 *)
Definition basis (ss : sspace) (s : R * R) : arr := phiphi (ss_j1 ss) (ss_j2 ss) (ss_p ss) zero_arr 1 (fst s) (snd s).
(** coeff(i, c) *)
Definition coef (rows : list arr) (i c : nat) : R := nth i rows zero_arr c.
Definition n_h (e : node) : R := Q2R (get_h e).
(** FunctionEvaluatorEval.hpp 21-37 and 85-100 (Continuous and Discontinuous) *)
Definition eval_scalar (ss : sspace) (e : node) (p : spoint) (coeff : list arr) : R :=
  rsum (fun i => coef coeff i 0 * basis ss (p_s p) i) (ss_n2 ss) / n_h e.
(** 41-63 (DivConforming) *)
Definition eval_vector (ss : sspace) (e : node) (p : spoint) (coeff : list arr) : vec3 :=
  let t c := rsum (fun i => coef coeff i c * basis ss (p_s p) i) (ss_n2 ss) in
  vscal (1 / n_h e) (vadd (vscal (t 0%nat) (p_dx p)) (vscal (t 1%nat) (p_dy p))).
(** 65-82 *)
Definition eval_div (ss : sspace) (e : node) (p : spoint) (coeff : list arr) : R :=
  (rsum (fun i => basisDx ss (p_s p) i * coef coeff i 0) (ss_n2 ss) + rsum (fun i => basisDy ss (p_s p) i * coef coeff i 1) (ss_n2 ss)) / n_h e / n_h e.
(** FunctionEvaluator::evaluate and evaluateDiv with these; the patch is not used *)
Definition evaluate_scalar (ss : sspace) (E : evaluator surface arr) (e : node) (p : spoint) : option R :=
  evaluate (fun _ _ _ => eval_scalar ss) E (n_patch e) e p.
Definition evaluate_vector (ss : sspace) (E : evaluator surface arr) (e : node) (p : spoint) : option vec3 :=
  evaluate (fun _ _ _ => eval_vector ss) E (n_patch e) e p.
Definition evaluate_div (ss : sspace) (E : evaluator surface arr) (e : node) (p : spoint) : option R :=
  evaluate (fun _ _ _ => eval_div ss) E (n_patch e) e p.
(** FunctionEvaluator.hpp 82-105: the surface point on the patch is that of the local point of the element *)
Definition scalar_on_patch (ss : sspace) (E : evaluator surface arr) (patch : nat) (x y : Q) : option R :=
  evaluateOnPatch (fun sp _ patch e uv c =>
    eval_scalar ss e (let v := snd sp patch (Q2R x, Q2R y) in mkSP (Q2R (fst uv), Q2R (snd uv)) 1 (fst (fst v)) (snd (fst v)) (snd v)) c) E patch x y.

(** ** linear forms: intval has n2 rows and vd columns *)
(** SuperSpace::addScaledBasis, SuperSpace.hpp 302-306, for the only column of intval *)
Definition addScaledBasis (ss : sspace) (w : R) (s : R * R) (intval : mat) : mat :=
  fun i c => if Nat.eqb c 0 then phiphi (ss_j1 ss) (ss_j2 ss) (ss_p ss) (fun i => intval i 0%nat) w (fst s) (snd s) i else intval i c.
(** LinearForm/DirichletTrace.hpp 38-67 *)
Definition dirichlet_trace (g : vec3 -> R) (ss : sspace) (p : spoint) (intval : mat) : mat :=
  addScaledBasis ss (g (p_f p) * p_kappa p * p_w p) (p_s p) intval.
(** LinearForm/NeumannTrace.hpp 40-71 *)
Definition neumann_trace (g : vec3 -> vec3) (ss : sspace) (p : spoint) (intval : mat) : mat :=
  addScaledBasis ss (vdot (p_n p) (g (p_f p)) * p_w p) (p_s p) intval.
(** the two columns component_x * phiPhiVec, component_y * phiPhiVec *)
Definition add_columns (ss : sspace) (cx cy : R) (s : R * R) (intval : mat) : mat :=
  fun i c => intval i c + match c with O => cx * basis ss s i | 1%nat => cy * basis ss s i | _ => 0 end.
(** LinearForm/TangentialTrace.hpp 38-83 *)
Definition tangential_trace (g : vec3 -> vec3) (ss : sspace) (p : spoint) (intval : mat) : mat :=
  let x_n := vnormalized (p_n p) in
  let tangential_component := vscal (p_w p) (vcross (g (p_f p)) x_n) in
  add_columns ss (vdot (p_dx p) tangential_component) (vdot (p_dy p) tangential_component) (p_s p) intval.
(** LinearForm/RotatedTangentialTrace.hpp 39-85 *)
Definition rotated_tangential_trace (g : vec3 -> vec3) (ss : sspace) (p : spoint) (intval : mat) : mat :=
  let x_n := vnormalized (p_n p) in
  let f := g (p_f p) in
  let tangential_component := vscal (p_w p) (vsub f (vscal (vdot f x_n) x_n)) in
  add_columns ss (vdot (p_dx p) tangential_component) (vdot (p_dy p) tangential_component) (p_s p) intval.
(** DiscreteLinearForm.hpp 72-77: the local vector of an element *)
Definition element_form (lf : sspace -> spoint -> mat -> mat) (ss : sspace) (X : surface) (Q : cubature) (e : node) : mat :=
  for_loop (q_size Q) (fun i m => lf ss (surf_point X e (q_xi Q i) (n_h e * q_w Q i)) m) zero_mat.
(** 78-81: disc_lf_matrix.block(n2 * id, 0, n2, vd) = intval; a block out of range is [None] *)
Definition write_block (n2 rows id : nat) (intval m : mat) : option mat :=
  _ <- assert (n2 * id + n2 <=? rows)%nat ;;
  Some (fun r c => if ((n2 * id <=? r) && (r <? n2 * id + n2))%nat then intval (r - n2 * id)%nat c else m r c).
Fixpoint form_loop (lf : sspace -> spoint -> mat -> mat) (ss : sspace) (X : surface) (Q : cubature) (rows : nat) (els : list node) (m : mat) : option mat :=
  match els with
  | [] => Some m
  | e :: r => m <- write_block (ss_n2 ss) rows (n_id e) (element_form lf ss X Q e) m ;; form_loop lf ss X Q rows r m
  end.
(** DiscreteLinearForm::compute, 44-88; N = get_number_of_elements() *)
Definition linear_form (lf : sspace -> spoint -> mat -> mat) (ss : sspace) (X : surface) (Q : cubature) (vd N : nat) (T : mat) (els : list node) : option arr :=
  let rows := (ss_n2 ss * N)%nat in
  m <- form_loop lf ss X Q rows els zero_mat ;;
  Some (transform_t (rows * vd) T (fun q => m (q mod rows)%nat (q / rows)%nat)).

(** ** local operators, LinearOperator/DiscreteLocalOperator.hpp 25-87 *)
Definition element_matrix (integrand : sspace -> spoint -> spoint -> mat -> mat) (ss : sspace) (X : surface) (Q : cubature) (e : node) : mat :=
  for_loop (q_size Q) (fun i m => let qp := surf_point X e (q_xi Q i) (q_w Q i) in integrand ss qp qp m) zero_mat.
(** 66-79 *)
Definition element_triplets (vd n2 N : nat) (e : node) (intval : mat) : list (nat * nat * R) :=
  flat_map (fun i => flat_map (fun j => flat_map (fun ii => map (fun jj =>
    ((n2 * (j * N + n_id e) + jj)%nat, (n2 * (i * N + n_id e) + ii)%nat, intval (j * n2 + jj)%nat (i * n2 + ii)%nat))
    (seq 0 n2)) (seq 0 n2)) (seq 0 vd)) (seq 0 vd).
(** Eigen's setFromTriplets adds up the values of equal positions *)
Definition from_triplets (l : list (nat * nat * R)) : mat :=
  fun r c => fold_right (fun x acc => (if ((fst (fst x) =? r) && (snd (fst x) =? c))%nat then snd x else 0) + acc) 0 l.
Definition local_operator (integrand : sspace -> spoint -> spoint -> mat -> mat) (ss : sspace) (X : surface) (Q : cubature) (vd N : nat) (T : mat) (els : list node) : mat :=
  let n2 := ss_n2 ss in
  projected (vd * n2 * N) T (from_triplets (flat_map (fun e => element_triplets vd n2 N e (element_matrix integrand ss X Q e)) els)).

(** ** potentials: evaluateIntegrand_impl for an evaluation point *)
(** Laplace/SingleLayerPotential.hpp 45-72 *)
Definition laplace_sl_potential (ss : sspace) (E : evaluator surface arr) (e : node) (x : vec3) (p : spoint) : option R :=
  v <- evaluate_scalar ss E e p ;; Some (laplace_kernel x (p_f p) * v * p_kappa p * p_w p).
(** Laplace/DoubleLayerPotential.hpp 40-65: the normal is not normalised *)
Definition laplace_dl_potential (ss : sspace) (E : evaluator surface arr) (e : node) (x : vec3) (p : spoint) : option R :=
  v <- evaluate_scalar ss E e p ;; Some (vdot (laplace_dl_gradient x (p_f p)) (p_n p) * v * p_w p).
(** Laplace/SingleLayerPotentialGradient.hpp 40-70 *)
Definition laplace_sl_gradient_potential (ss : sspace) (E : evaluator surface arr) (e : node) (x : vec3) (p : spoint) : option vec3 :=
  v <- evaluate_scalar ss E e p ;; Some (vscal (v * p_kappa p * p_w p) (laplace_gradient x (p_f p))).
(** the functions passed to DiscretePotential::evaluate (ModelAssembly.integrand); a failed access does not occur on
    the elements of the mesh (theorem C61_defined) and is given the value 0 *)
Definition value_or_zero (o : option R) : R := match o with Some v => v | None => 0 end.
Definition component3 (v : vec3) (o : nat) : R := match o with O => vx v | 1%nat => vy v | _ => vz v end.
Definition sl_integrand (ss : sspace) (X : surface) (E : evaluator surface arr) (points : nat -> vec3) : integrand :=
  fun e xi w i _ => value_or_zero (laplace_sl_potential ss E e (points i) (surf_point X e xi w)).
Definition dl_integrand (ss : sspace) (X : surface) (E : evaluator surface arr) (points : nat -> vec3) : integrand :=
  fun e xi w i _ => value_or_zero (laplace_dl_potential ss E e (points i) (surf_point X e xi w)).
Definition sl_gradient_integrand (ss : sspace) (X : surface) (E : evaluator surface arr) (points : nat -> vec3) : integrand :=
  fun e xi w i o => match laplace_sl_gradient_potential ss E e (points i) (surf_point X e xi w) with Some v => component3 v o | None => 0 end.

(** The same for functions with complex coefficients.  The basis functions and the transformation matrix are real, so that in exact
    arithmetic the real and the imaginary part of a value belong to the real and the imaginary parts of the coefficients: Er, Ei. *)
Definition cevaluate_scalar (ss : sspace) (Er Ei : evaluator surface arr) (e : node) (p : spoint) : option Complex.C :=
  a <- evaluate_scalar ss Er e p ;; b <- evaluate_scalar ss Ei e p ;; Some (a, b).
Definition cvec3 := (Complex.C * Complex.C * Complex.C)%type.
Definition cevaluate_vector (ss : sspace) (Er Ei : evaluator surface arr) (e : node) (p : spoint) : option cvec3 :=
  a <- evaluate_vector ss Er e p ;; b <- evaluate_vector ss Ei e p ;; Some ((vx a, vx b), (vy a, vy b), (vz a, vz b)).
Definition cevaluate_div (ss : sspace) (Er Ei : evaluator surface arr) (e : node) (p : spoint) : option Complex.C :=
  a <- evaluate_div ss Er e p ;; b <- evaluate_div ss Ei e p ;; Some (a, b).
(** Helmholtz/SingleLayerPotential.hpp 40-73 *)
Definition helmholtz_sl_potential (k : Complex.C) (ss : sspace) (Er Ei : evaluator surface arr) (e : node) (x : vec3) (p : spoint) : option Complex.C :=
  v <- cevaluate_scalar ss Er Ei e p ;; Some (helmholtz_kernel k x (p_f p) * v * RtoC (p_kappa p) * RtoC (p_w p))%C.
(** Helmholtz/DoubleLayerPotential.hpp 36-66 *)
Definition helmholtz_dl_potential (k : Complex.C) (ss : sspace) (Er Ei : evaluator surface arr) (e : node) (x : vec3) (p : spoint) : option Complex.C :=
  v <- cevaluate_scalar ss Er Ei e p ;; Some (helmholtz_dl_kernel k x (p_f p) (p_n p) * v * RtoC (p_w p))%C.
(** Maxwell/SingleLayerPotential.hpp 39-76; wavenumber2_ is the square of the wave number *)
Definition maxwell_sl_potential (k : Complex.C) (ss : sspace) (Er Ei : evaluator surface arr) (e : node) (x : vec3) (p : spoint) : option cvec3 :=
  let kernel := helmholtz_kernel k x (p_f p) in
  let '(g1, g2, g3) := maxwell_gradient k x (p_f p) in
  v <- cevaluate_vector ss Er Ei e p ;; d <- cevaluate_div ss Er Ei e p ;;
  let '(v1, v2, v3) := v in
  let f vi gi := ((kernel * vi + RtoC 1 / (k * k) * gi * d) * RtoC (p_w p))%C in
  Some (f v1 g1, f v2 g2, f v3 g3).
(** the sums of complex numbers in DiscretePotential::evaluate are taken for each part: pr is the real or the imaginary part *)
Definition cvalue_or_zero (o : option Complex.C) : Complex.C := match o with Some v => v | None => RtoC 0 end.
Definition ccomponent3 (v : cvec3) (o : nat) : Complex.C := match o with O => fst (fst v) | 1%nat => snd (fst v) | _ => snd v end.
Definition hsl_integrand (pr : Complex.C -> R) (k : Complex.C) (ss : sspace) (X : surface) (Er Ei : evaluator surface arr) (points : nat -> vec3) : integrand :=
  fun e xi w i _ => pr (cvalue_or_zero (helmholtz_sl_potential k ss Er Ei e (points i) (surf_point X e xi w))).
Definition hdl_integrand (pr : Complex.C -> R) (k : Complex.C) (ss : sspace) (X : surface) (Er Ei : evaluator surface arr) (points : nat -> vec3) : integrand :=
  fun e xi w i _ => pr (cvalue_or_zero (helmholtz_dl_potential k ss Er Ei e (points i) (surf_point X e xi w))).
Definition maxwell_integrand (pr : Complex.C -> R) (k : Complex.C) (ss : sspace) (X : surface) (Er Ei : evaluator surface arr) (points : nat -> vec3) : integrand :=
  fun e xi w i o => pr (match maxwell_sl_potential k ss Er Ei e (points i) (surf_point X e xi w) with Some v => ccomponent3 v o | None => RtoC 0 end).
