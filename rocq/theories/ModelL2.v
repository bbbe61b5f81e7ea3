(** Model of Bembel/src/util/surfaceL2error.hpp 17-46. *)
From Coq Require Import Reals Arith Bool List QArith Qreals.
From Verif Require Import ModelBase RSum ModelBernstein ModelTree ModelBall ModelQuad ModelAssembly ModelDuffy ModelUtil ModelOperators ModelForms.
Import ListNotations.
Local Close Scope Q_scope.
Local Open Scope R_scope.

(** 31-42: one quadrature point; [value] is fun_val.evaluate(element, qp)(0), [g] the functor *)
Definition l2_point (value : node -> spoint -> option R) (X : surface) (Q : cubature) (g : vec3 -> R) (e : node) (i : nat) (retval : R) : option R :=
  let qp := surf_point X e (q_xi Q i) (q_w Q i) in
  let x_kappa := vnorm (vcross (p_dx qp) (p_dy qp)) in
  val <- value e qp ;;
  Some (retval + x_kappa * q_w Q i * n_h e * n_h e * (g (p_f qp) - val) * (g (p_f qp) - val)).
(** 29-43: the loops over elements and quadrature points *)
Fixpoint l2_loop (value : node -> spoint -> option R) (X : surface) (Q : cubature) (g : vec3 -> R) (els : list node) (retval : R) : option R :=
  match els with
  | [] => Some retval
  | e :: r => s <- for_opt (q_size Q) (l2_point value X Q g e) retval ;; l2_loop value X Q g r s
  end.
(** the elements from cpbegin to cpend *)
Definition elements (t : tree) : option (list node) := l <- traverse t ;; map_opt (t_store t) l.
(** 17-45 for continuous and discontinuous functions: t and X are mesh and geometry of the ansatz space, T its transformation matrix
    with nd columns, v the coefficient vector; qr n is the rule with n points, GS[deg] the tensor product rule of the vector of
    order Constants::maximum_quadrature_degree *)
Definition gauss_square (qr : nat -> rule) (deg : nat) : cubature := qvector (fun n => tensor_rule (qr n)) 50 deg.
Definition surfaceL2error (qr : nat -> rule) (t : tree) (X : surface) (ss : sspace) (nd : nat) (T : mat) (v : arr) (g : vec3 -> R) (deg : nat) : option R :=
  E <- init_evaluator (t, X) (ss_p ss) (set_function 1 (1 * ss_n2 ss * t_elements t) nd T v) ;;
  els <- elements t ;;
  retval <- l2_loop (evaluate_scalar ss E) X (gauss_square qr deg) g els 0 ;;
  Some (sqrt retval).
(** the same for div-conforming functions: evaluate returns a vector with three entries, of which (0) is the first *)
Definition surfaceL2error_div (qr : nat -> rule) (t : tree) (X : surface) (ss : sspace) (nd : nat) (T : mat) (v : arr) (g : vec3 -> R) (deg : nat) : option R :=
  E <- init_evaluator (t, X) (ss_p ss) (set_function 2 (2 * ss_n2 ss * t_elements t) nd T v) ;;
  els <- elements t ;;
  retval <- l2_loop (fun e p => u <- evaluate_vector ss E e p ;; Some (vx u)) X (gauss_square qr deg) g els 0 ;;
  Some (sqrt retval).
