(** The computations of an application put together from the models of the single parts: mesh of a geometry, forms of pairs of
    elements, dense and compressed operator.  The geometry is the map X of its patches (ModelOperators.surface) and their number. *)
From Coq Require Import Reals Arith List ZArith.
From Verif Require Import ModelBase ModelBernstein ModelTree ModelBall ModelBlock ModelH2 ModelH2Init ModelQuad ModelDuffy ModelAssembly ModelOperators ModelForms.
Import ListNotations.
Local Open Scope R_scope.

(** Constants::pt_comp_tolerance, util/Constants.hpp 31, and the comparison of corners in init_ElementTree, ClusterTree/ElementTree.hpp 145 *)
Definition pt_tol : R := / 10 ^ 9.
Definition close_points (x y : vec3) : bool := if Rlt_dec (vnorm (vsub x y)) pt_tol then true else false.
(** Constants::corners, Constants.hpp 27, and the images of the corners of the unit square, ElementTree.hpp 140-142 *)
Definition unit_corners : list (R * R) := [(0, 0); (1, 0); (1, 1); (0, 1)].
Definition corners_of (X : surface) (P : nat) : list (list vec3) := map (fun p => map (fun c => fst (fst (X p c))) unit_corners) (seq 0 P).
(** init_ClusterTree, ClusterTree/ClusterTree.hpp 82-86: the tree, its points and the balls of its clusters; the elements in the order
    of the iterator *)
Record mesh := mkMesh { g_tree : tree; g_points : list (option vec3); g_balls : balls; g_elements : list element }.
Definition init_mesh (X : surface) (P M : nat) : option mesh :=
  t <- init_tree close_points (corners_of X P) M ;;
  pts <- point_list (fun p x y => fst (fst (X p (x, y)))) t ;;
  b <- enclosings t pts ;;
  l <- traverse t ;; els <- map_opt (element_of t b) l ;;
  Some (mkMesh t pts b els).
(** midpoint_ and radius_ of a cluster; the root keeps the infinite radius of the constructor and no midpoint *)
Definition mid_of (b : balls) (a : addr) : vec3 := match b a with Some x => fst x | None => (0, 0, 0) end.
Definition rad_of (b : balls) (a : addr) : option R := match b a with Some x => Some (snd x) | None => None end.
(** the matrix evaluateBilinearForm computes for two elements, LinearOperator/DiscreteOperator.hpp 45-67 and H2Matrix/H2Matrix.hpp 139-145,
    180-195: GS are the cubatures, order is the order of the operator.  Undefined behaviour is given the value 0. *)
Definition op_form (op : operator mat) (ss : sspace) (X : surface) (order : Z) (GS : Z -> cubature) (els : list element) (e1 e2 : node) : mat :=
  let p := Z.of_nat (ss_p ss) in
  match (ff <- compute_ffield_qnodes (GS (farfield_degree p order)) els ;;
         E1 <- get els (n_id e1) ;; E2 <- get els (n_id e2) ;;
         f1 <- get ff (n_id e1) ;; f2 <- get ff (n_id e2) ;; f1 <- f1 ;; f2 <- f2 ;;
         evaluate_bilinear_form (op_kern op ss X) p order GS E1 E2 f1 f2) with
  | Some m => m | None => zero_mat end.
(** DiscreteOperator::compute for the full matrix, DiscreteOperator.hpp 32-82: T is the transformation matrix with nd columns *)
Definition full_operator (op : operator mat) (ss : sspace) (X : surface) (P M : nat) (order : Z) (GS : Z -> cubature) (T : mat) (A : mat) : Prop :=
  exists g m, init_mesh X P M = Some g /\
    assembled (op_vd op) (ss_n2 ss) (t_elements (g_tree g)) (op_form op ss X order GS (g_elements g)) (map e_node (g_elements g)) m /\
    A = projected (op_vd op * ss_n2 ss * t_elements (g_tree g)) T m.
(** DiscreteOperator::compute for the H2 matrix: H2Matrix::init_H2Matrix, H2Matrix.hpp 95-240 *)
Definition compressed_operator (op : operator mat) (ss : sspace) (X : surface) (P M : nat) (order : Z) (GS : Z -> cubature)
  (eta : R) (mincl : Z) (n : nat) (xi w : list R) (ja : arr) (jm : mat) : option h2 :=
  g <- init_mesh X P M ;;
  h2_init (op_linop op ss X (op_form op ss X order GS (g_elements g))) (g_tree g) (near_of (mid_of (g_balls g)) (rad_of (g_balls g)) eta) mincl n xi w ja jm.
(** the operators of the library for real scalars, and both parts of those for complex scalars with wave number k *)
Definition library_operators (k : Coquelicot.Complex.C) : list (operator mat) :=
  [laplace_sl; laplace_dl; laplace_adl; laplace_hs] ++
  flat_map (fun op => [part_of fst op; part_of snd op]) [helmholtz_sl k; helmholtz_dl k; helmholtz_adl k; helmholtz_hs k; maxwell_sl k].
