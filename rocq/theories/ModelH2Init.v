(** Model of H2Matrix::init_H2Matrix, H2Matrix/H2Matrix.hpp 95-240, for real scalars. *)
From Coq Require Import List Arith Bool ZArith Reals.
From Verif Require Import ModelBase ModelBernstein ModelTree ModelBlock ModelH2 ModelInterp.
Import ListNotations.
Local Open Scope nat_scope.

(** what a linear operator provides: o_vd the vector dimension, o_nF NumberOfFMMComponents, o_p the polynomial
    degree of the super space; o_form the matrix computed by DuffyTrick::evaluateBilinearForm for two elements;
    o_kernel c1 s c2 t the matrix evaluateFMMInterpolation for the surface points of the clusters c1, c2 at the
    reference points s, t (map2surface); o_kinds component fmm_component the two one-dimensional moments of that
    component (Moment2D: H2Multipole.hpp 299-317, Maxwell/SingleLayerOperator.hpp 154-183,
    Laplace/HypersingularOperator.hpp 125-149) *)
Record linop := mkOp { o_vd : nat; o_nF : nat; o_p : nat; o_form : node -> node -> mat;
  o_kernel : node -> R * R -> node -> R * R -> mat; o_kinds : nat -> nat -> moment_kind * moment_kind }.

(** interpolationPoints2D, H2Multipole.hpp 323-330 *)
Definition points2D (n : nat) (x : arr) (u : nat) : R * R := (x (u / n), x (u mod n)).
(** interpolateKernel, H2Multipole.hpp 335-373: entry (row, col) for row = i + (ii nF + iii) np *)
Definition interpolate_kernel (o : linop) (n : nat) (x : arr) (c1 c2 : node) : mat :=
  fun r u => o_kernel o c1 (points2D n x (r mod (n * n))) c2 (points2D n x (u mod (n * n))) (r / (n * n)) (u / (n * n)).
(** the elements visited by the range-based loop over a cluster, ElementTreeNode.hpp 207-245 *)
Definition elements_of (t : tree) (a : addr) : option (list addr) :=
  match a with [] => traverse t | _ => cluster_elements t a end.
(** a dense leaf, H2Matrix.hpp 162-206: entry (k cl1index + a, k cl2index + b) of the block (rc, cc) *)
Definition dense_leaf (o : linop) (t : tree) (rc cc : nat) (c1 c2 : addr) : mat :=
  let k := (o_p o + 1) * (o_p o + 1) in
  fun r u =>
    match (l1 <- elements_of t c1 ;; a1 <- get l1 (r / k) ;; t_store t a1),
          (l2 <- elements_of t c2 ;; a2 <- get l2 (u / k) ;; t_store t a2) with
    | Some e1, Some e2 => o_form o e1 e2 (rc * k + r mod k) (cc * k + u mod k)
    | _, _ => 0%R
    end.
(** a low-rank leaf, 208-229 *)
Definition lowrank_leaf (o : linop) (n : nat) (x : arr) (t : tree) (rc cc : nat) (c1 c2 : addr) : mat :=
  fun r u =>
    match t_store t c1, t_store t c2 with
    | Some e1, Some e2 => interpolate_kernel o n x e1 e2 (rc * (n * n * o_nF o) + r) (cc * (n * n * o_nF o) + u)
    | _, _ => 0%R
    end.
(** 95-240: the parameters are the element tree, the admissibility test, min_cluster_level, the number n of
    interpolation points, the quadrature rule of the moments; ja, jm are uninitialised memory.
    The kind of a leaf is the result of compareCluster for its clusters. *)
Definition h2_init (o : linop) (t : tree) (near : addr -> addr -> bool) (mincl : Z) (n : nat) (xi w : list R)
  (ja : arr) (jm : mat) : option h2 :=
  bt <- block_tree t near mincl ;;
  let p := o_p o in
  let max_level := t_maxlevel t in
  let cluster_level := Z.to_nat (Z.of_nat max_level - mincl) in
  let cluster_refinement := if (Z.of_nat max_level <? mincl)%Z then max_level else Z.to_nat mincl in
  let x := chebychev n in
  let m1 := fun kind => moment1D kind ja p cluster_level cluster_refinement n x xi w in
  let mom := fun c row d => moment2D p cluster_refinement n (m1 (fst (o_kinds o c (row / (n * n))))) (m1 (snd (o_kinds o c (row / (n * n)))))
               jm (row mod (n * n)) d in
  Some (mkH2 t mincl bt ((p + 1) * (p + 1)) (n * n) (o_nF o)
    ((2 ^ cluster_refinement * (p + 1)) * (2 ^ cluster_refinement * (p + 1))) (o_vd o) mom
    (transfer_matrices n x jm jm)
    (fun rc cc c1 c2 => match compare_cluster t near mincl c1 c2 with
       | LowRank => lowrank_leaf o n x t rc cc c1 c2
       | _ => dense_leaf o t rc cc c1 c2 end)).
