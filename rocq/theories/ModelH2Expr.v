(** Model of the expressions built from H2 matrices and of their products with dense matrices:
    Bembel/src/H2Matrix/EigenHelper/H2DenseProduct.hpp 165-312, H2CwiseBinaryOp.hpp 55-200, H2Matrix.hpp 79-84 and 254-263,
    H2MatrixBase.hpp 51-56.

    Everything is n x n; matrices are total functions.  Products of dense and sparse matrices with dense ones are Eigen's and
    exact here.  A statement is executed on the matrix on its left-hand side; [src] gives the right factor as a function of the
    present content of that matrix, so that  x = e * x  can be modelled.  Scalars are reals. *)
From Coq Require Import List Arith Reals.
From Verif Require Import ModelBase ModelBernstein RSum ModelTree ModelBlock ModelPar ModelH2.
Import ListNotations.
Local Open Scope nat_scope.

(** an H2Matrix with its transformation matrix TM of D rows; a dense or sparse matrix; a + b, a - b with the operators of
    H2CwiseBinaryOp.hpp and CommonCwiseBinaryOps.h; beta * a *)
Inductive h2expr :=
| EH2 (H : h2) (D : nat) (TM : mat)
| EOther (A : mat)
| ESum (a b : h2expr)
| EDiff (a b : h2expr)
| EScale (beta : R) (a : h2expr).

Section Expr.
(** size of the matrices and number of columns of the right-hand side *)
Variables (n cols : nat).
Definition zero_mat : mat := fun _ _ => 0%R.
Definition with_col (d : mat) (c : nat) (v : arr) : mat := fun i j => if j =? c then v i else d i j.

(** the loop over the columns of rhs, H2DenseProduct.hpp 51-162: column c of rhs is read before column c of res is written *)
Inductive h2_columns (H : h2) (D : nat) (TM : mat) (alpha : R) (src : mat -> mat) : list nat -> mat -> mat -> Prop :=
| col_nil : forall d, h2_columns H D TM alpha src [] d d
| col_cons : forall c rest d d' v,
    h2_product H D n TM alpha (fun l => src d l c) (fun i => d i c) v ->
    h2_columns H D TM alpha src rest (with_col d c v) d' ->
    h2_columns H D TM alpha src (c :: rest) d d'.

(** scaleAndAddTo(dst, e, rhs, alpha).  Sums and differences: H2DenseProduct.hpp 192-222, the two products are evaluated into
    temporaries by the product_evaluator 291-308 (evalTo: setZero, then scaleAndAddTo with 1); multiples 250-258; H2 matrices
    277-288 *)
Inductive scale_and_add : h2expr -> R -> (mat -> mat) -> mat -> mat -> Prop :=
| add_h2 : forall H D TM alpha src d d', h2_columns H D TM alpha src (seq 0 cols) d d' -> scale_and_add (EH2 H D TM) alpha src d d'
| add_other : forall A alpha src d,
    scale_and_add (EOther A) alpha src d (fun i c => if c <? cols then d i c + alpha * rsum (fun l => A i l * src d l c) n else d i c)%R
| add_sum : forall a b alpha src d l r,
    scale_and_add a 1 (fun _ => src d) zero_mat l -> scale_and_add b 1 (fun _ => src d) zero_mat r ->
    scale_and_add (ESum a b) alpha src d (fun i c => if c <? cols then d i c + alpha * (l i c + r i c) else d i c)%R
| add_diff : forall a b alpha src d l r,
    scale_and_add a 1 (fun _ => src d) zero_mat l -> scale_and_add b 1 (fun _ => src d) zero_mat r ->
    scale_and_add (EDiff a b) alpha src d (fun i c => if c <? cols then d i c + alpha * (l i c - r i c) else d i c)%R
| add_scale : forall beta a alpha src d d',
    scale_and_add a (alpha * beta) src d d' -> scale_and_add (EScale beta a) alpha src d d'.

(** H2Matrix::operator* (H2Matrix.hpp 79-84) makes an AliasFreeProduct, the operator* of all other expressions
    (H2MatrixBase.hpp 51-56) a default product, which Eigen evaluates into a temporary before the assignment *)
Definition alias_free (e : h2expr) : bool := match e with EH2 _ _ _ => true | _ => false end.
(** y = e * x, y += e * x and y -= e * x; [same] says that x and y are the same matrix.  evalTo is setZero and scaleAndAddTo *)
Inductive assignment := Set_ | Add_ | Sub_.
Definition sign (s : assignment) : R := match s with Sub_ => -1 | _ => 1 end.
Definition start_of (s : assignment) (y : mat) : mat := match s with Set_ => zero_mat | _ => y end.
Definition execute (s : assignment) (e : h2expr) (same : bool) (x y y' : mat) : Prop :=
  if alias_free e then scale_and_add e (sign s) (fun d => if same then d else x) (start_of s y) y'
  else exists tmp, scale_and_add e 1 (fun _ => if same then y else x) zero_mat tmp /\
                   y' = (fun i c => if c <? cols then start_of s y i c + sign s * tmp i c else start_of s y i c)%R.
End Expr.

(** get_dense, H2Matrix.hpp 254-263: column i of the result is the product with the i-th unit vector *)
Definition unit_vector (i : nat) : mat := fun l _ => if l =? i then 1%R else 0%R.
Definition get_dense (n : nat) (H : h2) (D : nat) (TM : mat) (dense : mat) : Prop :=
  forall i, i < n -> exists y, execute n 1 Set_ (EH2 H D TM) false (unit_vector i) zero_mat y /\ forall r, dense r i = y r 0.
