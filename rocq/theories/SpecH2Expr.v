(** The matrix an expression of H2 matrices stands for. *)
From Coq Require Import List Arith Reals.
From Verif Require Import ModelBase ModelBernstein RSum ModelTree ModelBlock ModelH2 SpecH2 PropH2 ModelH2Expr.
Import ListNotations.
Local Open Scope nat_scope.

(** an H2 matrix stands for TM^T A TM, where A is given by its blocks *)
Inductive stands_for : h2expr -> mat -> Prop :=
| st_h2 : forall H P M A TM, h2_of_mesh H P M -> described_by H P M A ->
    let D := h_vd H * comp_size H P M in
    stands_for (EH2 H D TM) (fun i j => rsum (fun q => TM q i * rsum (fun q' => A q q' * TM q' j) D) D)%R
| st_other : forall A, stands_for (EOther A) A
| st_sum : forall a b A B, stands_for a A -> stands_for b B -> stands_for (ESum a b) (fun i j => A i j + B i j)%R
| st_diff : forall a b A B, stands_for a A -> stands_for b B -> stands_for (EDiff a b) (fun i j => A i j - B i j)%R
| st_scale : forall beta a A, stands_for a A -> stands_for (EScale beta a) (fun i j => beta * A i j)%R.
(** row i, column c of the product with an n-rowed matrix *)
Definition times (n : nat) (A X : mat) (i c : nat) : R := rsum (fun l => A i l * X l c)%R n.
(** every H2 matrix in the expression belongs to a mesh *)
Inductive on_meshes : h2expr -> Prop :=
| om_h2 : forall H P M TM, h2_of_mesh H P M -> on_meshes (EH2 H (h_vd H * comp_size H P M) TM)
| om_other : forall A, on_meshes (EOther A)
| om_sum : forall a b, on_meshes a -> on_meshes b -> on_meshes (ESum a b)
| om_diff : forall a b, on_meshes a -> on_meshes b -> on_meshes (EDiff a b)
| om_scale : forall beta a, on_meshes a -> on_meshes (EScale beta a).
