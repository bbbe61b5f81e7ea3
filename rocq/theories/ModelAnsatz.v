(** Model of Bembel/src/AnsatzSpace/AnsatzSpace.hpp 102-111 with Glue::init_Glue, Glue.hpp 106-111: the transformation matrix.
    The mesh of the SuperSpace is given by its element tree t (for patchTopologyInfo) and the elements els in the order of the
    iterator; p, M, P: polynomial degree, refinement level, number of patches. *)
From Coq Require Import Reals Arith Bool List ZArith.
From Verif Require Import ModelBase RSum ModelBernstein ModelTree ModelGlue ModelProj.
Import ListNotations.
Local Open Scope R_scope.

(** the glue matrix, Glue.hpp 216-217: setFromTriplets adds up triplets of the same position *)
Definition glue_entry (trips : list triplet) : mat :=
  fun r c => fold_right (fun t acc => (if ((fst (fst t) =? r) && (snd (fst t) =? c))%nat then IZR (snd t) else 0) + acc) 0 trips.

(** transformation_matrix_: number of rows, columns and the entries *)
Record ansatz := mkAS { as_rows : nat; as_cols : nat; as_T : mat }.
(** AnsatzSpace.hpp 108-109: the product of the two sparse matrices; Eigen asserts that the inner sizes agree *)
Definition product (A : smatrix) (G : nat * nat * list triplet) : option ansatz :=
  let '(rows, cols, trips) := G in
  _ <- assert (sm_cols A =? rows)%nat ;;
  Some (mkAS (sm_rows A) cols (fun r c => rsum (fun j => sm_entry A r j * glue_entry trips j c) (sm_cols A))).

(** init_AnsatzSpace with makeIdentification, Glue.hpp 342-349 (discontinuous: nothing is identified), 361-492 (continuous)
    and 502-577 (div-conforming) *)
Definition ansatz_discontinuous ws junk j1 j2 solve (p M P rep : nat) (t : tree) (els : list node) : option ansatz :=
  A <- projector_discontinuous ws junk j1 j2 solve p M P rep els ;;
  _ <- patch_topology_info t ;;
  G <- assemble_glue (sm_cols A) [] ;;
  product A G.
Definition ansatz_continuous ws junk j1 j2 solve (p M P rep : nat) (t : tree) (els : list node) : option ansatz :=
  A <- projector_continuous ws junk j1 j2 solve p M P rep els ;;
  edges <- patch_topology_info t ;;
  ids <- cont_identification p rep M (sm_cols A) edges ;;
  G <- assemble_glue (sm_cols A) ids ;;
  product A G.
Definition ansatz_div ws junk j1 j2 solve (p M P rep : nat) (t : tree) (els : list node) : option ansatz :=
  A <- projector_div ws junk j1 j2 solve p M P rep els ;;
  edges <- patch_topology_info t ;;
  ids <- div_identification p rep M P (sm_cols A) edges ;;
  G <- assemble_glue (sm_cols A) ids ;;
  product A G.
