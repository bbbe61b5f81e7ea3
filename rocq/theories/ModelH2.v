(** Model of the H2 matrix vector product: H2Matrix/H2Multipole.hpp 376-469 and
    H2Matrix/EigenHelper/H2DenseProduct.hpp 39-163.
    Scalars are reals (the code instantiates them with double and complex<double>).  Matrices are total
    functions; that all accesses stay in range is stated separately. *)
From Coq Require Import List Arith Bool ZArith Reals.
From Verif Require Import ModelBase ModelBernstein RSum ModelTree ModelBlock ModelPar.
Import ListNotations.
Local Open Scope nat_scope.

(** data() of a column-major matrix with the given number of rows, and Map of such data *)
Definition data (rows : nat) (A : mat) : arr := fun i => A (i mod rows) (i / rows).
Definition reshape (rows : nat) (v : arr) : mat := fun i j => v (i + rows * j).
(** matrix product with inner dimension n *)
Definition mmul (n : nat) (A B : mat) : mat := fun i j => rsum (fun l => A i l * B l j)%R n.
Definition mtrans (A : mat) : mat := fun i j => A j i.

(** ** forwardTransformation, H2Multipole.hpp 376-420 *)
(** body of the loop over i, 390-418: np points, nF FMM components; column block m of to_transfer
    is the block of rows (j + m nF) np of reshaped; the rows j np of transferred are written for j < nF *)
Definition forward_step (np nF : nat) (T A : mat) : mat :=
  let rows := nF * np in
  let reshaped := reshape (4 * rows) (data rows A) in
  let to_transfer := fun j u col => reshaped ((j + u / np * nF) * np + u mod np) col in
  fun i col => mmul (4 * np) T (to_transfer (i / np)) (i mod np) col.
(** entry f of long_rhs_forward; mc is moment_matrices.cols() and x the vector long_rhs, reshaped to
    mc rows (H2DenseProduct.hpp 68-72) *)
Fixpoint forward (np nF mc : nat) (mom T : mat) (x : arr) (f : nat) : mat :=
  match f with
  | O => mmul mc mom (reshape mc x)
  | S g => forward_step np nF T (forward np nF mc mom T x g)
  end.

(** ** backwardTransformation, H2Multipole.hpp 425-469 *)
Definition updl (B : nat -> mat) (i : nat) (A : mat) : nat -> mat := fun j => if j =? i then A else B j.
(** body of the loop, 435-461, for i >= 1 *)
Definition backward_step (np nF : nat) (T : mat) (B : nat -> mat) (i : nat) : nat -> mat :=
  let rows := nF * np in
  let prod := fun j => mmul np (mtrans T) (fun q col => B i (j * np + q) col) in
  let transferred := fun r col => prod ((r / np) mod nF) (((r / np) / nF) * np + r mod np) col in
  updl B (i - 1) (fun r c => B (i - 1)%nat r c + reshape rows (data (4 * rows) transferred) r c)%R.
(** for (i = steps; i > 0; --i) *)
Fixpoint backward_loop (np nF : nat) (T : mat) (steps : nat) (B : nat -> mat) : nat -> mat :=
  match steps with
  | O => B
  | S s => backward_loop np nF T s (backward_step np nF T B (S s))
  end.
Definition backward (np nF mc : nat) (mom T : mat) (steps : nat) (B : nat -> mat) : arr :=
  data mc (mmul (nF * np) (mtrans mom) (backward_loop np nF T steps B 0)).

(** ** the product *)
(** H2Matrix: parameters of the block cluster trees, moment and transfer matrices and the matrices of the
    leaves; all vector components have a copy of the same block cluster tree (H2Matrix.hpp 105-112), so a
    leaf is identified by its two clusters.  hF row_component col_component cluster1 cluster2 *)
Record h2 := mkH2 { h_tree : tree; h_mincl : Z; h_blocks : btree; h_k : nat; h_np : nat; h_nF : nat; h_mc : nat;
  h_vd : nat; h_mom : nat -> mat; h_T : mat; h_F : nat -> nat -> addr -> addr -> mat }.
(** max_level - min_cluster_level; a negative number of steps runs no iteration *)
Definition h_steps (H : h2) : nat := Z.to_nat (Z.of_nat (t_maxlevel (h_tree H)) - h_mincl H).
(** H2DenseProduct.hpp 130-136 *)
Definition fmm_level (H : h2) (a : addr) : Z := (Z.of_nat (t_maxlevel (h_tree H)) - h_mincl H - level_of (h_tree H) a)%Z.
Definition id_of (t : tree) (a : addr) : nat := match t_store t a with Some n => n_id n | None => 0 end.
(** (my_long_dst, my_long_dst_backward) *)
Definition h2_acc := (arr * (nat -> mat))%type.
(** one leaf, H2DenseProduct.hpp 104-145 *)
Definition leaf_body (H : h2) (rc cc : nat) (x : arr) (fwd : nat -> mat) (B : btree) (acc : h2_acc) : h2_acc :=
  let (dst, back) := acc in
  let F := h_F H rc cc (b_c1 B) (b_c2 B) in
  let t := h_tree H in
  match b_cc B with
  | Dense =>
      match start_index t (h_k H) (b_c1 B), end_index t (h_k H) (b_c1 B),
            start_index t (h_k H) (b_c2 B), end_index t (h_k H) (b_c2 B) with
      | Some rs, Some re, Some cs, Some ce =>
          (fun i => if ((rs <=? i) && (i <? re))%nat%bool then dst i + rsum (fun j => F (i - rs)%nat j * x (cs + j)%nat) (ce - cs) else dst i, back)%R
      | _, _, _, _ => acc
      end
  | LowRank =>
      let f := Z.to_nat (fmm_level H (b_c1 B)) in
      (dst, fun g r c => if ((g =? f) && (c =? id_of t (b_c1 B)))%nat%bool
              then back g r c + rsum (fun u => F r u * fwd f u (id_of t (b_c2 B))) (h_nF H * h_np H)%nat else back g r c)%R
  | Refine => acc
  end.
(** the parallel region 81-152 for one pair of components; long_dst starts with zero *)
Definition h2_region (H : h2) (nthreads rc cc : nat) (x : arr) (v : arr) : Prop :=
  let lv := leaves (h_blocks H) in
  let fwd := forward (h_np H) (h_nF H) (h_mc H) (h_mom H cc) (h_T H) x in
  parallel_region nthreads (length lv)
    (fun i acc => match get lv i with Some B => leaf_body H rc cc x fwd B acc | None => acc end)
    (fun acc d e => d e + (fst acc e + backward (h_np H) (h_nF H) (h_mc H) (h_mom H rc) (h_T H) (h_steps H) (snd acc) e))%R
    (zero_arr, fun _ _ _ => 0%R) zero_arr v.
(** the loops over the components, 56-157; vs is vector_component_size *)
Inductive h2_components (H : h2) (vs : nat) (xall : arr) : list (nat * nat) -> arr -> arr -> Prop :=
| comp_nil : forall d, h2_components H vs xall [] d d
| comp_cons : forall cc rc rest d d' v nthreads, 0 < nthreads ->
    h2_region H nthreads rc cc (fun i => xall (cc * vs + i)) v ->
    h2_components H vs xall rest
      (fun i => if ((rc * vs <=? i) && (i <? rc * vs + vs))%nat%bool then d i + v (i - rc * vs)%nat else d i)%R d' ->
    h2_components H vs xall ((cc, rc) :: rest) d d'.
Definition component_pairs (vd : nat) : list (nat * nat) :=
  flat_map (fun cc => map (fun rc => (cc, rc)) (seq 0 vd)) (seq 0 vd).
(** one column of the right-hand side, 51-162; TM is the D x n transformation matrix *)
Definition h2_product (H : h2) (D n : nat) (TM : mat) (alpha : R) (rhs res res' : arr) : Prop :=
  exists dst,
    h2_components H (D / h_vd H) (fun q => rsum (fun j => TM q j * rhs j)%R n) (component_pairs (h_vd H)) zero_arr dst /\
    res' = (fun i => res i + alpha * rsum (fun q => TM q i * dst q) D)%R.
