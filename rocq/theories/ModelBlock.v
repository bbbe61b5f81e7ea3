(** Model of Bembel/src/H2Matrix/BlockClusterTree.hpp.
    Clusters are the addresses of ModelTree ([] is the root of the element tree).  The admissibility test
    enters the construction of the tree as a boolean [near]; [near_of] is the one of the code.
    Not modelled: the matrix leaf_, sharing of parameters_; copies of block cluster trees are in ModelBctCopy. *)
From Coq Require Import List Arith ZArith Reals.
From Verif Require Import ModelBase ModelTree.
Import ListNotations.
Local Open Scope nat_scope.

(** BlockClusterAdmissibility, H2Matrix/BlockClusterTree.hpp line 19-21: Refine, LowRank, Dense *)
Inductive adm := Refine | LowRank | Dense.

(** sons_ of a cluster; the root has one son per patch *)
Definition sons_of (t : tree) (a : addr) : list addr :=
  match a with
  | [] => map (fun p => [p]) (seq 0 (t_patches t))
  | _ => match t_store t a with
         | Some n => if n_ref n then map (fun i => i :: a) [0; 1; 2; 3] else []
         | None => []
         end
  end.
(** level_; the root keeps the -1 of the default constructor, ElementTreeNode.hpp 88-97 *)
Definition level_of (t : tree) (a : addr) : Z :=
  match a with
  | [] => (-1)%Z
  | _ => match t_store t a with Some n => Z.of_nat (n_level n) | None => 0%Z end
  end.

(** begin and end of the elements of a cluster, ElementTreeNode.hpp 207-245 *)
Definition begin_of (t : tree) (a : addr) : option addr :=
  front (t_maxlevel t) (t_store t) (match a with [] => [0] | _ => a end).
Definition end_of (t : tree) (a : addr) : option (option addr) :=
  b <- back (t_maxlevel t) (t_store t) (match a with [] => [t_patches t - 1] | _ => a end) ;;
  n <- t_store t b ;; Some (n_next n).
(** std::distance *)
Definition distance (t : tree) (from : addr) (upto : option addr) : option nat :=
  l <- iterate (t_elements t) (t_store t) (Some from) upto ;; Some (length l).

(** get_row_start_index and get_row_end_index (columns alike), 218-235; k is (p+1)^2 *)
Definition start_index (t : tree) (k : nat) (a : addr) : option nat :=
  f <- begin_of t [] ;; g <- begin_of t a ;; d <- distance t f (Some g) ;; Some (k * d).
Definition end_index (t : tree) (k : nat) (a : addr) : option nat :=
  f <- begin_of t [] ;; g <- end_of t a ;; d <- distance t f g ;; Some (k * d).

(** compareCluster, 255-278: [near] is dist < 0 || max_radius >= eta * dist *)
Definition compare_cluster (t : tree) (near : addr -> addr -> bool) (mincl : Z) (a b : addr) : adm :=
  if near a b then
    if (Z.of_nat (t_maxlevel t) - level_of t a <=? mincl)%Z then Dense else Refine
  else LowRank.

(** cc_, cluster1_, cluster2_, rows_, cols_, sons_ (column by column) *)
Inductive btree := BT (cc : adm) (c1 c2 : addr) (rows cols : nat) (sons : list btree).
Definition b_cc (b : btree) := match b with BT cc _ _ _ _ _ => cc end.
Definition b_c1 (b : btree) := match b with BT _ c _ _ _ _ => c end.
Definition b_c2 (b : btree) := match b with BT _ _ c _ _ _ => c end.
Definition b_rows (b : btree) := match b with BT _ _ _ r _ _ => r end.
Definition b_cols (b : btree) := match b with BT _ _ _ _ c _ => c end.

(** appendSubtree, 155-182; [fuel] bounds the depth (t_maxlevel + 2 suffices) *)
Fixpoint append_subtree (fuel : nat) (t : tree) (near : addr -> addr -> bool) (mincl : Z)
  (a b : addr) (rows cols : nat) : option btree :=
  match compare_cluster t near mincl a b with
  | Refine =>
      match fuel with
      | O => None
      | S f =>
          sons <- map_opt (fun ij =>
             r <- cluster_elements t (fst ij) ;; c <- cluster_elements t (snd ij) ;;
             append_subtree f t near mincl (fst ij) (snd ij) (length r) (length c))
             (flat_map (fun j => map (fun i => (i, j)) (sons_of t a)) (sons_of t b)) ;;
          Some (BT Refine a b rows cols sons)
      end
  | cc => Some (BT cc a b rows cols [])
  end.
(** init_BlockClusterTree, 121-150 *)
Definition block_tree (t : tree) (near : addr -> addr -> bool) (mincl : Z) : option btree :=
  append_subtree (t_maxlevel t + 2) t near mincl [] [] (t_elements t) (t_elements t).

(** updateLeafPointers_recursion, 288-297 *)
Fixpoint leaves (b : btree) : list btree :=
  match b with BT cc _ _ _ _ sons => match cc with Refine => flat_map leaves sons | _ => [b] end end.

(** the admissibility test, 258-269; [rad] is None for the initial infinite radius (then dist is
    -infinity, replaced by 0, and infinity >= eta * 0) *)
Definition norm3 (x y : R * R * R) : R :=
  let '(a, b, c) := x in let '(a', b', c') := y in
  sqrt ((a - a') * (a - a') + (b - b') * (b - b') + (c - c') * (c - c'))%R.
Definition near_of (mid : addr -> R * R * R) (rad : addr -> option R) (eta : R) (a b : addr) : bool :=
  match rad a, rad b with
  | Some r1, Some r2 =>
      let d := (norm3 (mid a) (mid b) - r1 - r2)%R in
      let dist := (if Rlt_dec 0 d then d else 0)%R in
      let max_radius := if Rlt_dec r2 r1 then r1 else r2 in
      if Rle_dec (eta * dist)%R max_radius then true else false
  | _, _ => true
  end.
