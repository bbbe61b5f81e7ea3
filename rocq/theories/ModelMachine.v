(** The integer and floating-point computations of the mesh as the machine does them: ClusterTree/ElementTree.hpp 206-229, 544-565
    and 703-711, ClusterTree/ElementTreeNode.hpp 170-193, AnsatzSpace/SuperSpace.hpp 160-165, AnsatzSpace/FunctionEvaluator.hpp
    82-103, AnsatzSpace/Projector.hpp 246-279, Spline/Knots.hpp 43-54.

    int has 32 bits and overflow is undefined (None).  A double is a real number in the binary64 format; every operation rounds
    to nearest, ties to even.  Infinities and NaNs are not modelled: no operation here leaves [-2^32, 2^32]. *)
From Coq Require Import Reals ZArith List Arith Bool.
From Flocq Require Import Core.
From Verif Require Import ModelBase ModelTree.
Import ListNotations.
Local Open Scope R_scope.

(** ** int *)
Definition int_ok (z : Z) : bool := ((-2147483648 <=? z) && (z <=? 2147483647))%Z.
Definition to_int (z : Z) : option Z := if int_ok z then Some z else None.
Definition iadd (a b : Z) : option Z := to_int (a + b).
Definition isub (a b : Z) : option Z := to_int (a - b).
Definition imul (a b : Z) : option Z := to_int (a * b).
(** 1 << k *)
Definition ishl (k : Z) : option Z := if ((0 <=? k) && (k <=? 30))%Z then Some (2 ^ k)%Z else None.

(** ** double *)
Definition rnd (x : R) : R := round radix2 (FLT_exp (-1074) 53) ZnearestE x.
Definition dadd (x y : R) : R := rnd (x + y).
Definition dsub (x y : R) : R := rnd (x - y).
Definition dmul (x y : R) : R := rnd (x * y).
Definition ddiv (x y : R) : R := rnd (x / y).
(** double(z) *)
Definition of_int (z : Z) : R := rnd (IZR z).
(** int i = std::floor(x) *)
Definition floor_int (x : R) : option Z := to_int (Zfloor x).

(** ** elements *)
Record mnode := mkM { m_id : Z; m_level : Z; m_patch : Z; m_x : R; m_y : R }.
(** get_h, ElementTreeNode.hpp 193 *)
Definition m_h (level : Z) : option R := s <- ishl level ;; Some (ddiv (of_int 1) (of_int s)).
(** Constants::llcs, util/Constants.hpp 28 *)
Definition llcs_x (i : nat) : R := nth i [0; 1/2; 1/2; 0] 0.
Definition llcs_y (i : nat) : R := nth i [0; 0; 1/2; 1/2] 0.
(** the data of son i, ElementTree.hpp 703-711 *)
Definition m_son (c : mnode) (i : nat) : option mnode :=
  level <- iadd (m_level c) 1 ;;
  f <- imul 4 (m_id c) ;;
  id <- iadd f (Z.of_nat i) ;;
  s <- ishl (m_level c) ;;
  Some (mkM id level (m_patch c) (dadd (m_x c) (ddiv (llcs_x i) (of_int s))) (dadd (m_y c) (ddiv (llcs_y i) (of_int s)))).
(** the element at an address (ModelTree.addr): the patches are initialised in ElementTree.hpp 119-139, llc_ by the constructor *)
Fixpoint m_node (a : addr) : option mnode :=
  match a with
  | [] => None
  | [p] => i <- to_int (Z.of_nat p) ;; Some (mkM i 0 i 0 0)
  | i :: r => c <- m_node r ;; m_son c i
  end.
(** compute_global_id, ElementTree.hpp 561-565; the operands are int *)
Definition m_global_id (patches : Z) (n : mnode) : option Z :=
  s <- ishl (m_level n) ;; q <- imul s s ;; q1 <- isub q 1 ;; f <- imul patches (q1 / 3)%Z ;; iadd f (m_id n).
(** the arguments of eval in generatePointList, ElementTree.hpp 213-221 *)
Definition m_corners (n : mnode) : option (list (R * R)) :=
  h <- m_h (m_level n) ;;
  Some [(m_x n, m_y n); (dadd (m_x n) h, m_y n); (dadd (m_x n) h, dadd (m_y n) h); (m_x n, dadd (m_y n) h)].
(** referenceMidpoint, ElementTreeNode.hpp 181-183 *)
Definition m_midpoint (n : mnode) : option (R * R) :=
  h <- m_h (m_level n) ;; Some (dadd (m_x n) (dmul (1/2) h), dadd (m_y n) (dmul (1/2) h)).
(** the point st of map2surface, SuperSpace.hpp 162; with [fused] the compiler contracts multiplication and addition *)
Definition m_map2surface (fused : bool) (n : mnode) (xi : R * R) : option (R * R) :=
  h <- m_h (m_level n) ;;
  let f c x := if fused then rnd (c + h * x) else dadd c (dmul h x) in
  Some (f (m_x n) (fst xi), f (m_y n) (snd xi)).
(** mapToReferenceElement, ElementTreeNode.hpp 170-174 *)
Definition m_to_reference (n : mnode) (x y : R) : option (R * R) :=
  h <- m_h (m_level n) ;;
  let u := ddiv (dsub x (m_x n)) h in
  let v := ddiv (dsub y (m_y n)) h in
  _ <- assert (Rle_bool 0 u && Rle_bool u 1 && Rle_bool 0 v && Rle_bool v 1) ;;
  Some (u, v).

(** ** computeReorderingVector, ElementTree.hpp 544-559 *)
Definition m_tp_index (maxlevel : Z) (n : mnode) : option Z :=
  h <- m_h (m_level n) ;;
  x <- floor_int (ddiv (dadd (m_x n) (dmul (1/2) h)) h) ;;
  y <- floor_int (ddiv (dadd (m_y n) (dmul (1/2) h)) h) ;;
  one_dir <- ishl maxlevel ;;
  per_patch <- imul one_dir one_dir ;;
  a <- imul (m_patch n) per_patch ;; b <- imul y one_dir ;; s <- iadd a b ;; iadd s x.
Fixpoint m_reorder_loop (maxlevel : Z) (l : list addr) (out : list Z) : option (list Z) :=
  match l with
  | [] => Some out
  | a :: r => n <- m_node a ;; k <- m_tp_index maxlevel n ;; _ <- assert (0 <=? k)%Z ;;
              out' <- set out (Z.to_nat k) (m_id n) ;; m_reorder_loop maxlevel r out'
  end.
Definition m_reordering (t : tree) : option (list Z) :=
  l <- traverse t ;; m_reorder_loop (Z.of_nat (t_maxlevel t)) l (repeat 0%Z (t_elements t)).

(** ** evaluateOnPatch up to the call of evaluate, FunctionEvaluator.hpp 82-103 *)
Definition m_clamp (k n : Z) : Z := Z.min (Z.max k 0) (n - 1).
Definition m_locate (t : tree) (rv : list Z) (patch : nat) (x y : R) : option (addr * (R * R)) :=
  epd <- ishl (Z.of_nat (t_maxlevel t)) ;;
  epp <- imul epd epd ;;
  let h := ddiv 1 (of_int epd) in
  x_ <- floor_int (ddiv x h) ;;
  y_ <- floor_int (ddiv y h) ;;
  a1 <- imul epd (m_clamp y_ epd) ;; a2 <- iadd (m_clamp x_ epd) a1 ;; a3 <- imul (Z.of_nat patch) epp ;; tp <- iadd a2 a3 ;;
  _ <- assert (0 <=? tp)%Z ;;
  k <- get rv (Z.to_nat tp) ;;
  _ <- assert (0 <=? k)%Z ;;
  l <- traverse t ;;
  a <- get l (Z.to_nat k) ;;
  n <- m_node a ;;
  uv <- m_to_reference n x y ;;
  Some (a, uv).

(** ** MakeUniformKnotVector, Knots.hpp 43-54 *)
Definition m_knots (p interior rep : nat) : list R :=
  let h := ddiv 1 (of_int (Z.of_nat (interior + 1))) in
  repeat 0 p ++ flat_map (fun i => repeat (dmul (of_int (Z.of_nat i)) h) rep) (seq 1 interior) ++ repeat 1 p.
(** the points of makeProjectionMatrix, Projector.hpp 268-272: pos + (1.0 / n) * mask with the assertion; n = 1 << M *)
Definition m_mask_point (n : Z) (pos mask : R) : option R :=
  let z := dadd pos (dmul (ddiv 1 (of_int n)) mask) in
  _ <- assert (Rlt_bool z 1 && Rlt_bool 0 z) ;; Some z.
(** MakeInterpolationMask, Localize.hpp 31-40 *)
Definition m_mask (pp1 i : nat) : R := dmul (of_int (Z.of_nat (i + 1))) (ddiv 1 (of_int (Z.of_nat (pp1 + 1)))).
