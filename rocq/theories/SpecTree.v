(** Vocabulary for the properties of the element tree, independent of the refinement code. *)
From Coq Require Import List Arith QArith.
From Verif Require Import ModelTree.
Import ListNotations.
Local Close Scope Q_scope.
Local Open Scope nat_scope.

(** what the position of a node in the tree (list of son numbers, innermost first) should mean *)
Fixpoint pos_id (a : addr) : nat :=
  match a with [] => 0 | i :: r => 4 * pos_id r + i end.
Definition pos_level (a : addr) : nat := length a - 1.
Definition pos_patch (a : addr) : nat := last a 0.
(** integer coordinates of the lower left corner in units of 2^-level; son numbers run
    counter-clockwise: 0 lower left, 1 lower right, 2 upper right, 3 upper left *)
Definition quad_x (i : nat) : nat := match i with 1 => 1 | 2 => 1 | _ => 0 end.
Definition quad_y (i : nat) : nat := match i with 2 => 1 | 3 => 1 | _ => 0 end.
Fixpoint pos_x (a : addr) : nat :=
  match a with [] => 0 | [_] => 0 | i :: r => 2 * pos_x r + quad_x i end.
Fixpoint pos_y (a : addr) : nat :=
  match a with [] => 0 | [_] => 0 | i :: r => 2 * pos_y r + quad_y i end.

(** a node exists / is a leaf of the tree *)
Definition exists_node (t : tree) (a : addr) : Prop := t_store t a <> None.
Definition is_leaf (t : tree) (a : addr) : Prop := exists n, t_store t a = Some n /\ n_ref n = false.

(** the node at address a has the point (x,y) of the patch in its half-open square *)
Definition covers (n : node) (x y : Q) : Prop :=
  (fst (n_llc n) <= x /\ x < fst (n_llc n) + get_h n /\ snd (n_llc n) <= y /\ y < snd (n_llc n) + get_h n)%Q.

(** the leaves l, with levels at most L, partition the interval [from, upto) of finest ids in order *)
Fixpoint contiguous (L from : nat) (l : list (nat * nat)) (upto : nat) : Prop :=
  match l with
  | [] => from = upto
  | (id, lev) :: r => lev <= L /\ from = id * 4 ^ (L - lev) /\ contiguous L ((id + 1) * 4 ^ (L - lev)) r upto
  end.

(** b lies in the subtree of a *)
Definition under (a b : addr) : Prop := exists x, b = x ++ a.

(** closed square *)
Definition in_closed (n : node) (x y : Q) : Prop :=
  (fst (n_llc n) <= x /\ x <= fst (n_llc n) + get_h n /\ snd (n_llc n) <= y /\ y <= snd (n_llc n) + get_h n)%Q.

(** calls a user may make: existing patches and nodes *)
Definition op_valid (t : tree) (o : op) : Prop :=
  match o with
  | OpUniform => True
  | OpPatch p => p < t_patches t
  | OpNode a => exists_node t a
  end.
Fixpoint ops_valid (t : tree) (os : list op) : Prop :=
  match os with
  | [] => True
  | o :: r => op_valid t o /\ forall t', run_op t o = Some t' -> ops_valid t' r
  end.

(** trees obtained from a geometry (any corner points, any notion of coinciding points) by
    initialisation with any level and any valid sequence of refinement calls *)
Definition reachable (t : tree) : Prop :=
  exists (Pt : Type) (close : Pt -> Pt -> bool) (corners : list (list Pt)) M os t0,
    corners <> [] /\ (forall c, In c corners -> length c = 4) /\
    init_tree close corners M = Some t0 /\ ops_valid t0 os /\ run t0 os = Some t.

(** ** topology *)
(** the unordered vertex pair of edge j of the node at address a *)
Definition slot_edge (s : store) (a : addr) (j : nat) : option (nat * nat) :=
  match s a with
  | Some n => match nth_error (n_verts n) j, nth_error (n_verts n) ((j + 1) mod 4) with
              | Some v, Some w => Some (Nat.min v w, Nat.max v w)
              | _, _ => None
              end
  | None => None
  end.

(** edges (b,k) and (a,j) of elements of the list els are different edges with the same end points *)
Definition partner (s : store) (els : list addr) (a : addr) (j : nat) (b : addr) (k : nat) : Prop :=
  In b els /\ k < 4 /\ (b, k) <> (a, j) /\ slot_edge s b k = slot_edge s a j.

(** every vertex pair belongs to at most two element edges *)
Definition at_most_two (s : store) (els : list addr) : Prop :=
  forall a i b j c k, In a els -> i < 4 -> In b els -> j < 4 -> In c els -> k < 4 ->
    slot_edge s a i = slot_edge s b j -> slot_edge s b j = slot_edge s c k ->
    (a, i) = (b, j) \/ (b, j) = (c, k) \/ (a, i) = (c, k).

(** the neighbour recorded for edge j of the element at address a *)
Definition adj_at (s : store) (a : addr) (j : nat) : option addr :=
  match s a with Some n => nth j (n_adj n) None | None => None end.
