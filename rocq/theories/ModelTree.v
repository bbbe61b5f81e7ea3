(** Model of Bembel/src/ClusterTree/ElementTree.hpp and ElementTreeNode.hpp.

    Memory model.  The nodes are owned by value by the vector [sons_] of their father, and that
    vector is resized once, from empty.  Hence a node never moves and its address is its position in
    the tree: the address of root_.sons_[p].sons_[i].sons_[j] is the list [j; i; p] (innermost first).
    A pointer is an [option addr], nullptr is [None].  The store maps addresses to nodes; reading an
    address with no node is undefined behaviour.  The root (level -1, patch -1) carries no data that
    the modelled functions use, only its sons, and is not stored.

    double coordinates (llc_) are rationals: the code only adds dyadic numbers.
    int is unbounded (nat). *)
From Coq Require Import List Arith Bool QArith Qround.
From Verif Require Import ModelBase.
Import ListNotations.
Local Close Scope Q_scope.
Local Open Scope nat_scope.

Definition addr := list nat.
Definition addr_eqb (a b : addr) : bool := if list_eq_dec Nat.eq_dec a b then true else false.
Definition ptr_eqb (p q : option addr) : bool :=
  match p, q with
  | None, None => true
  | Some a, Some b => addr_eqb a b
  | _, _ => false
  end.

(** ElementTreeNode.hpp 270-300 (data members); midpoint_ and radius_ are modelled separately (C14, C15).
    [n_ref] is sons_.size() != 0. *)
Record node := mkNode {
  n_id : nat; n_level : nat; n_patch : nat;
  n_llc : Q * Q;
  n_verts : list nat;
  n_adj : list (option addr);
  n_prev : option addr; n_next : option addr;
  n_ref : bool }.

Definition with_adj (n : node) (x : list (option addr)) : node :=
  mkNode (n_id n) (n_level n) (n_patch n) (n_llc n) (n_verts n) x (n_prev n) (n_next n) (n_ref n).
Definition with_prev (n : node) (x : option addr) : node :=
  mkNode (n_id n) (n_level n) (n_patch n) (n_llc n) (n_verts n) (n_adj n) x (n_next n) (n_ref n).
Definition with_next (n : node) (x : option addr) : node :=
  mkNode (n_id n) (n_level n) (n_patch n) (n_llc n) (n_verts n) (n_adj n) (n_prev n) x (n_ref n).
(** sons_.resize(4), prev_ = next_ = nullptr *)
Definition with_sons (n : node) : node :=
  mkNode (n_id n) (n_level n) (n_patch n) (n_llc n) (n_verts n) (n_adj n) None None true.

Definition store := addr -> option node.
Definition sset (s : store) (a : addr) (n : node) : store :=
  fun b => if addr_eqb b a then Some n else s b.

(** ElementTree.hpp 740-760 (data members); geometry_ enters only through the corner points *)
Record tree := mkTree {
  t_store : store;
  t_first : option addr; t_last : option addr;
  t_patches : nat; t_maxlevel : nat; t_points : nat; t_elements : nat }.

(** ** updateTopology, ElementTree.hpp 584-615 *)

(** e1 = {min(v1,v2), max(v1,v2)}, ElementTree.hpp 591-593 *)
Definition edge_of (n : node) (j : nat) : option (nat * nat) :=
  v1 <- get (n_verts n) j ;;
  v2 <- get (n_verts n) ((j + 1) mod 4) ;;
  Some (if v1 <? v2 then v1 else v2, if v1 <? v2 then v2 else v1).
Definition edge_eqb (e f : nat * nat) : bool := (fst e =? fst f) && (snd e =? snd f).

(** edges.find(e), ElementTree.hpp 595; the std::map as an association list *)
Fixpoint find_edge (e : nat * nat) (edges : list ((nat * nat) * addr)) : option addr :=
  match edges with
  | [] => None
  | (f, a) :: r => if edge_eqb e f then Some a else find_edge e r
  end.

(** elements[i]->adjcents_[j] = p *)
Definition set_adj (s : store) (a : addr) (j : nat) (p : option addr) : option store :=
  n <- s a ;; l <- set (n_adj n) j p ;; Some (sset s a (with_adj n l)).

(** the inner loop over k with break, ElementTree.hpp 600-608 *)
Fixpoint link_back (s : store) (b : addr) (e : nat * nat) (a : addr) (ks : list nat) : option store :=
  match ks with
  | [] => Some s
  | k :: r => nb <- s b ;; f <- edge_of nb k ;;
      if edge_eqb e f then set_adj s b k (Some a) else link_back s b e a r
  end.

(** body of the two loops, ElementTree.hpp 589-613 *)
Definition topo_step (a : addr) (j : nat) (se : store * list ((nat * nat) * addr))
  : option (store * list ((nat * nat) * addr)) :=
  let (s, edges) := se in
  n <- s a ;;
  e <- edge_of n j ;;
  match find_edge e edges with
  | Some b => s1 <- set_adj s a j (Some b) ;; s2 <- link_back s1 b e a [0; 1; 2; 3] ;; Some (s2, edges)
  | None => Some (s, edges ++ [(e, a)])
  end.

(** for j in 0..3 *)
Definition topo_element (a : addr) (se : store * list ((nat * nat) * addr)) :=
  for_opt 4 (topo_step a) se.
Fixpoint topo_elements (els : list addr) (se : store * list ((nat * nat) * addr)) :=
  match els with
  | [] => Some se
  | a :: r => se' <- topo_element a se ;; topo_elements r se'
  end.
Definition update_topology (s : store) (els : list addr) : option store :=
  se <- topo_elements els (s, []) ;; Some (fst se).

(** ** refineLeaf, ElementTree.hpp 624-739 *)

(** first j with adjcents_[j] == a; the vector refNeighbours is zero-initialised, 627 and 634-638 *)
Fixpoint find_back (l : list (option addr)) (a : addr) (js : list nat) : option nat :=
  match js with
  | [] => Some 0
  | j :: r => p <- get l j ;; if ptr_eqb p (Some a) then Some j else find_back l a r
  end.

(** refNeighbours[i], ElementTree.hpp 630-642; -1 is [None] *)
Definition ref_neighbour (s : store) (a : addr) (c : node) (i : nat) : option (option nat) :=
  p <- get (n_adj c) i ;;
  match p with
  | Some b => nb <- s b ;; j <- find_back (n_adj nb) a [0; 1; 2; 3] ;; Some (Some j)
  | None => Some None
  end.

(** one step of the loop determining new points, ElementTree.hpp 644-670;
    the state is (ptIds, number_of_points_, elements) *)
Definition new_point (s : store) (c : node) (rn : list (option nat)) (i : nat)
  (st : list nat * nat * list addr) : option (list nat * nat * list addr) :=
  let '(ids, np, els) := st in
  p <- get (n_adj c) i ;;
  match p with
  | Some b =>
      nb <- s b ;;
      if n_ref nb then
        r <- get rn i ;;
        match r with
        | Some j =>
            sn <- s (j :: b) ;;
            v <- get (n_verts sn) ((j + 1) mod 4) ;;
            Some (ids ++ [v], np, els ++ [j :: b; ((j + 1) mod 4) :: b])
        | None => None
        end
      else Some (ids ++ [np], S np, els)
  | None => Some (ids ++ [np], S np, els)
  end.

(** Constants::llcs, Constants.hpp; llc_ of son i, ElementTree.hpp 708-711 *)
Definition llcs_x : list Q := [0 # 1; 1 # 2; 1 # 2; 0 # 1]%Q.
Definition llcs_y : list Q := [0 # 1; 0 # 1; 1 # 2; 1 # 2]%Q.
Definition pow2Q (l : nat) : Q := inject_Z (Z.of_nat (2 ^ l)).
Definition son_llc (c : node) (i : nat) : Q * Q :=
  ((fst (n_llc c) + nth i llcs_x 0 / pow2Q (n_level c))%Q,
   (snd (n_llc c) + nth i llcs_y 0 / pow2Q (n_level c))%Q).

(** vertices of son i from the corners v and the points p, ElementTree.hpp 714-733 *)
Definition son_verts (v p : list nat) (i : nat) : option (list nat) :=
  v0 <- get v 0 ;; v1 <- get v 1 ;; v2 <- get v 2 ;; v3 <- get v 3 ;;
  p0 <- get p 0 ;; p1 <- get p 1 ;; p2 <- get p 2 ;; p3 <- get p 3 ;; p4 <- get p 4 ;;
  get [ [v0; p0; p4; p3]; [p0; v1; p1; p4]; [p4; p1; v2; p2]; [p3; p4; p2; v3] ] i.

(** son i, ElementTree.hpp 683-712 *)
Definition make_son (a : addr) (c : node) (p : list nat) (i : nat) : option node :=
  vs <- son_verts (n_verts c) p i ;;
  Some (mkNode (4 * n_id c + i) (S (n_level c)) (n_patch c) (son_llc c i) vs
          [None; None; None; None]
          (if i =? 0 then n_prev c else Some ((i - 1) :: a))
          (if i =? 3 then n_next c else Some ((i + 1) :: a))
          false).

(** (cur_el.prev_)->next_ = x when prev_ is not null, 687-688, and the symmetric 697-698 *)
Definition set_next (s : store) (p : option addr) (x : addr) : option store :=
  match p with None => Some s | Some b => n <- s b ;; Some (sset s b (with_next n (Some x))) end.
Definition set_prev (s : store) (p : option addr) (x : addr) : option store :=
  match p with None => Some s | Some b => n <- s b ;; Some (sset s b (with_prev n (Some x))) end.

(** refineLeaf.  The loop 683-713 is unrolled: the fields of son i are written at once. *)
Definition refine_leaf (t : tree) (a : addr) : option tree :=
  let s := t_store t in
  c <- s a ;;
  if n_ref c then Some t else
  rn <- map_opt (ref_neighbour s a c) [0; 1; 2; 3] ;;
  r <- for_opt 4 (new_point s c rn) ([], t_points t, []) ;;
  let '(ids, np, els) := r in
  let pts := ids ++ [np] in
  n0 <- make_son a c pts 0 ;; n1 <- make_son a c pts 1 ;;
  n2 <- make_son a c pts 2 ;; n3 <- make_son a c pts 3 ;;
  let s1 := sset (sset (sset (sset (sset s a (with_sons c)) (0 :: a) n0) (1 :: a) n1) (2 :: a) n2) (3 :: a) n3 in
  s2 <- set_next s1 (n_prev c) (0 :: a) ;;
  s3 <- set_prev s2 (n_next c) (3 :: a) ;;
  s4 <- update_topology s3 (els ++ [0 :: a; 1 :: a; 2 :: a; 3 :: a]) ;;
  Some (mkTree s4
          (if ptr_eqb (Some a) (t_first t) then Some (0 :: a) else t_first t)
          (if ptr_eqb (Some a) (t_last t) then Some (3 :: a) else t_last t)
          (t_patches t)
          (if t_maxlevel t <? n_level c + 1 then n_level c + 1 else t_maxlevel t)
          (S np) (t_elements t + 3)).

(** ** refineUniformly_recursion, ElementTree.hpp 169-177; [fuel] bounds the depth of the recursion
    (the theorems show that max_level_ + 2 never runs out) *)
Fixpoint refine_rec (fuel : nat) (t : tree) (a : addr) : option tree :=
  match fuel with
  | O => None
  | S f =>
      c <- t_store t a ;;
      if n_ref c then
        t0 <- refine_rec f t (0 :: a) ;; t1 <- refine_rec f t0 (1 :: a) ;;
        t2 <- refine_rec f t1 (2 :: a) ;; refine_rec f t2 (3 :: a)
      else refine_leaf t a
  end.
Definition refine_at (t : tree) (a : addr) : option tree := refine_rec (t_maxlevel t + 2) t a.

(** refineUniformly, ElementTree.hpp 181-184 (the root has P sons) *)
Definition refine_uniformly (t : tree) : option tree :=
  for_opt (t_patches t) (fun p t' => refine_rec (t_maxlevel t + 2) t' [p]) t.

(** refinePatch, ElementTree.hpp 190-193 *)
Definition refine_patch (t : tree) (p : nat) : option tree := refine_at t [p].

(** the public mutators of an initialised tree *)
Inductive op := OpUniform | OpPatch (p : nat) | OpNode (a : addr).
Definition run_op (t : tree) (o : op) : option tree :=
  match o with
  | OpUniform => refine_uniformly t
  | OpPatch p => refine_patch t p
  | OpNode a => refine_at t a
  end.
Fixpoint run (t : tree) (os : list op) : option tree :=
  match os with
  | [] => Some t
  | o :: r => t' <- run_op t o ;; run t' r
  end.

(** ** init_ElementTree, ElementTree.hpp 105-161 *)

(** look-up of a corner in uniquePts, 143-154 *)
Fixpoint find_pt {Pt} (close : Pt -> Pt -> bool) (v : Pt) (pts : list Pt) : nat :=
  match pts with
  | [] => 0
  | p :: r => if close p v then 0 else S (find_pt close v r)
  end.
Definition add_pt {Pt} (close : Pt -> Pt -> bool) (pts : list Pt) (v : Pt) : nat * list Pt :=
  let k := find_pt close v pts in
  if k <? length pts then (k, pts) else (length pts, pts ++ [v]).
Fixpoint add_pts {Pt} (close : Pt -> Pt -> bool) (pts : list Pt) (vs : list Pt) : list nat * list Pt :=
  match vs with
  | [] => ([], pts)
  | v :: r => let (k, pts1) := add_pt close pts v in
              let (ks, pts2) := add_pts close pts1 r in (k :: ks, pts2)
  end.
Fixpoint patch_vertices {Pt} (close : Pt -> Pt -> bool) (pts : list Pt) (corners : list (list Pt))
  : list (list nat) * list Pt :=
  match corners with
  | [] => ([], pts)
  | c :: r => let (ks, pts1) := add_pts close pts c in
              let (kss, pts2) := patch_vertices close pts1 r in (ks :: kss, pts2)
  end.

(** root.sons_[i] before updateTopology, 121-139 *)
Definition patch_node (P i : nat) (vs : list nat) : node :=
  mkNode i 0 i (0 # 1, 0 # 1)%Q vs [None; None; None; None]
    (if i =? 0 then None else Some [i - 1]) (if i =? P - 1 then None else Some [i + 1]) false.
Definition patch_store (verts : list (list nat)) : store :=
  fun a => match a with
           | [p] => match nth_error verts p with
                    | Some vs => Some (patch_node (length verts) p vs)
                    | None => None
                    end
           | _ => None
           end.

(** the tree before the refinement loop, 107-158; [verts] are the corner indices of the patches *)
Definition init_patches (verts : list (list nat)) (npts max_level : nat) : option tree :=
  let P := length verts in
  s <- update_topology (patch_store verts) (map (fun p => [p]) (seq 0 P)) ;;
  Some (mkTree s (if P =? 0 then None else Some [0]) (if P =? 0 then None else Some [P - 1])
          P max_level npts P).
Definition refine_times (M : nat) (t : tree) : option tree :=
  for_opt M (fun _ t' => refine_uniformly t') t.
Definition init_tree {Pt} (close : Pt -> Pt -> bool) (corners : list (list Pt)) (max_level : nat) : option tree :=
  let (verts, pts) := patch_vertices close [] corners in
  t <- init_patches verts (length pts) max_level ;;
  refine_times max_level t.

(** ** iteration *)

(** const_iterator: from pointer [cur] by next_ until [stop], ElementTreeNode.hpp 27-83 *)
Fixpoint iterate (fuel : nat) (s : store) (cur stop : option addr) : option (list addr) :=
  if ptr_eqb cur stop then Some [] else
  match fuel, cur with
  | S f, Some a => n <- s a ;; r <- iterate f s (n_next n) stop ;; Some (a :: r)
  | _, _ => None
  end.

(** pbegin .. pend, ElementTree.hpp 298-309 *)
Definition traverse (t : tree) : option (list addr) :=
  match t_last t with
  | Some b => nb <- t_store t b ;; iterate (t_elements t) (t_store t) (t_first t) (n_next nb)
  | None => None
  end.

(** front, back, cbegin .. cend, ElementTreeNode.hpp 207-245 *)
Fixpoint front (fuel : nat) (s : store) (a : addr) : option addr :=
  n <- s a ;; if n_ref n then match fuel with S f => front f s (0 :: a) | O => None end else Some a.
Fixpoint back (fuel : nat) (s : store) (a : addr) : option addr :=
  n <- s a ;; if n_ref n then match fuel with S f => back f s (3 :: a) | O => None end else Some a.
Definition cluster_elements (t : tree) (a : addr) : option (list addr) :=
  let s := t_store t in
  f <- front (t_maxlevel t) s a ;; b <- back (t_maxlevel t) s a ;; nb <- s b ;;
  iterate (t_elements t) s (Some f) (n_next nb).

(** ** queries *)

(** get_h, ElementTreeNode.hpp 193 *)
Definition get_h (n : node) : Q := (1 / pow2Q (n_level n))%Q.

(** compute_global_id, ElementTree.hpp 561-565 (integer division) *)
Definition global_id (t : tree) (n : node) : nat :=
  t_patches t * ((2 ^ n_level n * 2 ^ n_level n - 1) / 3) + n_id n.

(** patchTopologyInfo, ElementTree.hpp 510-533; the result {a, b, j, k}, with [None] for -1.
    k = 4 when no matching edge is found, as in the code. *)
Fixpoint find_adj_id (s : store) (l : list (option addr)) (id : nat) (ks : list nat) : option nat :=
  match ks with
  | [] => Some 4
  | k :: r => p <- get l k ;;
      match p with
      | Some b => nb <- s b ;; if n_id nb =? id then Some k else find_adj_id s l id r
      | None => find_adj_id s l id r
      end
  end.
Definition interface := (nat * option nat * nat * option nat)%type.
Definition topo_info_step (s : store) (n : node) (j : nat) (out : list interface) : option (list interface) :=
  p <- get (n_adj n) j ;;
  match p with
  | Some b => nb <- s b ;;
      if n_id n <? n_id nb then
        k <- find_adj_id s (n_adj nb) (n_id n) [0; 1; 2; 3] ;;
        Some (out ++ [(n_id n, Some (n_id nb), j, Some k)])
      else Some out
  | None => Some (out ++ [(n_id n, None, j, None)])
  end.
Definition patch_topology_info (t : tree) : option (list interface) :=
  for_opt (t_patches t) (fun p out => n <- t_store t [p] ;; for_opt 4 (topo_info_step (t_store t) n) out) [].

(** computeReorderingVector, ElementTree.hpp 544-559 *)
Definition floorQ (q : Q) : nat := Z.to_nat (Qfloor q).
Definition tp_index (t : tree) (n : node) : nat :=
  let h := get_h n in
  let x := floorQ ((fst (n_llc n) + (1 # 2) * h) / h)%Q in
  let y := floorQ ((snd (n_llc n) + (1 # 2) * h) / h)%Q in
  n_patch n * (2 ^ t_maxlevel t * 2 ^ t_maxlevel t) + y * 2 ^ t_maxlevel t + x.
Fixpoint reorder_loop (t : tree) (l : list addr) (out : list nat) : option (list nat) :=
  match l with
  | [] => Some out
  | a :: r => n <- t_store t a ;; out' <- set out (tp_index t n) (n_id n) ;; reorder_loop t r out'
  end.
Definition reordering_vector (t : tree) : option (list nat) :=
  l <- traverse t ;; reorder_loop t l (repeat 0 (t_elements t)).

(** mapToReferenceElement, ElementTreeNode.hpp 170-174 (with its assert) *)
Definition map_to_reference (n : node) (x y : Q) : option (Q * Q) :=
  let u := ((x - fst (n_llc n)) / get_h n)%Q in
  let v := ((y - snd (n_llc n)) / get_h n)%Q in
  _ <- assert (Qle_bool 0 u && Qle_bool u 1 && Qle_bool 0 v && Qle_bool v 1) ;;
  Some (u, v).

(** evaluateOnPatch, FunctionEvaluator.hpp 80-105, up to the call of evaluate: the element that is used
    and the local coordinates; [rv] is the stored reordering_vector_, get_refinement_level() is the
    max_level_ of the mesh *)
Definition clamp_index (q : Q) (n : nat) : nat :=
  Z.to_nat (Z.min (Z.max (Qfloor q) 0) (Z.of_nat n - 1)).
Definition locate (t : tree) (rv : list nat) (patch : nat) (x y : Q) : option (addr * (Q * Q)) :=
  let epd := 2 ^ t_maxlevel t in
  let h := (1 / inject_Z (Z.of_nat epd))%Q in
  let xi := clamp_index (x / h) epd in
  let yi := clamp_index (y / h) epd in
  k <- get rv (xi + epd * yi + patch * (epd * epd)) ;;
  l <- traverse t ;;
  a <- get l k ;;
  n <- t_store t a ;;
  uv <- map_to_reference n x y ;;
  Some (a, uv).
