(** Model of the copies and moves of block cluster trees: Bembel/src/H2Matrix/BlockClusterTree.hpp 43-113, 279-297 with
    H2Matrix/TreeLeaf.hpp and util/GenericMatrix.hpp.
    An object is a tree of nodes with addresses; leaf_ and leaf_pointers_ are shared pointers into a heap.  The columns of sons_
    (a vector of vectors, all of the length rows_) are modelled by their concatenation.  The content of a TreeLeaf (F_, L_, R_ and
    the flag) is a value of type C, because its assignment (TreeLeaf.hpp 145-151) copies the matrices.
    Not modelled: parameters_ (shared by all copies), the release of memory by the shared pointers (nothing is accessed after its
    last owner has gone), exceptions of the allocation. *)
From Coq Require Import List Arith.
From Verif Require Import ModelBase ModelTree ModelBlock.
Import ListNotations.
Local Open Scope nat_scope.

(** the members of BlockClusterTree, 303-315; [None] is a null pointer.  Sons: rows_, cols_ and m_data_ of the GenericMatrix *)
Inductive bct := Bct (self : nat) (cluster1 cluster2 : option addr) (cc : option adm) (leaf lp : option nat) (rows cols : nat)
                     (srows scols : nat) (sons : list bct).
Definition o_self (o : bct) := match o with Bct a _ _ _ _ _ _ _ _ _ _ => a end.
Definition o_leaf (o : bct) := match o with Bct _ _ _ _ l _ _ _ _ _ _ => l end.
Definition o_lp (o : bct) := match o with Bct _ _ _ _ _ l _ _ _ _ _ => l end.

Section Model.
Context {C : Type}.
(** the heap: contents of leaves, vectors of pointers to nodes, and the next unused address *)
Record heap := mkHeap { hl : nat -> option C; hp : nat -> option (list nat); nx : nat }.
Definition set_at {A} (f : nat -> option A) (i : nat) (v : A) : nat -> option A := fun j => if j =? i then Some v else f j.
(** std::make_shared *)
Definition new_leaf (h : heap) (c : C) : nat * heap := (nx h, mkHeap (set_at (hl h) (nx h) c) (hp h) (nx h + 1)).
Definition new_lp (h : heap) : nat * heap := (nx h, mkHeap (hl h) (set_at (hp h) (nx h) []) (nx h + 1)).
Definition new_address (h : heap) : nat * heap := (nx h, mkHeap (hl h) (hp h) (nx h + 1)).

(** the double loop over sons_(i, j), 288-292; GenericMatrix.hpp 57-61 *)
Definition son_indices (srows scols : nat) : list nat := flat_map (fun j => map (fun i => j * srows + i) (seq 0 srows)) (seq 0 scols).
Definition concat_at (l : list (option (list nat))) (ks : list nat) : option (list nat) :=
  r <- map_opt (fun k => x <- nth_error l k ;; x) ks ;; Some (concat r).
(** updateLeafPointers_recursion, 287-297: the pushed addresses; cc_ is not initialised or -1 in a default object (not Refine) *)
Fixpoint pushed (o : bct) : option (list nat) :=
  match o with
  | Bct a _ _ cc _ _ _ _ sr sc sons =>
      match cc with
      | Some Refine => concat_at (map pushed sons) (son_indices sr sc)
      | _ => Some [a]
      end
  end.
(** updateLeafPointers, 278-286: dereferences cluster1_; id_ is -1 for the root of the element tree only *)
Definition update_lp (h : heap) (o : bct) : option heap :=
  match o with
  | Bct _ c1 c2 _ _ lp _ _ _ _ _ =>
      a <- c1 ;;
      match a, c2 with
      | [], Some [] => l <- lp ;; _ <- hp h l ;; v <- pushed o ;; Some (mkHeap (hl h) (set_at (hp h) l v) (nx h))
      | _, _ => Some h
      end
  end.

Section Sons.
Variable f : heap -> nat -> bct -> option (heap * bct).
(** copying the vectors of GenericMatrix: every son gets new storage and is copy constructed *)
Fixpoint each_son (h : heap) (l : list bct) : option (heap * list bct) :=
  match l with
  | [] => Some (h, [])
  | o :: r => let '(a, h1) := new_address h in x <- f h1 a o ;; y <- each_son (fst x) r ;; Some (fst y, snd x :: snd y)
  end.
End Sons.
(** copy constructor, 71-90, for an object at the address a *)
Fixpoint copy (h : heap) (a : nat) (o : bct) {struct o} : option (heap * bct) :=
  match o with
  | Bct _ c1 c2 cc lf lp rows cols sr sc sons =>
      x <- each_son copy h sons ;;
      let h1 := fst x in
      lh <- match lf with
            | Some l => c <- hl h1 l ;; let '(l', h2) := new_leaf h1 c in Some (Some l', h2)
            | None => Some (None, h1)
            end ;;
      let '(l2, h3) := new_lp (snd lh) in
      let o' := Bct a c1 c2 cc (fst lh) (Some l2) rows cols sr sc (snd x) in
      h4 <- update_lp h3 o' ;; Some (h4, o')
  end.
(** move constructor, 58-69: the new object at the address a, the remaining one, GenericMatrix.hpp 37-41 and 63-68 *)
Definition moved (o : bct) : bct :=
  match o with Bct b c1 c2 cc lf lp rows cols sr sc sons => Bct b c1 c2 cc lf lp rows cols sr sc [] end.
Definition move (h : heap) (a : nat) (o : bct) : option (heap * bct * bct) :=
  match o with
  | Bct b c1 c2 cc lf lp rows cols sr sc sons =>
      let o' := Bct a c1 c2 cc lf lp rows cols sr sc sons in
      h1 <- update_lp h o' ;; Some (h1, o', moved o)
  end.
(** operator=, 102-114, after the argument has been constructed: the fields are swapped, the object keeps its address *)
Definition at_address (a : nat) (o : bct) : bct :=
  match o with Bct _ c1 c2 cc lf lp rows cols sr sc sons => Bct a c1 c2 cc lf lp rows cols sr sc sons end.
Definition assign (h : heap) (target other : bct) : option (heap * bct) :=
  let o := at_address (o_self target) other in h1 <- update_lp h o ;; Some (h1, o).
(** default constructor, 46-56 *)
Definition default_object (a : nat) : bct := Bct a None None None None None 0 0 0 0 [].

(** init_BlockClusterTree and appendSubtree, 121-182, as far as the objects are concerned: the tree of ModelBlock becomes a tree
    of nodes; every leaf gets an empty TreeLeaf, only the root gets leaf pointers *)
Section Build.
Variables (empty : C) (t : tree).
Section Each.
Variable g : heap -> nat -> btree -> heap * bct.
Fixpoint each_build (h : heap) (l : list btree) : heap * list bct :=
  match l with
  | [] => (h, [])
  | o :: r => let '(a, h1) := new_address h in let x := g h1 a o in let y := each_build (fst x) r in (fst y, snd x :: snd y)
  end.
End Each.
Fixpoint build (h : heap) (a : nat) (b : btree) {struct b} : heap * bct :=
  match b with
  | BT Refine c1 c2 rows cols sons =>
      let x := each_build build h sons in
      (fst x, Bct a (Some c1) (Some c2) (Some Refine) None None rows cols (length (sons_of t c1)) (length (sons_of t c2)) (snd x))
  | BT cc c1 c2 rows cols _ =>
      let '(l, h1) := new_leaf h empty in (h1, Bct a (Some c1) (Some c2) (Some cc) (Some l) None rows cols 0 0 [])
  end.
Definition init_object (h : heap) (a : nat) (b : btree) : option (heap * bct) :=
  let '(h1, o) := build h a b in
  let '(l, h2) := new_lp h1 in
  match o with
  | Bct a c1 c2 cc lf _ rows cols sr sc sons =>
      let o' := Bct a c1 c2 cc lf (Some l) rows cols sr sc sons in
      h3 <- update_lp h2 o' ;; Some (h3, o')
  end.
End Build.

(** ** programs with variables of type BlockClusterTree; declared variables are numbered, [None] is one that has gone out of scope *)
Record state := mkState { vars : list (option bct); mem : heap }.
Definition variable (s : state) (x : nat) : option bct := o <- nth_error (vars s) x ;; o.
Definition put (s : state) (x : nat) (o : option bct) : list (option bct) := firstn x (vars s) ++ o :: skipn (x + 1) (vars s).
Definition declare (s : state) (h : heap) (o : bct) : state := mkState (vars s ++ [Some o]) h.
(** all objects in memory, and the one at an address *)
Fixpoint objects (o : bct) : list bct := match o with Bct _ _ _ _ _ _ _ _ _ _ sons => o :: flat_map objects sons end.
Definition deref (s : state) (a : nat) : option bct :=
  find (fun o => o_self o =? a) (flat_map (fun v => match v with Some o => objects o | None => [] end) (vars s)).

Inductive op :=
| Build (t : tree) (near : addr -> addr -> bool) (mincl : BinNums.Z)  (* BlockClusterTree x(linOp, ansatz_space) *)
| Default                                                    (* BlockClusterTree x *)
| Copy (y : nat)                                             (* BlockClusterTree x(y) *)
| Move (y : nat)                                             (* BlockClusterTree x(std::move(y)) *)
| Assign (x y : nat)                                         (* x = y *)
| MoveAssign (x y : nat)                                     (* x = std::move(y) *)
| SetLeaf (x k : nat) (c : C)                                (* ( *(x.lbegin() + k))->get_leaf() = c *)
| Leave (x : nat).                                           (* end of the scope of x *)
Section Run.
Variable empty : C.
Definition step (s : state) (p : op) : option state :=
  match p with
  | Build t near mincl =>
      b <- block_tree t near mincl ;; let '(a, h) := new_address (mem s) in
      x <- init_object empty t h a b ;; Some (declare s (fst x) (snd x))
  | Default => let '(a, h) := new_address (mem s) in Some (declare s h (default_object a))
  | Copy y => o <- variable s y ;; let '(a, h) := new_address (mem s) in x <- copy h a o ;; Some (declare s (fst x) (snd x))
  | Move y => o <- variable s y ;; let '(a, h) := new_address (mem s) in
      x <- move h a o ;; let '(h1, o', old) := x in Some (declare (mkState (put s y (Some old)) h1) h1 o')
  | Assign x y => o <- variable s y ;; target <- variable s x ;; let '(a, h) := new_address (mem s) in
      z <- copy h a o ;; w <- assign (fst z) target (snd z) ;; Some (mkState (put s x (Some (snd w))) (fst w))
  | MoveAssign x y => o <- variable s y ;; let '(a, h) := new_address (mem s) in
      z <- move h a o ;; let '(h1, o', old) := z in
      let s1 := mkState (put s y (Some old)) h1 in
      target <- variable s1 x ;; w <- assign h1 target o' ;; Some (mkState (put s1 x (Some (snd w))) (fst w))
  | SetLeaf x k c => o <- variable s x ;; l <- o_lp o ;; v <- hp (mem s) l ;; a <- nth_error v k ;; b <- deref s a ;;
      lf <- o_leaf b ;; _ <- hl (mem s) lf ;; Some (mkState (vars s) (mkHeap (set_at (hl (mem s)) lf c) (hp (mem s)) (nx (mem s))))
  | Leave x => _ <- variable s x ;; Some (mkState (put s x None) (mem s))
  end.
Fixpoint run_from (s : state) (ps : list op) : option state := match ps with [] => Some s | p :: r => s' <- step s p ;; run_from s' r end.
Definition run (ps : list op) : option state := run_from (mkState [] (mkHeap (fun _ => None) (fun _ => None) 0)) ps.
End Run.

(** what iterating from lbegin() to lend() shows: get_cc(), get_cluster1(), get_cluster2(), rows(), cols() and the leaf *)
Definition leaf_view (s : state) (a : nat) : option (adm * addr * addr * nat * nat * C) :=
  b <- deref s a ;;
  match b with
  | Bct _ c1 c2 cc lf _ rows cols _ _ _ => a1 <- c1 ;; a2 <- c2 ;; k <- cc ;; l <- lf ;; c <- hl (mem s) l ;; Some (k, a1, a2, rows, cols, c)
  end.
Definition iterate_leaves (s : state) (x : nat) : option (list (adm * addr * addr * nat * nat * C)) :=
  o <- variable s x ;; l <- o_lp o ;; v <- hp (mem s) l ;; map_opt (leaf_view s) v.
End Model.
