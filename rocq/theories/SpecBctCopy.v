(** What variables of type BlockClusterTree should mean: every variable is a value of its own. *)
From Coq Require Import List Arith.
From Verif Require Import ModelBase ModelTree ModelBlock ModelBctCopy.
Import ListNotations.
Local Open Scope nat_scope.

Section Spec.
Context {C : Type} (empty : C).
(** a block cluster tree with the contents of its leaves, in their order; default constructed and moved-from variables are valid
    but nothing is known about them *)
Inductive value := Known (b : btree) (cs : list C) | Unspecified | OutOfScope.
Definition update {A} (l : list A) (x : nat) (v : A) : list A := firstn x l ++ v :: skipn (x + 1) l.
Definition source (vs : list value) (y : nat) : option value :=
  match nth_error vs y with Some (Known b cs) => Some (Known b cs) | _ => None end.
Definition in_scope (vs : list value) (x : nat) : bool := match nth_error vs x with Some OutOfScope | None => false | _ => true end.
Definition meaning (vs : list value) (p : op (C := C)) : option (list value) :=
  match p with
  | Build t near mincl => b <- block_tree t near mincl ;; Some (vs ++ [Known b (repeat empty (length (leaves b)))])
  | Default => Some (vs ++ [Unspecified])
  | Copy y => v <- source vs y ;; Some (vs ++ [v])
  | Move y => v <- source vs y ;; Some (update vs y Unspecified ++ [v])
  | Assign x y => v <- source vs y ;; if in_scope vs x then Some (update vs x v) else None
  | MoveAssign x y => v <- source vs y ;; if in_scope vs x then Some (update (update vs y Unspecified) x v) else None
  | SetLeaf x k c => v <- source vs x ;;
      match v with Known b cs => if k <? length cs then Some (update vs x (Known b (update cs k c))) else None | _ => None end
  | Leave x => if in_scope vs x then Some (update vs x OutOfScope) else None
  end.
Fixpoint meanings_from (vs : list value) (ps : list op) : option (list value) := match ps with [] => Some vs | p :: r => vs' <- meaning vs p ;; meanings_from vs' r end.
Definition meanings (ps : list op) : option (list value) := meanings_from [] ps.
(** the blocks and the contents of the leaves *)
Definition view (b : btree) (c : C) := match b with BT cc c1 c2 rows cols _ => (cc, c1, c2, rows, cols, c) end.
Definition views (b : btree) (cs : list C) := map (fun bc => view (fst bc) (snd bc)) (combine (leaves b) cs).
End Spec.
