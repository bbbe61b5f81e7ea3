(** Vocabulary for the element lists and the exports, independent of the code. *)
From Coq Require Import String List Arith ZArith Reals.
From Verif Require Import ModelTree SpecTree SpecMesh.
Import ListNotations.

(** edge i of the element with lower left corner (X,Y), in units of 1/E, lies on edge i of the patch *)
Definition on_patch_edge (E i X Y : nat) : Prop :=
  match i with
  | 0 => Y = 0
  | 1 => X + 1 = E
  | 2 => Y + 1 = E
  | _ => X = 0
  end.
Definition on_patch_edge_b (E i X Y : nat) : bool :=
  match i with
  | 0 => Y =? 0
  | 1 => X + 1 =? E
  | 2 => Y + 1 =? E
  | _ => X =? 0
  end.
(** no other patch edge is glued to edge i of patch p: it belongs to the boundary of the surface *)
Definition free_edge (verts : list (list nat)) (p i : nat) : Prop :=
  ~ exists q j, q < length verts /\ j < 4 /\ (q, j) <> (p, i) /\ glued verts p i q j.
(** number of edges of the element that lie on the boundary of its patch *)
Definition boundary_edges (E X Y : nat) : nat :=
  length (filter (fun i => on_patch_edge_b E i X Y) [0; 1; 2; 3]).

(** all elements have level M *)
Definition uniform (t : tree) (M : nat) : Prop := forall a, is_leaf t a -> pos_level a = M.

(** parameters of the midpoint of the element at position a *)
Definition mid_x (a : addr) : R := ((INR (pos_x a) + 1 / 2) / 2 ^ pos_level a)%R.
Definition mid_y (a : addr) : R := ((INR (pos_y a) + 1 / 2) / 2 ^ pos_level a)%R.

(** ** data sets *)
(** the calls since the last clearData, in order *)
From Verif Require Import ModelExport.
Local Open Scope nat_scope.
Fixpoint since_clear (os : list export_op) (acc : list export_op) : list export_op :=
  match os with
  | [] => acc
  | Clear :: r => since_clear r []
  | o :: r => since_clear r (acc ++ [o])
  end.
(** the arrays a call adds: one value per element, taken at the midpoint of the element *)
Definition arrays_of (eval : nat -> R -> R -> R * R * R) (els : list addr) (o : export_op) : list data_array :=
  match o with
  | AddPatch name cols f => [DataArray name cols (map (fun a => f (pos_patch a) (mid_x a) (mid_y a)) els)]
  | AddSpace name cols f => [DataArray name cols (map (fun a => f (eval (pos_patch a) (mid_x a) (mid_y a))) els)]
  | AddComplex name cols f =>
      [DataArray (name ++ "_real") cols (map (fun a => map fst (f (pos_patch a) (mid_x a) (mid_y a))) els);
       DataArray (name ++ "_imag") cols (map (fun a => map snd (f (pos_patch a) (mid_x a) (mid_y a))) els)]
  | Clear => []
  end.
(** values are scalars or vectors of R^3 (C^3) *)
Definition one_or_three (o : export_op) : Prop :=
  match o with
  | AddPatch _ cols _ | AddSpace _ cols _ | AddComplex _ cols _ => cols = 1 \/ cols = 3
  | Clear => True
  end.
(** data sets since the last clearData (None) *)
Fixpoint sets_since {A} (os : list (option A)) (acc : list A) : list A :=
  match os with
  | [] => acc
  | None :: r => sets_since r []
  | Some o :: r => sets_since r (acc ++ [o])
  end.
