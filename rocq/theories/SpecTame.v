(** Vocabulary for the patches around a corner of the mesh (C23). *)
From Coq Require Import List Arith.
From Verif Require Import SpecMesh.
Import ListNotations.
Local Open Scope nat_scope.

(** corner V belongs to patch p *)
Definition around (verts : list (list nat)) (V p : nat) : Prop := p < length verts /\ In V (nth p verts []).
(** every corner belongs to at most three patches, or to four patches whose edges at this corner are all shared *)
Definition tame (verts : list (list nat)) : Prop :=
  forall V l, NoDup l -> (forall p, In p l -> around verts V p) ->
    length l <= 4 /\
    (length l = 4 -> forall p i, around verts V p -> i < 4 -> pvert verts p i = V \/ pvert verts p ((i + 1) mod 4) = V ->
       exists q j, q < length verts /\ j < 4 /\ (q, j) <> (p, i) /\ glued verts p i q j).
