(** Vocabulary for the number of degrees of freedom (C84), independent of the code. *)
From Coq Require Import List Arith Relations.
From Verif Require Import SpecMesh.
Import ListNotations.

(** corner k of patch a and corner l of patch b are ends of a common side of the two patches and lie at the same point *)
Definition corner_step (verts : list (list nat)) (x y : nat * nat) : Prop :=
  exists i j, fst x < length verts /\ fst y < length verts /\ i < 4 /\ j < 4 /\ opposed verts (fst x) i (fst y) j /\
    ((snd x = i /\ snd y = (j + 1) mod 4) \/ (snd x = (i + 1) mod 4 /\ snd y = j)).
(** the patches around every vertex are connected through common sides (no two cones meet only in their tip) *)
Definition fans_connected (verts : list (list nat)) : Prop :=
  forall a k b l, a < length verts -> b < length verts -> k < 4 -> l < 4 -> pvert verts a k = pvert verts b l ->
    clos_refl_sym_trans (nat * nat) (corner_step verts) (a, k) (b, l).
(** the list of the sides shared by two patches: side i of patch a is side j of patch b *)
Definition shared_sides (verts : list (list nat)) (l : list (nat * nat * (nat * nat))) : Prop :=
  NoDup l /\ forall a i b j, In (a, i, (b, j)) l <-> a < b /\ b < length verts /\ i < 4 /\ j < 4 /\ opposed verts a i b j.
(** the list of the vertices of the patches *)
Definition all_vertices (verts : list (list nat)) (l : list nat) : Prop :=
  NoDup l /\ forall v, In v l <-> exists c, In c verts /\ In v c.
(** no boundary: every side is shared *)
Definition closed_mesh (verts : list (list nat)) : Prop :=
  forall a i, a < length verts -> i < 4 -> exists b j, b < length verts /\ j < 4 /\ opposed verts a i b j.
