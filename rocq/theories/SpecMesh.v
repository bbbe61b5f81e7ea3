(** Vocabulary for the topology of a patch mesh and of its refinements (C16-C18), independent of the code. *)
From Coq Require Import List Arith.
From Verif Require Import ModelTree SpecTree.
Import ListNotations.

(** ** patch meshes: a patch is the list of its four corner indices, counter-clockwise *)
Definition pvert (verts : list (list nat)) (p k : nat) : nat := nth k (nth p verts []) 0.
(** edge i of patch p (from corner i to corner i+1) and edge j of patch q: same end points, in the same
    or in the opposite direction *)
Definition aligned verts p i q j := pvert verts p i = pvert verts q j /\ pvert verts p ((i + 1) mod 4) = pvert verts q ((j + 1) mod 4).
Definition opposed verts p i q j := pvert verts p i = pvert verts q ((j + 1) mod 4) /\ pvert verts p ((i + 1) mod 4) = pvert verts q j.
Definition glued verts p i q j := aligned verts p i q j \/ opposed verts p i q j.

(** the meshes of the property: quadrilaterals with four different corners, every pair of corners is an
    edge of at most two patches, two different patches share at most one edge *)
Record mesh_ok (verts : list (list nat)) : Prop := {
  mo_len : forall vs, In vs verts -> length vs = 4;
  mo_nodup : forall vs, In vs verts -> NoDup vs;
  mo_two : forall p i q j r k, p < length verts -> q < length verts -> r < length verts -> i < 4 -> j < 4 -> k < 4 ->
    glued verts p i q j -> glued verts p i r k -> (p, i) = (q, j) \/ (p, i) = (r, k) \/ (q, j) = (r, k);
  mo_one : forall p i j q i' j', p < length verts -> q < length verts -> p <> q -> i < 4 -> j < 4 -> i' < 4 -> j' < 4 ->
    glued verts p i q j -> glued verts p i' q j' -> i = i' }.

(** ** points of the refined mesh: patch p and integer coordinates (X,Y) in units of 1/E *)
Definition corner_pos (E k X Y : nat) : Prop := X = E * quad_x k /\ Y = E * quad_y k.
(** (X,Y) is the point number s, 0 <= s <= E, of edge i, in the direction of the edge *)
Definition on_edge (E i s X Y : nat) : Prop :=
  s <= E /\ match i with
            | 0 => Y = 0 /\ X = s
            | 1 => X = E /\ Y = s
            | 2 => Y = E /\ X + s = E
            | _ => X = 0 /\ Y + s = E
            end.
(** the two points are the same point of the glued surface *)
Definition same_point (verts : list (list nat)) (E p X Y q X' Y' : nat) : Prop :=
  (p = q /\ X = X' /\ Y = Y') \/
  (exists k m, k < 4 /\ m < 4 /\ corner_pos E k X Y /\ corner_pos E m X' Y' /\ pvert verts p k = pvert verts q m) \/
  (exists i j s s', i < 4 /\ j < 4 /\ on_edge E i s X Y /\ on_edge E j s' X' Y' /\
     ((aligned verts p i q j /\ s = s') \/ (opposed verts p i q j /\ s + s' = E))).

(** vertex number k of the node at address a *)
Definition vertex (t : tree) (a : addr) (k : nat) : option nat :=
  match t_store t a with Some n => nth_error (n_verts n) k | None => None end.

(** trees over the patch mesh verts with npts points: initialisation of the patches followed by any
    valid sequence of refinement calls *)
Definition reachable_over (verts : list (list nat)) (npts : nat) (t : tree) : Prop :=
  exists M os t0, init_patches verts npts M = Some t0 /\ ops_valid t0 os /\ run t0 os = Some t.

(** the corner indices are exactly 0 .. npts-1 *)
Definition numbered (verts : list (list nat)) (npts : nat) : Prop :=
  forall v, v < npts <-> exists vs, In vs verts /\ In v vs.

(** trees built from the corner points of a geometry, where [verts] are the corner indices the code
    assigns to them *)
Definition from_geometry {Pt} (close : Pt -> Pt -> bool) (corners : list (list Pt)) (verts : list (list nat)) (t : tree) : Prop :=
  exists M os t0, fst (patch_vertices close [] corners) = verts /\ (forall c, In c corners -> length c = 4) /\
    init_tree close corners M = Some t0 /\ ops_valid t0 os /\ run t0 os = Some t.
