(** Balls of R^3. *)
From Coq Require Import Reals List.
From Verif Require Import ModelBall.

(** Euclidean distance *)
Definition dist (x y : R * R * R) : R :=
  sqrt ((fst (fst x) - fst (fst y)) ^ 2 + (snd (fst x) - snd (fst y)) ^ 2 + (snd x - snd y) ^ 2).
Definition in_ball (p : R * R * R) (b : (R * R * R) * R) : Prop := (dist p (fst b) <= snd b)%R.
(** every point of the first ball lies in the second *)
Definition ball_in (b1 b2 : (R * R * R) * R) : Prop := forall p, in_ball p b1 -> in_ball p b2.

(** ** geometries: [eval p x y] is the point of patch p with parameters (x, y) *)
From Verif Require Import SpecTree SpecMesh ModelTree.
(** the point of edge i of the unit square at parameter s, counter-clockwise *)
Definition edge_pt (i : nat) (s : R) : R * R :=
  match i with
  | 0 => (s, 0)
  | 1 => (1, s)
  | 2 => (1 - s, 1)
  | _ => (0, 1 - s)
  end%R.
Definition at_pt (eval : nat -> R -> R -> R * R * R) (p : nat) (x : R * R) := eval p (fst x) (snd x).
(** the patches fit together: corners with the same index coincide, glued edges are parametrised alike *)
Record fits (verts : list (list nat)) (eval : nat -> R -> R -> R * R * R) : Prop := {
  fit_corner : forall p q k m, p < length verts -> q < length verts -> k < 4 -> m < 4 -> pvert verts p k = pvert verts q m ->
    at_pt eval p (edge_pt k 0) = at_pt eval q (edge_pt m 0);
  fit_aligned : forall p q i j s, p < length verts -> q < length verts -> i < 4 -> j < 4 -> (0 <= s <= 1)%R -> aligned verts p i q j ->
    at_pt eval p (edge_pt i s) = at_pt eval q (edge_pt j s);
  fit_opposed : forall p q i j s, p < length verts -> q < length verts -> i < 4 -> j < 4 -> (0 <= s <= 1)%R -> opposed verts p i q j ->
    at_pt eval p (edge_pt i s) = at_pt eval q (edge_pt j (1 - s)) }.

(** the surface point at corner k of the element at address a *)
Definition corner_point (eval : nat -> R -> R -> R * R * R) (a : addr) (k : nat) : R * R * R :=
  eval (pos_patch a) (INR (pos_x a + quad_x k) / 2 ^ pos_level a)%R (INR (pos_y a + quad_y k) / 2 ^ pos_level a)%R.
