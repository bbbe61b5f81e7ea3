(** Vocabulary for C34-C36: corners of the unit square, polynomials in four variables, integrals over pairs of squares. *)
From Coq Require Import List Arith Reals.
From Verif Require Import RSum SpecQuad ModelTree SpecTree SpecMesh.
Import ListNotations.
Local Open Scope R_scope.

(** corner k of the unit square, counter-clockwise *)
Definition corner (k : nat) : R * R :=
  match k with O => (0, 0) | 1%nat => (1, 0) | 2%nat => (1, 1) | _ => (0, 1) end.
(** the point of edge k (from corner k to corner k+1) at parameter u *)
Definition edge_point (k : nat) (u : R) : R * R :=
  let a := corner k in let b := corner ((k + 1) mod 4) in
  ((1 - u) * fst a + u * fst b, (1 - u) * snd a + u * snd b).
Definition in_square (p : R * R) : Prop := 0 <= fst p <= 1 /\ 0 <= snd p <= 1.
Definition in_open_square (p : R * R) : Prop := 0 < fst p < 1 /\ 0 < snd p < 1.

(** a monomial: coefficient and exponents *)
Definition monomial := (R * (nat * nat * nat * nat))%type.
Definition mono_eval (m : monomial) (s1 s2 t1 t2 : R) : R :=
  let '(c, (a, b, e, f)) := m in c * s1 ^ a * s2 ^ b * t1 ^ e * t2 ^ f.
Definition mono_degree (m : monomial) : nat :=
  let '(_, (a, b, e, f)) := m in (a + b + e + f)%nat.
(** G is a polynomial of total degree at most D in the four coordinates of two points *)
Definition poly4 (D : nat) (G : R * R -> R * R -> R) : Prop :=
  exists l, (forall m, In m l -> (mono_degree m <= D)%nat) /\
    forall s t, G s t = fold_right (fun m r => mono_eval m (fst s) (snd s) (fst t) (snd t) + r) 0 l.

(** iterated integral over the pairs of points of the unit square *)
Definition integral4 (G : R * R -> R * R -> R) (v : R) : Prop :=
  exists g3 g2 g1,
    (forall s1 s2 t1, 0 <= s1 <= 1 -> 0 <= s2 <= 1 -> 0 <= t1 <= 1 -> integral01 (fun t2 => G (s1, s2) (t1, t2)) (g3 s1 s2 t1)) /\
    (forall s1 s2, 0 <= s1 <= 1 -> 0 <= s2 <= 1 -> integral01 (g3 s1 s2) (g2 s1 s2)) /\
    (forall s1, 0 <= s1 <= 1 -> integral01 (g2 s1) (g1 s1)) /\
    integral01 g1 v.

(** a rule that is symmetric about 1/2 *)
Definition symmetric_rule (x w : list R) : Prop :=
  length x = length w /\ forall k, (k < length w)%nat ->
    nth (length w - 1 - k) x 0 = 1 - nth k x 0 /\ nth (length w - 1 - k) w 0 = nth k w 0.
(** a rule with points in the open interval *)
Definition interior_rule (x w : list R) : Prop :=
  length x = length w /\ forall k, (k < length w)%nat -> 0 < nth k x 0 < 1.

(** a rule with points in the open interval and nonnegative weights of sum 1 *)
Definition positive_rule (x w : list R) : Prop :=
  interior_rule x w /\ (forall k, (k < length w)%nat -> 0 <= nth k w 0) /\ rsum (fun k => nth k w 0) (length w) = 1.

(** distances from the common part of two elements in reference coordinates: identical elements; edge r1 of the first
    and edge r2 of the second square, in opposite directions; corner r1 and corner r2 *)
Definition point_gap (s t : R * R) : R := Rmax (Rabs (fst s - fst t)) (Rabs (snd s - snd t)).
(** position along edge r and distance from edge r *)
Definition along_edge (r : nat) (s : R * R) : R :=
  match r with O => fst s | 1%nat => snd s | 2%nat => 1 - fst s | _ => 1 - snd s end.
Definition from_edge (r : nat) (s : R * R) : R :=
  match r with O => snd s | 1%nat => 1 - fst s | 2%nat => 1 - snd s | _ => fst s end.
Definition edge_gap (r1 r2 : nat) (s t : R * R) : R :=
  Rmax (Rabs (along_edge r1 s - (1 - along_edge r2 t))) (Rmax (from_edge r1 s) (from_edge r2 t)).
Definition vertex_gap (r1 r2 : nat) (s t : R * R) : R := Rmax (point_gap s (corner r1)) (point_gap t (corner r2)).
(** for the result (r1, r2, c) of a comparison *)
Definition pair_gap (res : nat * nat * nat) (s t : R * R) : R :=
  match res with
  | (r1, r2, 2%nat) => point_gap s t
  | (r1, r2, 3%nat) => edge_gap r1 r2 s t
  | (r1, r2, _) => vertex_gap r1 r2 s t
  end.

(** ** pairs of elements (C35) *)
(** the vertices v1_0..v1_3 and v2_0..v2_3 of two elements: nothing in common, one common vertex, one common edge (edge r1 of
    the first and edge r2 of the second element, in opposite directions) *)
Definition no_common (v1 v2 : nat -> nat) : Prop := forall k m, (k < 4)%nat -> (m < 4)%nat -> v1 k <> v2 m.
Definition common_vertex (v1 v2 : nat -> nat) (r1 r2 : nat) : Prop :=
  (r1 < 4)%nat /\ (r2 < 4)%nat /\ forall k m, (k < 4)%nat -> (m < 4)%nat -> (v1 k = v2 m <-> k = r1 /\ m = r2).
Definition common_edge (v1 v2 : nat -> nat) (r1 r2 : nat) : Prop :=
  (r1 < 4)%nat /\ (r2 < 4)%nat /\ forall k m, (k < 4)%nat -> (m < 4)%nat ->
    (v1 k = v2 m <-> k = r1 /\ m = ((r2 + 1) mod 4)%nat \/ k = ((r1 + 1) mod 4)%nat /\ m = r2).
(** the result (r1, r2, c) describes the pair *)
Definition describes (v1 v2 : nat -> nat) (res : nat * nat * nat) : Prop :=
  match res with
  | (r1, r2, 0%nat) => no_common v1 v2
  | (r1, r2, 3%nat) => common_edge v1 v2 r1 r2
  | (r1, r2, 4%nat) => common_vertex v1 v2 r1 r2
  | _ => False
  end.
(** a mesh of consistently oriented patches: no edge is traversed twice in the same direction *)
Definition oriented (verts : list (list nat)) : Prop :=
  forall p i q j, (p < length verts)%nat -> (q < length verts)%nat -> (i < 4)%nat -> (j < 4)%nat ->
    aligned verts p i q j -> (p, i) = (q, j).
(** the point of the surface that belongs to the reference coordinates xi of the element at address a *)
Definition element_point (eval : nat -> R -> R -> R * R * R) (a : addr) (xi : R * R) : R * R * R :=
  eval (pos_patch a) ((INR (pos_x a) + fst xi) / 2 ^ pos_level a) ((INR (pos_y a) + snd xi) / 2 ^ pos_level a).
