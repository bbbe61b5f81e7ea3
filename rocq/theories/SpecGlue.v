(** Vocabulary for the glue matrix and the identifications (C19-C24), independent of the code. *)
From Coq Require Import List Arith ZArith Permutation Relations.
From Verif Require Import ModelTree ModelGlue SpecTree SpecMesh.
Import ListNotations.
Local Open Scope nat_scope.

(** a family of disjoint identification groups of dofs below pre, each with at least two dofs and
    with its smallest dof in front *)
Record groups_ok (pre : nat) (ids : list group) : Prop := {
  gk_two : forall g, In g ids -> 2 <= length (fst g);
  gk_lt : forall g d, In g ids -> In d (fst g) -> d < pre;
  gk_disjoint : NoDup (concat (map fst ids));
  gk_min : forall g d, In g ids -> In d (fst g) -> hd 0 (fst g) <= d }.

(** dofs that are glued to a smaller one *)
Definition slave (ids : list group) (r : nat) : Prop := exists g, In g ids /\ In r (tl (fst g)).
Definition n_slaves (ids : list group) : nat := list_sum (map (fun g => length (fst g) - 1) ids).
Definition same_group (ids : list group) (r r' : nat) : Prop := exists g, In g ids /\ In r (fst g) /\ In r' (fst g).

(** the matrix given by triplets (row, column, value), pre rows and post columns, realises the identification *)
Record glues (pre post : nat) (ids : list group) (trips : list triplet) : Prop := {
  gl_dim : post + n_slaves ids = pre;
  (* every row has exactly one entry *)
  gl_rows : Permutation (map (fun t => fst (fst t)) trips) (seq 0 pre);
  (* every column occurs and no other *)
  gl_cols : forall c, c < post <-> exists r v, In (r, c, v) trips;
  (* two dofs share a column iff they are identified *)
  gl_same : forall r c v r' c' v', In (r, c, v) trips -> In (r', c', v') trips ->
     (c = c' <-> r = r' \/ same_group ids r r');
  (* values *)
  gl_one : forall r c v, In (r, c, v) trips -> ~ slave ids r -> v = 1%Z;
  gl_coef : forall r c v g, In (r, c, v) trips -> In g ids -> In r (tl (fst g)) -> v = snd g;
  (* the remaining dofs keep their order *)
  gl_order : forall r c v r' c' v', In (r, c, v) trips -> In (r', c', v') trips ->
     ~ slave ids r -> ~ slave ids r' -> (c < c' <-> r < r') }.

(** the equivalence relation generated by a list of pairs *)
Definition connected (ps : list (nat * nat)) : nat -> nat -> Prop :=
  clos_refl_sym_trans nat (fun x y => In (x, y) ps).

(** ** degrees of freedom of a patch: an nx times ny grid, numbered row by row *)
Definition grid_dof (nx shift X Y : nat) : nat := shift + nx * Y + X.
(** the grid points of edge e in the order of the increasing parameter (not of the boundary orientation) *)
Definition edge_point (e nx ny k : nat) : nat * nat :=
  match e with 0 => (k, 0) | 1 => (nx - 1, k) | 2 => (k, ny - 1) | _ => (0, k) end.
Definition edge_len (e nx ny : nat) : nat := match e with 0 | 2 => nx | _ => ny end.
Definition on_side (e nx ny X Y : nat) : Prop :=
  match e with 0 => Y = 0 | 1 => X = nx - 1 | 2 => Y = ny - 1 | _ => X = 0 end.

(** patches p and q (n times n dofs each) share edge i of p and edge j of q, which the two
    counter-clockwise boundaries run through in opposite directions: the dofs x of p and y of q sit at
    the same point *)
Definition edge_ident (n : nat) (edges : list interface) (x y : nat) : Prop :=
  exists p q i j s s' X Y X' Y', In (p, Some q, i, Some j) edges /\
    on_edge (n - 1) i s X Y /\ on_edge (n - 1) j s' X' Y' /\ s + s' = n - 1 /\
    x = grid_dof n (p * (n * n)) X Y /\ y = grid_dof n (q * (n * n)) X' Y'.
(** identified by a chain of shared edges *)
Definition identified (n : nat) (edges : list interface) : nat -> nat -> Prop :=
  clos_refl_sym_trans nat (edge_ident n edges).

(** lists of interfaces between P patches; interfaces are named from the smaller patch *)
Definition edges_ok (P : nat) (edges : list interface) : Prop :=
  forall p q i j, In (p, q, i, j) edges -> p < P /\ i < 4 /\
    (forall q', q = Some q' -> p < q' /\ q' < P) /\ (forall j', j = Some j' -> j' < 4).
(** sorted by the smaller patch *)
Definition edges_sorted (edges : list interface) : Prop :=
  forall l1 e l2 f l3, edges = l1 ++ e :: l2 ++ f :: l3 -> fst (fst (fst e)) <= fst (fst (fst f)).

Definition nonempty (g : group) : bool := match fst g with [] => false | _ => true end.
(** no two consecutive empty groups, the last one not empty *)
Fixpoint no_gap (out : list group) : Prop :=
  match out with
  | [] => True
  | g :: r => match r with [] => nonempty g = true | h :: _ => (nonempty g = true \/ nonempty h = true) /\ no_gap r end
  end.

(** ** vector fields: S times L = S + 1 coefficients per component; the x component has L of them in the
    x direction, the y component has L of them in the y direction; all patches of the x component come first *)
Definition vec_dof (S L P : nat) (y_comp : bool) (p X Y : nat) : nat :=
  if y_comp then S * L * P + p * (S * L) + S * Y + X else p * (S * L) + L * Y + X.
(** the component normal to edge i of the reference square: y for the edges 0 and 2 *)
Definition normal_comp (i : nat) : bool := match i with 0 | 2 => true | _ => false end.
(** coefficient number s, counter-clockwise, of the normal component on edge i has the coordinates (X,Y) *)
Definition flux_point (S L i s X Y : nat) : Prop :=
  s < S /\ match i with
           | 0 => Y = 0 /\ X = s
           | 1 => X = L - 1 /\ Y = s
           | 2 => Y = L - 1 /\ X + s = S - 1
           | _ => X = 0 /\ Y + s = S - 1
           end.
(** flux out of the square through edge i of a unit normal component (in positive x or y direction) *)
Definition out_flux (i : nat) : Z := match i with 1 | 2 => 1%Z | _ => (-1)%Z end.

(** the pairs to be identified with coefficient v: normal components on the two sides of a shared edge, at
    the same point, with opposite fluxes *)
Definition flux_ident (S L P : nat) (edges : list interface) (x y : nat) (v : Z) : Prop :=
  exists p q i j s s' X Y X' Y', In (p, Some q, i, Some j) edges /\
    flux_point S L i s X Y /\ flux_point S L j s' X' Y' /\ s + s' = S - 1 /\
    x = vec_dof S L P (normal_comp i) p X Y /\ y = vec_dof S L P (normal_comp j) q X' Y' /\
    (out_flux i + v * out_flux j = 0)%Z.
(** the edges of patches on the two sides of the interfaces *)
Definition sides (e : interface) : list (nat * nat) :=
  match e with (p, Some q, i, Some j) => [(p, i); (q, j)] | _ => [] end.
