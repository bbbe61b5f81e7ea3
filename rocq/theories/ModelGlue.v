(** Model of Bembel/src/AnsatzSpace/Glue.hpp.
    int is nat, with [None] for -1; vectors are lists with checked access, [None] is undefined
    behaviour or a failed assert.  The matrix is the list of its triplets (row, column, value). *)
From Coq Require Import List Arith Bool ZArith.
From Verif Require Import ModelBase ModelTree.
Import ListNotations.
Local Open Scope nat_scope.

(** getEdgeDofIndices, Glue.hpp 249-299, without its asserts (as compiled with NDEBUG) *)
Definition edge_list (e nx ny shift : nat) : list nat :=
  match e with
  | 0 => map (fun i => i + shift) (seq 0 nx)
  | 1 => map (fun i => nx * (i + 1) - 1 + shift) (seq 0 ny)
  | 2 => map (fun i => nx * (ny - 1) + i + shift) (seq 0 nx)
  | 3 => map (fun i => nx * i + shift) (seq 0 ny)
  | _ => []
  end.
(** with the asserts 255, 266, 277 and 288 *)
Definition edge_dofs (e nx ny shift : nat) : option (list nat) :=
  _ <- assert (match e with 0 | 2 => nx <=? ny | 1 | 3 => ny <=? nx | _ => true end) ;;
  Some (edge_list e nx ny shift).

(** orientation helpers, Glue.hpp 303-339 *)
Definition edge_forward (e : nat) : bool := (e =? 0) || (e =? 1).
Definition normal_inward (e : nat) : bool := (e =? 0) || (e =? 3).
Definition reverse_parametrized (e1 e2 : nat) : bool :=
  (edge_forward e1 && edge_forward e2) || (negb (edge_forward e1) && negb (edge_forward e2)).
Definition glue_coef (e1 e2 : nat) : Z :=
  if (normal_inward e1 && normal_inward e2) || (negb (normal_inward e1) && negb (normal_inward e2)) then (-1)%Z else 1%Z.
Definition in_first_comp (e : nat) : bool := if (e =? 0) || (e =? 2) then false else true.

(** dofIdentification, Glue.hpp 41-44 *)
Definition group := (list nat * Z)%type.

(** ** continuous case, Glue.hpp 361-492 *)

(** (out, already_stored_in); d_count is always out.size() *)
Definition gstate := (list group * list (option nat))%type.

(** the loop 413-423 (and the identical 441-451): move the dofs of the larger location, with the assert *)
Fixpoint move_dofs (a : nat) (ds : list nat) (st : gstate) : option gstate :=
  match ds with
  | [] => Some st
  | d :: r =>
      let (out, stored) := st in
      stored' <- set stored d (Some a) ;;
      g <- get out a ;;
      _ <- assert (negb (existsb (Nat.eqb d) (fst g))) ;;
      out' <- set out a (fst g ++ [d], snd g) ;;
      move_dofs a r (out', stored')
  end.

(** 408-427: empty the larger location into the smaller one *)
Definition merge_groups (a b : nat) (st : gstate) : option gstate :=
  let small := Nat.min a b in let large := Nat.max a b in
  g <- get (fst st) large ;;
  st' <- move_dofs small (fst g) st ;;
  out' <- set (fst st') large ([], 0%Z) ;;
  Some (out', snd st').

(** one identification small_dof ~ large_dof, 391-474 *)
Definition identify (small large : nat) (st : gstate) : option gstate :=
  let (out, stored) := st in
  ss <- get stored small ;;
  sl <- get stored large ;;
  match ss, sl with
  | Some a, None =>
      g <- get out a ;; out' <- set out a (fst g ++ [large], snd g) ;;
      stored' <- set stored large (Some a) ;; Some (out', stored')
  | Some a, Some b => if a =? b then Some st else merge_groups a b st
  | None, Some b =>
      g <- get out b ;; out' <- set out b (fst g ++ [small], snd g) ;;
      stored' <- set stored small (Some b) ;; Some (out', stored')
  | None, None =>
      st1 <- set stored small (Some (length out)) ;;
      st2 <- set st1 large (Some (length out)) ;;
      Some (out ++ [([small; large], 1%Z)], st2)
  end.

(** loop over the dofs of an edge, 378-390: [f] is applied to the ordered pairs *)
Definition edge_pairs {S} (n : nat) (rev : bool) (d1 d2 : list nat) (f : nat -> nat -> S -> option S) (s : S) : option S :=
  for_opt n (fun i s =>
    x <- get d1 i ;; y <- get d2 (if rev then n - 1 - i else i) ;;
    _ <- assert (negb (x =? y)) ;;
    f (Nat.min x y) (Nat.max x y) s) s.

(** for_each over a list of edges *)
Fixpoint fold_opt {A S} (f : A -> S -> option S) (l : list A) (s : S) : option S :=
  match l with [] => Some s | a :: r => s' <- f a s ;; fold_opt f r s' end.

(** body of the loop over the edges, 367-477; for a boundary edge the code computes an empty
    dofs_e2 and does nothing *)
Definition cont_edge (n : nat) (e : interface) (st : gstate) : option gstate :=
  let '(p, q, i, j) := e in
  d1 <- edge_dofs i n n (p * (n * n)) ;;
  match q, j with
  | Some q, Some j =>
      d2 <- edge_dofs j n n (q * (n * n)) ;;
      edge_pairs n (reverse_parametrized i j) d1 d2 identify st
  | _, _ => Some st
  end.

(** the clean-up loop 485-489 on the list from position x on: after erasing, the iterator is
    incremented, so the following element is not inspected; erasing the last element makes the
    iterator step over end() *)
Fixpoint cleanup (out : list group) : option (list group) :=
  match out with
  | [] => Some []
  | g :: r =>
      match fst g with
      | _ :: _ => r' <- cleanup r ;; Some (g :: r')
      | [] => match r with
              | [] => None
              | h :: r2 => r' <- cleanup r2 ;; Some (h :: r')
              end
      end
  end.

(** makeIdentification before the clean-up; [n] is one_d_dim, [D] get_dofs_after_projector() *)
Definition cont_groups (n D : nat) (edges : list interface) : option gstate :=
  fold_opt (cont_edge n) edges ([], repeat None D).
Definition one_d_dim (p rep M : nat) : nat := p + 1 + rep * (2 ^ M - 1).
Definition cont_identification (p rep M D : nat) (edges : list interface) : option (list group) :=
  _ <- assert (1 <=? p) ;;
  st <- cont_groups (one_d_dim p rep M) D edges ;;
  cleanup (fst st).

(** ** divergence-conforming case, Glue.hpp 502-577 *)
Definition div_edge (small_dim large_dim P : nat) (e : interface) (out : list group) : option (list group) :=
  let '(p, q, i, j) := e in
  let c := small_dim * large_dim in
  let dofs := fun p i =>
    edge_dofs i (if in_first_comp i then large_dim else small_dim) (if in_first_comp i then small_dim else large_dim)
      (p * c + (if in_first_comp i then 0 else c * P)) in
  d1 <- dofs p i ;;
  match q, j with
  | Some q, Some j =>
      _ <- assert (p <=? q) ;;
      d2 <- dofs q j ;;
      _ <- assert (length d1 =? length d2) ;;
      edge_pairs (length d1) (reverse_parametrized i j) d1 d2
        (fun s l out => Some (out ++ [([s; l], glue_coef i j)])) out
  | _, _ => Some out
  end.
Definition div_identification (p rep M P D : nat) (edges : list interface) : option (list group) :=
  let small_dim := p + rep * (2 ^ M - 1) in
  let large_dim := p + 1 + rep * (2 ^ M - 1) in
  _ <- assert (small_dim * large_dim =? D / (P * 2)) ;;
  fold_opt (div_edge small_dim large_dim P) edges [].

(** ** assembleGlueMatrix, Glue.hpp 153-222 *)

(** std::sort of the dofs of a copy, 171; only the smallest one and the set of the others matter *)
Fixpoint insert_by {A} (key : A -> nat) (x : A) (l : list A) : list A :=
  match l with
  | [] => [x]
  | y :: r => if key x <=? key y then x :: l else y :: insert_by key x r
  end.
Definition sort_by {A} (key : A -> nat) (l : list A) : list A := fold_right (insert_by key) [] l.

(** 165-177: (dof_is_slave, dof_is_master, number_of_slaves) *)
Definition mark := (list bool * list bool * nat)%type.
Definition mark_group (g : group) (m : mark) : option mark :=
  let '(sl, ma, k) := m in
  match sort_by (fun d => d) (fst g) with
  | [] => None
  | d :: r => ma' <- set ma d true ;;
      sl' <- fold_opt (fun x s => set s x true) r sl ;;
      Some (sl', ma', k + length r)
  end.
Definition dofs0 (g : group) : option nat := get (fst g) 0.
(** key of the comparison 181-185; reading dofs[0] of an empty group is undefined, so the sort is
    only performed when every group is non-empty *)
Definition key0 (g : group) : nat := match fst g with [] => 0 | d :: _ => d end.

(** while (dof_is_slave[i + skip] && i + skip < pre_dofs) ++skip, 196; [fuel] bounds the iterations *)
Fixpoint skip_slaves (fuel : nat) (sl : list bool) (i skip : nat) : option nat :=
  b <- get sl (i + skip) ;;
  if b then match fuel with S f => skip_slaves f sl i (S skip) | O => None end else Some skip.

(** triplets 202-212 of a master *)
Definition triplet := (nat * nat * Z)%type.
Definition partners (post : nat) (g : group) : list triplet :=
  map (fun d => (d, post, snd g)) (tl (fst g)).

(** loop 194-214 with state (trips, skip, master_index) *)
Definition glue_step (pre : nat) (sl ma : list bool) (ids : list group) (i : nat)
  (st : list triplet * nat * nat) : option (list triplet * nat * nat) :=
  let '(trips, skip, mi) := st in
  skip' <- skip_slaves pre sl i skip ;;
  let pre_index := i + skip' in
  m <- get ma pre_index ;; s <- get sl pre_index ;;
  _ <- assert (negb (m && s)) ;;
  if m then
    g <- get ids mi ;; d <- dofs0 g ;;
    _ <- assert (pre_index =? d) ;;
    Some (trips ++ (pre_index, i, 1%Z) :: partners i g, skip', S mi)
  else Some (trips ++ [(pre_index, i, 1%Z)], skip', mi).

(** the result is (rows, columns, triplets) *)
Definition assemble_glue (pre : nat) (ids : list group) : option (nat * nat * list triplet) :=
  m <- fold_opt mark_group ids (repeat false pre, repeat false pre, 0) ;;
  let '(sl, ma, slaves) := m in
  let sorted := sort_by key0 ids in
  (* the code computes pre_dofs - number_of_slaves in int and would go on with a negative number: not modelled *)
  _ <- assert (slaves <=? pre) ;;
  let post := pre - slaves in
  r <- for_opt post (glue_step pre sl ma sorted) ([], 0, 0) ;;
  let '(trips, _, _) := r in
  _ <- assert (length trips =? pre) ;;
  Some (pre, post, trips).
