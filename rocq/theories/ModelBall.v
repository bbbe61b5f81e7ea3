(** Model of Bembel/src/util/GeometryHelper.hpp and of ElementTree::generatePointList and
    computeElementEnclosings.  double is R; vectors of R^3 are triples. *)
From Coq Require Import List Arith Reals QArith Qreals.
From Verif Require Import ModelBase ModelTree.
Import ListNotations.
Local Close Scope Q_scope.
Local Open Scope nat_scope.

Definition vec3 := (R * R * R)%type.
Definition vx (v : vec3) : R := fst (fst v).
Definition vy (v : vec3) : R := snd (fst v).
Definition vz (v : vec3) : R := snd v.
Definition vadd (a b : vec3) : vec3 := (vx a + vx b, vy a + vy b, vz a + vz b)%R.
Definition vsub (a b : vec3) : vec3 := (vx a - vx b, vy a - vy b, vz a - vz b)%R.
Definition vscal (c : R) (a : vec3) : vec3 := (c * vx a, c * vy a, c * vz a)%R.
Definition vdot (a b : vec3) : R := (vx a * vx b + vy a * vy b + vz a * vz b)%R.
Definition vnorm (a : vec3) : R := sqrt (vdot a a).

(** computeEnclosingBall, util/GeometryHelper.hpp 33-55; a division by zero is [None] *)
Definition enclosing_ball (b1 b2 : vec3 * R) : option (vec3 * R) :=
  let (m1, r1) := b1 in
  let (m2, r2) := b2 in
  let z := vsub m1 m2 in
  let norm := vnorm (vsub m1 m2) in
  if Rle_dec (norm + r2) r1 then Some (m1, r1)
  else if Rle_dec (norm + r1) r2 then Some (m2, r2)
  else if Req_EM_T norm 0 then None
  else Some (vscal (1 / 2) (vadd (vadd m1 m2) (vscal ((r1 - r2) / norm) z)), (1 / 2 * (r1 + r2 + norm))%R).

(** ** generatePointList, ElementTree.hpp 206-230.  [eval p x y] is geometry_[p].eval(x, y); an
    entry that was never written is [None] *)
Definition write_vertex (n : node) (k : nat) (x : vec3) (pts : list (option vec3)) : option (list (option vec3)) :=
  v <- get (n_verts n) k ;; set pts v (Some x).
Definition write_element (eval : nat -> R -> R -> vec3) (n : node) (pts : list (option vec3)) : option (list (option vec3)) :=
  let h := Q2R (get_h n) in
  let x := Q2R (fst (n_llc n)) in
  let y := Q2R (snd (n_llc n)) in
  p0 <- write_vertex n 0 (eval (n_patch n) x y) pts ;;
  p1 <- write_vertex n 1 (eval (n_patch n) (x + h)%R y) p0 ;;
  p2 <- write_vertex n 2 (eval (n_patch n) (x + h)%R (y + h)%R) p1 ;;
  write_vertex n 3 (eval (n_patch n) x (y + h)%R) p2.
Fixpoint write_elements (eval : nat -> R -> R -> vec3) (s : store) (l : list addr) (pts : list (option vec3)) :=
  match l with
  | [] => Some pts
  | a :: r => n <- s a ;; pts' <- write_element eval n pts ;; write_elements eval s r pts'
  end.
Definition point_list (eval : nat -> R -> R -> vec3) (t : tree) : option (list (option vec3)) :=
  l <- traverse t ;; write_elements eval (t_store t) l (repeat None (t_points t)).

(** the counts idct(it->vertices_[k]), ElementTree.hpp 208-210 and 222-227 *)
Definition count_vertex (n : node) (k : nat) (c : list nat) : option (list nat) :=
  v <- get (n_verts n) k ;; x <- get c v ;; set c v (S x).
Fixpoint count_elements (s : store) (l : list addr) (c : list nat) : option (list nat) :=
  match l with
  | [] => Some c
  | a :: r => n <- s a ;; c' <- for_opt 4 (count_vertex n) c ;; count_elements s r c'
  end.
Definition vertex_counts (t : tree) : option (list nat) :=
  l <- traverse t ;; count_elements (t_store t) l (repeat 0 (t_points t)).

(** ** computeElementEnclosings, ElementTree.hpp 354-396; midpoint_ and radius_ of the nodes, [None] as
    long as they hold the values of the constructor (the root keeps them) *)
Definition balls := addr -> option (vec3 * R).
Definition bset (b : balls) (a : addr) (x : vec3 * R) : balls := fun c => if addr_eqb c a then Some x else b c.
(** P.col(v) *)
Definition col (P : list (option vec3)) (v : nat) : option vec3 := x <- get P v ;; x.
Definition ball4 (x0 x1 x2 x3 : vec3 * R) : option (vec3 * R) :=
  p <- enclosing_ball x0 x2 ;; q <- enclosing_ball x1 x3 ;; enclosing_ball p q.
Fixpoint enclose_rec (fuel : nat) (t : tree) (P : list (option vec3)) (a : addr) (b : balls) : option balls :=
  match fuel with
  | O => None
  | S f =>
      n <- t_store t a ;;
      if n_ref n then
        b0 <- enclose_rec f t P (0 :: a) b ;; b1 <- enclose_rec f t P (1 :: a) b0 ;;
        b2 <- enclose_rec f t P (2 :: a) b1 ;; b3 <- enclose_rec f t P (3 :: a) b2 ;;
        x0 <- b3 (0 :: a) ;; x1 <- b3 (1 :: a) ;; x2 <- b3 (2 :: a) ;; x3 <- b3 (3 :: a) ;;
        x <- ball4 x0 x1 x2 x3 ;; Some (bset b3 a x)
      else
        v0 <- get (n_verts n) 0 ;; v1 <- get (n_verts n) 1 ;; v2 <- get (n_verts n) 2 ;; v3 <- get (n_verts n) 3 ;;
        p0 <- col P v0 ;; p1 <- col P v1 ;; p2 <- col P v2 ;; p3 <- col P v3 ;;
        x <- ball4 (p0, 0%R) (p1, 0%R) (p2, 0%R) (p3, 0%R) ;; Some (bset b a x)
  end.
Definition enclosings (t : tree) (P : list (option vec3)) : option balls :=
  for_opt (t_patches t) (fun p b => enclose_rec (t_maxlevel t + 1) t P [p] b) (fun _ => None).
