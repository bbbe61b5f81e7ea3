(** Vocabulary for the block cluster tree. *)
From Coq Require Import List Arith ZArith Reals.
From Verif Require Import ModelTree SpecTree.
Import ListNotations.

(** exactly one position of the list holds an object with property Q *)
Definition exactly_one {A} (Q : A -> Prop) (l : list A) : Prop :=
  exists! i, exists x, nth_error l i = Some x /\ Q x.

(** every leaf of the tree is at most [m] levels above the finest level; uniformly refined trees have
    this for every m >= 0 *)
Definition graded (t : tree) (m : Z) : Prop :=
  forall a n, t_store t a = Some n -> n_ref n = false -> (Z.of_nat (t_maxlevel t) - Z.of_nat (n_level n) <= m)%Z.

(** the closed balls around x and y do not meet *)
Definition dist3 (x y : R * R * R) : R :=
  sqrt (Rsqr (fst (fst x) - fst (fst y)) + Rsqr (snd (fst x) - snd (fst y)) + Rsqr (snd x - snd y)).
