(** What an H2 matrix means. *)
From Coq Require Import List Arith Bool ZArith Reals.
From Verif Require Import ModelBase ModelBernstein RSum ModelTree ModelBlock ModelH2.
Import ListNotations.
Local Open Scope nat_scope.

(** Row basis of a cluster f levels above the moment matrix, restricted to its mc 4^f degrees of freedom:
    the moment matrix for f = 0; otherwise the transfer matrix of the son containing the degree of freedom
    (T = [T_0 T_1 T_2 T_3], np x np each) times the basis of that son, per FMM component *)
Fixpoint basis (np mc : nat) (mom T : mat) (f row d : nat) : R :=
  match f with
  | O => mom row d
  | S g => let son := d / (mc * 4 ^ g) in
           rsum (fun u => T (row mod np)%nat (son * np + u)%nat * basis np mc mom T g (row / np * np + u)%nat (d mod (mc * 4 ^ g))%nat)%R np
  end.

(** entry (i, j) of the block B (positions relative to the block) for the components (rc, cc): the entry of
    the stored matrix, or the entry of  basis^T * stored * basis  for a low-rank block at level l *)
Definition block_entry (H : h2) (rc cc : nat) (B : btree) (i j : nat) : R :=
  let F := h_F H rc cc (b_c1 B) (b_c2 B) in
  match b_cc B with
  | LowRank =>
      let f := Z.to_nat (Z.of_nat (t_maxlevel (h_tree H)) - h_mincl H - level_of (h_tree H) (b_c1 B))%Z in
      rsum (fun u => rsum (fun v =>
        basis (h_np H) (h_mc H) (h_mom H rc) (h_T H) f u i * F u v * basis (h_np H) (h_mc H) (h_mom H cc) (h_T H) f v j)
        (h_nF H * h_np H)%nat) (h_nF H * h_np H)%nat
  | _ => F i j
  end%R.
