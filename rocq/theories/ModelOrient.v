(** ClusterTree::checkOrientation.  Patches are given by their points and normals (Patch::eval, Patch::evalNormal); double is R. *)
From Coq Require Import Bool List Arith Reals Lra.
From Verif Require Import ModelBase ModelTree ModelBall.
Import ListNotations.
Local Open Scope nat_scope.
Local Open Scope bool_scope.

Record patch_fn := mkPatch { p_eval : R * R -> vec3; p_normal : R * R -> vec3 }.
(** Constants::pt_comp_tolerance = 1e-9 *)
Definition pt_tol : R := (/ 1000000000)%R.
(** edge_midpoints, ClusterTree.hpp 139-144 and Constants::edgemps; an index beyond the vector is [None] *)
Definition edge_midpoint (j : nat) : option (R * R) := get [(/ 2, 0); (1, / 2); (/ 2, 1); (0, / 2)]%R j.
(** the body of the loop, ClusterTree.hpp 147-158; a failing assertion is [None]; the local index -1 of a boundary edge is not > 0.
    na and nb are computed but not used *)
Definition check_edge (geo : nat -> patch_fn) (e : interface) : option unit :=
  match e with
  | (p, Some q, j, Some k) =>
      if (0 <? j) && (0 <? k) then
        mj <- edge_midpoint j ;; mk <- edge_midpoint k ;;
        let a := p_eval (geo p) mj in
        let b := p_eval (geo q) mk in
        let na := p_normal (geo p) mj in
        let nb := p_normal (geo q) mk in
        if Rlt_dec (vnorm (vsub a b)) pt_tol then (if Rlt_dec 0 (vdot a b) then Some tt else None) else None
      else Some tt
  | _ => Some tt
  end.
(** checkOrientation, ClusterTree.hpp 137-159 *)
Definition check_orientation (geo : nat -> patch_fn) (t : tree) : option unit :=
  es <- patch_topology_info t ;;
  fold_left (fun r e => u <- r ;; check_edge geo e) es (Some tt).
