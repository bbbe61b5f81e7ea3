(** Model of DiscretePotential::evaluate and of the dense DiscreteOperator assembly. *)
From Coq Require Import List Arith Bool Reals QArith Qreals.
From Verif Require Import ModelBase ModelBernstein RSum ModelTree ModelPar.
Import ListNotations.
Local Close Scope Q_scope.
Local Open Scope nat_scope.

(** ** Potential/DiscretePotential.hpp 47-106 *)
(** evaluateIntegrand_impl for element, evaluation point i and output component o at the surface point
    belonging to the quadrature point xi with the given weight (map2surface) *)
Definition integrand := node -> R * R -> R -> nat -> nat -> R.
(** body of the single construct, 90-101: my_potential is a matrix with npts rows and odim columns *)
Definition potential_body (f : integrand) (xi : list (R * R)) (w : list R) (npts odim : nat) (el : node) (acc : mat) : mat :=
  for_loop (length w) (fun j acc =>
    for_loop npts (fun i acc =>
      for_loop odim (fun o acc =>
        updm acc i o (acc i o + f el (nth j xi (0, 0)%R) (Q2R (get_h el) * Q2R (get_h el) * nth j w 0%R) i o)%R) acc) acc) acc.
Definition zero_mat : mat := fun _ _ => 0%R.
(** the parallel region 76-105; els are the elements in the order of the iterator *)
Definition potential (f : integrand) (xi : list (R * R)) (w : list R) (npts odim : nat) (els : list node) (nthreads : nat) (v : mat) : Prop :=
  parallel_region nthreads (length els)
    (fun i acc => match get els i with Some el => potential_body f xi w npts odim el acc | None => acc end)
    (fun acc d i o => d i o + acc i o)%R zero_mat zero_mat v.

(** ** LinearOperator/DiscreteOperator.hpp 32-82 *)
(** a write to the matrix *)
Definition write := (nat * nat * R)%type.
(** the writes of one task, 58-77: intval is the matrix computed by evaluateBilinearForm for the two elements,
    vd the vector dimension, k = (p+1)^2, N the number of elements *)
Definition task_writes (vd k N id1 id2 : nat) (intval : mat) : list write :=
  flat_map (fun i => flat_map (fun j => flat_map (fun a => map (fun b =>
    (k * (i * N + id1) + a, k * (j * N + id2) + b, intval (i * k + a) (j * k + b)))
    (seq 0 k)) (seq 0 k)) (seq 0 vd)) (seq 0 vd).
(** the tasks created by the two loops 53-57 *)
Definition assembly_tasks (vd k N : nat) (form : node -> node -> mat) (els : list node) : list (list write) :=
  flat_map (fun e1 => map (fun e2 => task_writes vd k N (n_id e1) (n_id e2) (form e1 e2)) els) els.
Definition perform (ws : list write) (m : mat) : mat :=
  fold_left (fun m w => updm m (fst (fst w)) (snd (fst w)) (snd w)) ws m.
(** the matrix before the projection; the memory after resize is arbitrary *)
Definition assembled (vd k N : nat) (form : node -> node -> mat) (els : list node) (m : mat) : Prop :=
  exists m0 ws, interleave (assembly_tasks vd k N form els) ws /\ m = perform ws m0.
(** 80-81: projector.transpose() * (disc_op * projector), D rows of the projector *)
Definition projected (D : nat) (pr m : mat) : mat :=
  fun u v => rsum (fun q => pr q u * rsum (fun q' => m q q' * pr q' v) D)%R D.
