(** C55, continued: the decomposition exists, and the nodes and weights of the computed rules. *)
From Coq Require Import Reals Arith Bool List Lia Lra.
From Coquelicot Require Import Coquelicot.
From Verif Require Import RSum ModelQuad SpecQuad SpecInterp ProofGolub PropQuad ProofGauss ProofGaussExist.
Import ListNotations.
Local Open Scope R_scope.

(** the matrix has an orthogonal eigenvalue decomposition for every number of points *)
Theorem C55_exists : forall n, (0 < n)%nat -> exists lam V, eigen_decomposition n jacobi lam V.
Proof. exact decomposition_exists. Qed.
(** the nodes are distinct and lie in the open interval (0, 1), the weights are positive, and the rule is symmetric about 1/2 *)
Theorem C55_nodes : forall n lam V x w, (0 < n)%nat -> eigen_decomposition n jacobi lam V -> eigen_rule n lam V = (x, w) ->
  NoDup x /\ (forall a, In a x -> 0 < a < 1) /\ (forall k, (k < n)%nat -> 0 < nth k w 0) /\
  (forall k, (k < n)%nat -> exists j, (j < n)%nat /\ nth j x 0 = 1 - nth k x 0 /\ nth j w 0 = nth k w 0).
Proof.
  intros n lam V x w Hn D E. unfold eigen_rule in E. assert (Ex : x = map (fun i => 1 / 2 * (lam i + 1)) (seq 0 n)) by congruence. assert (Ew : w = map (fun i => V 0%nat i * V 0%nat i) (seq 0 n)) by congruence. clear E. subst x w.
  assert (N : forall i (f : nat -> R), (i < n)%nat -> nth i (map f (seq 0 n)) 0 = f i).
  { intros i f Hi. rewrite (nth_indep _ 0 (f 0%nat)) by (rewrite map_length, seq_length; assumption). rewrite map_nth, seq_nth by assumption. reflexivity. }
  split; [|split; [|split]].
  - apply (NoDup_nth _ 0). rewrite map_length, seq_length. intros i j Hi Hj E. rewrite !N in E by assumption. destruct (Nat.eq_dec i j) as [Q|Q]; [exact Q|]. exfalso. apply (nodes_distinct n lam V Hn D i j Hi Hj Q). lra.
  - intros a Ha. apply in_map_iff in Ha. destruct Ha as [i [<- Hi]]. apply in_seq in Hi. pose proof (leg_root_range n (lam i) (node_root n lam V Hn D i ltac:(lia))). lra.
  - intros k Hk. rewrite N by exact Hk. apply (weight_pos n lam V Hn D k Hk).
  - intros k Hk. destruct (node_mirror n lam V Hn D k Hk) as [j [Hj Ej]]. exists j. split; [exact Hj|]. rewrite !N by assumption. split; [rewrite Ej; field|]. apply (weight_mirror n lam V Hn D k j Hk Hj Ej).
Qed.
(** they are the roots of the Legendre polynomial, so the rule does not depend on the solver, up to the order of the points *)
Theorem C55_deterministic : forall n lam V lam' V', (0 < n)%nat -> eigen_decomposition n jacobi lam V -> eigen_decomposition n jacobi lam' V' ->
  forall i, (i < n)%nat -> exists j, (j < n)%nat /\ nth j (fst (eigen_rule n lam' V')) 0 = nth i (fst (eigen_rule n lam V)) 0 /\ nth j (snd (eigen_rule n lam' V')) 0 = nth i (snd (eigen_rule n lam V)) 0.
Proof.
  intros n lam V lam' V' Hn D D' i Hi. destruct (root_node n lam' V' Hn D' (lam i) (node_root n lam V Hn D i Hi)) as [j [Hj Ej]]. exists j. split; [exact Hj|]. unfold eigen_rule. cbn [fst snd].
  assert (N : forall i (f : nat -> R), (i < n)%nat -> nth i (map f (seq 0 n)) 0 = f i).
  { intros k f Hk. rewrite (nth_indep _ 0 (f 0%nat)) by (rewrite map_length, seq_length; assumption). rewrite map_nth, seq_nth by assumption. reflexivity. }
  rewrite !N by assumption. split; [rewrite Ej; reflexivity|]. pose proof (node_weight n lam V Hn D i Hi) as W1. pose proof (node_weight n lam' V' Hn D' j Hj) as W2. rewrite Ej in W2. set (s := rsum _ n) in *. clearbody s.
  assert (s <> 0) by (intros ->; lra). apply (Rmult_eq_reg_r s); [lra|assumption].
Qed.

(* BEGIN ASSUMPTIONS *)
Print Assumptions C55_exists.
Print Assumptions C55_nodes.
Print Assumptions C55_deterministic.
