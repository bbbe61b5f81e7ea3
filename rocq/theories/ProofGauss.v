(** The eigenvalues of the Jacobi matrix: the nodes of the computed quadrature rules. *)
From Coq Require Import Reals Arith Bool List Lia Lra.
From Coquelicot Require Import Coquelicot.
From Verif Require Import RSum ModelQuad SpecInterp ProofInterp ProofGolub PropQuad.
Import ListNotations.
Local Open Scope R_scope.

Lemma beta_pos : forall r, 0 < beta (S r).
Proof.
  intros r. rewrite beta_S. pose proof (pos_INR r). apply Rdiv_lt_0_compat; [lra|]. apply Rmult_lt_0_compat; apply sqrt_lt_R0; lra.
Qed.
(** a row of the matrix times a vector *)
Lemma jacobi_row : forall n r v, (r < n)%nat -> rsum (fun s => jacobi r s * v s) n =
  (if (S r <? n)%nat then beta (S r) * v (S r) else 0) + match r with O => 0 | S q => beta r * v q end.
Proof.
  intros n r v Hr.
  assert (L : rsum (fun s => jacobi r s * v s) r = match r with O => 0 | S q => beta r * v q end).
  { destruct r as [|q]; [reflexivity|]. rewrite (rsum_single _ (S q) q ltac:(lia)); [rewrite jacobi_up; reflexivity|]. intros s Hs N. rewrite jacobi_zero by lia. ring. }
  replace n with (r + (n - r))%nat at 1 by lia. rewrite rsum_split, L, Rplus_comm. f_equal. destruct (Nat.ltb_spec (S r) n) as [Q|Q].
  - rewrite (rsum_single _ (n - r) 1 ltac:(lia)); [replace (r + 1)%nat with (S r) by lia; rewrite jacobi_down; reflexivity|]. intros s Hs N. rewrite jacobi_zero by lia. ring.
  - apply rsum_zero. intros s Hs. rewrite jacobi_zero by lia. ring.
Qed.
Lemma nleg_0 : forall x, nleg 0 x = 1.
Proof. intros x. unfold nleg. cbn [INR]. replace (2 * 0 + 1) with 1 by ring. rewrite sqrt_1, leg_0. ring. Qed.
Lemma nleg_leg : forall r x, nleg r x = 0 <-> leg r x = 0.
Proof.
  intros r x. unfold nleg. pose proof (pos_INR r). assert (0 < sqrt (2 * INR r + 1)) by (apply sqrt_lt_R0; lra). split; intros E; [apply Rmult_integral in E; destruct E; [lra|assumption]|rewrite E; ring].
Qed.
Lemma leg_poly : forall i, polynomial (S i) (leg i).
Proof.
  intros i. assert (Q : polynomial (S i) (leg i) /\ polynomial (S (S i)) (leg (S i))); [|apply Q]. induction i as [|i [A B]].
  - split; [exists (fun _ => 1); intros t; cbn; ring|]. exists (fun k => if (k =? 1)%nat then 1 else 0). intros t. rewrite leg_1. cbn [rsum Nat.eqb pow]. ring.
  - split; [exact B|]. apply (poly_ext _ (fun x => (2 * INR i + 3) / (INR i + 2) * (x * leg (S i) x) + - ((INR i + 1) / (INR i + 2)) * leg i x)).
    + intros x. rewrite leg_step. pose proof (pos_INR i). field. lra.
    + apply poly_plus; apply poly_scal; [apply poly_id_mul, B|apply (poly_mono (S i)); [lia|exact A]].
Qed.
Lemma leg_mirror : forall i x, leg i (- x) = (-1) ^ i * leg i x /\ leg (S i) (- x) = (-1) ^ S i * leg (S i) x.
Proof.
  induction i as [|i IH]; intros x; [rewrite !leg_0, !leg_1; cbn [pow]; split; ring|]. destruct (IH x) as [A B]. split; [exact B|]. rewrite !leg_step, A, B. cbn [pow]. pose proof (pos_INR i). field. lra.
Qed.
(** beyond 1 the polynomials are at least 1 *)
Lemma leg_large : forall i x, 1 <= x -> 1 <= leg i x <= leg (S i) x.
Proof.
  intros i x Hx. induction i as [|i [A B]]; [rewrite leg_0, leg_1; lra|]. split; [lra|]. pose proof (leg_rec i x) as E. pose proof (pos_INR i) as P. set (a := leg i x) in *. set (b := leg (S i) x) in *. set (c := leg (S (S i)) x) in *.
  assert (K : (2 * INR i + 3) * b <= (2 * INR i + 3) * x * b) by (rewrite Rmult_assoc; apply Rmult_le_compat_l; [lra|]; nra).
  assert (M : (INR i + 1) * a <= (INR i + 1) * b) by (apply Rmult_le_compat_l; lra).
  apply (Rmult_le_reg_l (INR i + 2)); [lra|]. rewrite E. lra.
Qed.
Lemma leg_root_range : forall i x, leg i x = 0 -> -1 < x < 1.
Proof.
  intros i x Z. split; apply Rnot_le_lt; intros L.
  - destruct (leg_mirror i x) as [M _]. rewrite Z in M. pose proof (leg_large i (- x) ltac:(lra)). lra.
  - pose proof (leg_large i x L). lra.
Qed.

Section Nodes.
Variables (n : nat) (lam : nat -> R) (V : nat -> nat -> R).
Hypothesis Hn : (0 < n)%nat.
Hypothesis dec : eigen_decomposition n jacobi lam V.
Lemma vector_value : forall i r, (i < n)%nat -> (r < n)%nat -> V r i = nleg r (lam i) * V 0%nat i.
Proof.
  intros i r Hi. destruct dec as [E _]. assert (Q : forall r, ((r < n)%nat -> V r i = nleg r (lam i) * V 0%nat i) /\ ((S r < n)%nat -> V (S r) i = nleg (S r) (lam i) * V 0%nat i)); [|apply Q].
  clear r. induction r as [|r [A B]].
  - split; [intros _; rewrite nleg_0; ring|]. intros L. pose proof (E 0%nat i Hn Hi) as R0. rewrite jacobi_row in R0 by exact Hn. replace (1 <? n)%nat with true in R0 by (symmetry; apply Nat.ltb_lt; lia).
    pose proof (x_nleg 0 (lam i)) as X. rewrite nleg_0 in X. pose proof (beta_pos 0) as P. apply (Rmult_eq_reg_l (beta 1)); [|lra].
    rewrite Rplus_0_r in R0, X. rewrite R0, <- Rmult_assoc, <- X. ring.
  - split; [exact B|]. intros L. pose proof (E (S r) i ltac:(lia) Hi) as R0. rewrite jacobi_row in R0 by lia. replace (S (S r) <? n)%nat with true in R0 by (symmetry; apply Nat.ltb_lt; lia).
    rewrite (A ltac:(lia)), (B ltac:(lia)) in R0. pose proof (x_nleg (S r) (lam i)) as X. pose proof (beta_pos (S r)) as P. apply (Rmult_eq_reg_l (beta (S (S r)))); [|lra].
    transitivity (lam i * nleg (S r) (lam i) * V 0%nat i - beta (S r) * nleg r (lam i) * V 0%nat i); [lra|]. rewrite X. ring.
Qed.
Lemma first_nonzero : forall i, (i < n)%nat -> V 0%nat i <> 0.
Proof.
  intros i Hi Z. destruct dec as [_ [_ O]]. specialize (O i i Hi Hi). rewrite Nat.eqb_refl in O. rewrite rsum_zero in O; [lra|]. intros r Hr. rewrite (vector_value i r Hi Hr), Z. ring.
Qed.
Lemma node_root : forall i, (i < n)%nat -> leg n (lam i) = 0.
Proof.
  intros i Hi. apply nleg_leg. destruct dec as [E _]. pose proof (first_nonzero i Hi) as N0. destruct n as [|k] eqn:En; [lia|].
  pose proof (E k i ltac:(lia) Hi) as R0. rewrite jacobi_row in R0 by lia. replace (S k <? S k)%nat with false in R0 by (symmetry; apply Nat.ltb_ge; lia).
  pose proof (x_nleg k (lam i)) as X. pose proof (beta_pos k) as P. rewrite <- En in *. rewrite (vector_value i k) in R0 by lia.
  assert (Z : beta n * nleg n (lam i) * V 0%nat i = 0).
  { destruct k as [|q].
    - rewrite Rplus_0_l in R0. assert (T : lam i * nleg 0 (lam i) * V 0%nat i = 0) by lra. rewrite X in T. lra.
    - rewrite (vector_value i q) in R0 by lia. assert (T : lam i * nleg (S q) (lam i) * V 0%nat i = beta (S q) * (nleg q (lam i) * V 0%nat i)) by lra. rewrite X in T. lra. }
  apply Rmult_integral in Z. destruct Z as [Z|Z]; [|contradiction]. apply Rmult_integral in Z. destruct Z as [Z|Z]; [lra|exact Z].
Qed.
Lemma nodes_distinct : distinct n lam.
Proof.
  intros i j Hi Hj Nij E. destruct dec as [_ [_ O]]. pose proof (O i j Hi Hj) as Oij. pose proof (O i i Hi Hi) as Oii. rewrite Nat.eqb_refl in Oii. destruct (Nat.eqb_spec i j); [contradiction|].
  pose proof (first_nonzero i Hi) as Ni. pose proof (first_nonzero j Hj) as Nj.
  assert (Z : V 0%nat j * rsum (fun r => V r i * V r i) n = V 0%nat i * rsum (fun r => V r i * V r j) n).
  { rewrite <- !rsum_scal. apply rsum_ext. intros r Hr. rewrite (vector_value i r Hi Hr), (vector_value j r Hj Hr), E. ring. }
  rewrite Oii, Oij in Z. lra.
Qed.
(** the nodes are all roots of the Legendre polynomial *)
Lemma root_node : forall x, leg n x = 0 -> exists i, (i < n)%nat /\ lam i = x.
Proof.
  intros x Z. destruct (in_dec Req_EM_T x (map lam (seq 0 n))) as [I|N].
  - apply in_map_iff in I. destruct I as [i [E I]]. apply in_seq in I. exists i. split; [lia|exact E].
  - exfalso. assert (All : forall t, leg n t = 0); [|specialize (All 1); pose proof (leg_at_1 n); lra].
    apply (poly_zero (S n) (leg n) (fun i => if (i =? n)%nat then x else lam i) (leg_poly n)).
    + intros i j Hi Hj Nij E. assert (M : forall k, (k < n)%nat -> lam k <> x) by (intros k Hk Ek; apply N, in_map_iff; exists k; split; [exact Ek|apply in_seq; lia]).
      destruct (Nat.eqb_spec i n), (Nat.eqb_spec j n); try lia; [apply (M j); [lia|congruence]|apply (M i); [lia|congruence]|]. apply (nodes_distinct i j); lia || assumption.
    + intros i Hi. destruct (Nat.eqb_spec i n); [exact Z|apply node_root; lia].
Qed.
Lemma node_mirror : forall i, (i < n)%nat -> exists j, (j < n)%nat /\ lam j = - lam i.
Proof. intros i Hi. apply root_node. rewrite (proj1 (leg_mirror n (lam i))), (node_root i Hi). ring. Qed.
(** the weight of a node *)
Lemma node_weight : forall i, (i < n)%nat -> V 0%nat i * V 0%nat i * rsum (fun r => nleg r (lam i) * nleg r (lam i)) n = 1.
Proof.
  intros i Hi. destruct dec as [_ [_ O]]. specialize (O i i Hi Hi). rewrite Nat.eqb_refl in O. rewrite <- O, <- rsum_scal. apply rsum_ext. intros r Hr. rewrite (vector_value i r Hi Hr). ring.
Qed.
Lemma nleg_mirror : forall r x, nleg r (- x) * nleg r (- x) = nleg r x * nleg r x.
Proof.
  intros r x. unfold nleg. rewrite (proj1 (leg_mirror r x)). assert (S1 : (-1) ^ r * (-1) ^ r = 1) by (rewrite <- Rpow_mult_distr; replace (-1 * -1) with 1 by ring; apply pow1).
  transitivity (sqrt (2 * INR r + 1) * leg r x * (sqrt (2 * INR r + 1) * leg r x) * ((-1) ^ r * (-1) ^ r)); [ring|]. rewrite S1. ring.
Qed.
Lemma weight_mirror : forall i j, (i < n)%nat -> (j < n)%nat -> lam j = - lam i -> V 0%nat j * V 0%nat j = V 0%nat i * V 0%nat i.
Proof.
  intros i j Hi Hj E. pose proof (node_weight i Hi) as Wi. pose proof (node_weight j Hj) as Wj. rewrite E in Wj.
  rewrite (rsum_ext _ (fun r => nleg r (lam i) * nleg r (lam i)) n (fun r _ => nleg_mirror r (lam i))) in Wj. set (s := rsum _ n) in *. clearbody s.
  assert (s <> 0) by (intros ->; lra). apply (Rmult_eq_reg_r s); [lra|assumption].
Qed.
Lemma weight_pos : forall i, (i < n)%nat -> 0 < V 0%nat i * V 0%nat i.
Proof. intros i Hi. pose proof (first_nonzero i Hi). nra. Qed.
End Nodes.
