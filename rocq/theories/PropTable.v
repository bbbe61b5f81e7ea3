(** C55, continued: the tables for up to 20 points and the computed rules have the same points, to the precision of the numbers. *)
From Coq Require Import ZArith List QArith Qreals Reals Lia Lra Bool Arith.
From Coquelicot Require Import Coquelicot.
From Verif Require Import RSum GaussTable ModelQuad SpecQuad SpecInterp ProofGolub PropQuad ProofGauss PropGauss ProofTable.
Import ListNotations.
Local Close Scope Q_scope.
Local Open Scope R_scope.

Lemma index_choice : forall (P : nat -> nat -> Prop) m, (forall i, (i < m)%nat -> exists c, P i c) -> exists c : nat -> nat, forall i, (i < m)%nat -> P i (c i).
Proof.
  intros P m. induction m as [|m IH]; intros E; [exists (fun _ => O); intros; lia|].
  destruct (IH (fun i Hi => E i (Nat.lt_lt_succ_r _ _ Hi))) as [c Hc]. destruct (E m (Nat.lt_succ_diag_r m)) as [d Hd].
  exists (fun i => if (i =? m)%nat then d else c i). intros i Hi. destruct (Nat.eqb_spec i m) as [->|Ne]; [exact Hd|apply Hc; lia].
Qed.
(** every point of the table lies within 2^-55 of a point of the rule computed from the eigenvalues, and different points belong to different ones *)
Theorem C55_tables : forall n x w lam V, gauss_rule n = Some (x, w) -> eigen_decomposition n jacobi lam V ->
  exists sigma : nat -> nat, (forall k, (k < n)%nat -> (sigma k < n)%nat /\ Rabs (nth k x 0 - nth (sigma k) (fst (eigen_rule n lam V)) 0) <= / 2 ^ 55) /\
    forall k k', (k < n)%nat -> (k' < n)%nat -> sigma k = sigma k' -> k = k'.
Proof.
  intros n x w lam V E D. unfold gauss_rule in E. destruct (gauss_table n) as [[xs ws]|] eqn:Eg; [|discriminate]. injection E as Ex _.
  destruct (table_facts n _ Eg) as [Lx _]. cbn [fst] in Lx. destruct (node_checked n xs ws Eg) as [SC GP]. rewrite forallb_forall in SC.
  destruct (Nat.eq_dec n 0) as [N0|N0]; [exists (fun k => k); split; intros; lia|]. assert (Hn : (0 < n)%nat) by lia. pose proof grid_pos as G.
  assert (Xk : forall k, nth k x 0 = Q2R (nth k xs 0%Q)) by (intros k; rewrite <- Ex; apply nth_Q2R).
  assert (Nk : forall i, (i < n)%nat -> nth i (fst (eigen_rule n lam V)) 0 = 1 / 2 * (lam i + 1)).
  { intros i Hi. unfold eigen_rule. cbn [fst]. rewrite (nth_indep _ 0 (1 / 2 * (lam 0%nat + 1))) by (rewrite map_length, seq_length; assumption). rewrite (map_nth (fun i => 1 / 2 * (lam i + 1))), seq_nth by assumption. reflexivity. }
  destruct (index_choice (fun k i => (i < n)%nat /\ IZR (node_z (nth k xs 0%Q)) - 1 <= lam i * IZR grid <= IZR (node_z (nth k xs 0%Q)) + 2) n) as [sigma Hs].
  { intros k Hk. destruct (zero_near n (nth k xs 0%Q)) as [z [Z0 Zb]]; [apply SC, nth_In; lia|]. destruct (root_node n lam V Hn D z Z0) as [i [Hi <-]]. exists i. auto. }
  exists sigma. split.
  - intros k Hk. destruct (Hs k Hk) as [Hi B]. split; [exact Hi|]. rewrite Xk, (Nk _ Hi). pose proof (node_near (nth k xs 0%Q)) as Nr. set (q := Q2R _) in *. set (l := lam (sigma k)) in *. set (z := IZR (node_z _)) in *.
    assert (Gv : IZR grid = 2 * 2 ^ 55) by (rewrite (pow_IZR 2 55), <- mult_IZR; reflexivity). rewrite Gv in *. assert (P : 0 < 2 ^ 55) by (apply pow_lt; lra). set (g := 2 ^ 55) in *. clearbody g z q l.
    assert (I : 0 < / g) by (apply Rinv_0_lt_compat, P). replace (q - 1 / 2 * (l + 1)) with (((2 * q - 1) * (2 * g) - l * (2 * g)) * / 4 * / g) by (field; lra). rewrite Rabs_mult, (Rabs_right (/ g)) by lra.
    rewrite <- (Rmult_1_l (/ g)) at 2. apply Rmult_le_compat_r; [lra|]. apply Rabs_le. lra.
  - assert (Mono : forall d k, (k + d < n)%nat -> (0 < d)%nat -> IZR (node_z (nth k xs 0%Q)) + 4 <= IZR (node_z (nth (k + d) xs 0%Q))).
    { induction d as [|d IH]; intros k Hk Hd; [lia|]. pose proof (GP (k + d)%nat ltac:(lia)) as S1. rewrite Nat.add_succ_r. assert (S2 : (node_z (nth (k + d) xs 0%Q) + 4 <= node_z (nth (S (k + d)) xs 0%Q))%Z) by lia.
      apply IZR_le in S2. rewrite plus_IZR in S2. destruct (Nat.eq_dec d 0) as [->|Nd]; [rewrite Nat.add_0_r in S2 |- *; exact S2|]. specialize (IH k ltac:(lia) ltac:(lia)). lra. }
    assert (Lt : forall k k', (k < k')%nat -> (k' < n)%nat -> sigma k <> sigma k').
    { intros k k' H1 H2 Es. destruct (Hs k ltac:(lia)) as [_ B1]. destruct (Hs k' H2) as [_ B2]. rewrite <- Es in B2. pose proof (Mono (k' - k)%nat k ltac:(lia) ltac:(lia)) as M1. replace (k + (k' - k))%nat with k' in M1 by lia. lra. }
    intros k k' H1 H2 Es. destruct (Nat.lt_trichotomy k k') as [L|[->|L]]; [exfalso; exact (Lt _ _ L H2 Es)|reflexivity|exfalso; exact (Lt _ _ L H1 (eq_sym Es))].
Qed.
Example C55_tables_example : exists x w lam V, gauss_rule 20 = Some (x, w) /\ eigen_decomposition 20 jacobi lam V.
Proof. destruct gauss_example as [x [w E]]. destruct (C55_exists 20 ltac:(lia)) as [lam [V D]]. exists x, w, lam, V. auto. Qed.

(* BEGIN ASSUMPTIONS *)
Print Assumptions C55_tables.
