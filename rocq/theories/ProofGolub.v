(** Gauss-Legendre rules from the eigenvalue decomposition of the Jacobi matrix (Golub and Welsch). *)
From Coq Require Import List Arith Lia Reals Lra.
From Coquelicot Require Import Coquelicot.
From Verif Require Import RSum ModelQuad SpecQuad SpecInterp ProofInterp.
Import ListNotations.
Local Open Scope R_scope.

(** ** Legendre polynomials by their recurrence *)
Fixpoint leg2 (i : nat) (x : R) : R * R :=
  match i with
  | O => (1, x)
  | S k => let (a, b) := leg2 k x in (b, ((2 * INR k + 3) * x * b - (INR k + 1) * a) / (INR k + 2))
  end.
Definition leg (i : nat) (x : R) : R := fst (leg2 i x).
Lemma leg2_pair : forall i x, leg2 i x = (leg i x, leg (S i) x).
Proof. intros i x. unfold leg. cbn [leg2]. destruct (leg2 i x) as [a b]. reflexivity. Qed.
Lemma leg_rec : forall k x, (INR k + 2) * leg (S (S k)) x = (2 * INR k + 3) * x * leg (S k) x - (INR k + 1) * leg k x.
Proof.
  intros k x. unfold leg at 1. cbn [leg2]. rewrite leg2_pair. cbn [fst]. field. pose proof (pos_INR k). lra.
Qed.
Lemma leg_0 : forall x, leg 0 x = 1. Proof. reflexivity. Qed.
Lemma leg_1 : forall x, leg 1 x = x. Proof. reflexivity. Qed.
Lemma leg_at_1 : forall i, leg i 1 = 1 /\ leg (S i) 1 = 1.
Proof.
  induction i as [|i [H1 H2]]; [split; reflexivity|]. split; [assumption|]. pose proof (leg_rec i 1) as E. rewrite H1, H2 in E.
  pose proof (pos_INR i). apply (Rmult_eq_reg_l (INR i + 2)); lra.
Qed.
Lemma leg_at_m1 : forall i, leg i (-1) = (-1) ^ i /\ leg (S i) (-1) = (-1) ^ S i.
Proof.
  induction i as [|i [H1 H2]]; [split; unfold leg; simpl; ring|]. split; [assumption|]. pose proof (leg_rec i (-1)) as E. rewrite H1, H2 in E.
  pose proof (pos_INR i). apply (Rmult_eq_reg_l (INR i + 2)); [rewrite E; simpl; ring|lra].
Qed.
(** derivatives *)
Fixpoint dleg2 (i : nat) (x : R) : R * R :=
  match i with
  | O => (0, 1)
  | S k => let (a, b) := dleg2 k x in (b, ((2 * INR k + 3) * (leg (S k) x + x * b) - (INR k + 1) * a) / (INR k + 2))
  end.
Definition dleg (i : nat) (x : R) : R := fst (dleg2 i x).
Lemma dleg2_pair : forall i x, dleg2 i x = (dleg i x, dleg (S i) x).
Proof. intros i x. unfold dleg. cbn [dleg2]. destruct (dleg2 i x) as [a b]. reflexivity. Qed.
Lemma dleg_rec : forall k x, (INR k + 2) * dleg (S (S k)) x = (2 * INR k + 3) * (leg (S k) x + x * dleg (S k) x) - (INR k + 1) * dleg k x.
Proof.
  intros k x. unfold dleg at 1. cbn [dleg2]. rewrite dleg2_pair. cbn [fst]. field. pose proof (pos_INR k). lra.
Qed.
Lemma leg_step : forall k x, leg (S (S k)) x = ((2 * INR k + 3) * x * leg (S k) x - (INR k + 1) * leg k x) / (INR k + 2).
Proof. intros k x. rewrite <- leg_rec. field. pose proof (pos_INR k). lra. Qed.
Lemma leg_step2 : forall i y, / (INR i + 2) * ((2 * INR i + 3) * (y * leg (S i) y) - (INR i + 1) * leg i y) = leg (S (S i)) y.
Proof. intros i y. rewrite leg_step. field. pose proof (pos_INR i). lra. Qed.
Lemma leg_derive : forall i x, is_derive (leg i) x (dleg i x) /\ is_derive (leg (S i)) x (dleg (S i) x).
Proof.
  induction i as [|i IH]; intros x.
  - split; [apply (is_derive_ext (fun _ => 1)); [intros; reflexivity|apply is_derive_Reals, derivable_pt_lim_const]|].
    apply (is_derive_ext (fun y => y)); [intros; reflexivity|]. apply is_derive_Reals, derivable_pt_lim_id.
  - destruct (IH x) as [H1 H2]. split; [assumption|]. pose proof (pos_INR i) as Hi.
    apply (is_derive_ext (fun y => / (INR i + 2) * ((2 * INR i + 3) * (y * leg (S i) y) - (INR i + 1) * leg i y))).
    { intros y. apply leg_step2. }
    replace (dleg (S (S i)) x) with (/ (INR i + 2) * ((2 * INR i + 3) * (1 * leg (S i) x + x * dleg (S i) x) - (INR i + 1) * dleg i x)).
    + apply (is_derive_scal (fun y => (2 * INR i + 3) * (y * leg (S i) y) - (INR i + 1) * leg i y)).
      apply (is_derive_minus (V := R_NormedModule) (fun y => (2 * INR i + 3) * (y * leg (S i) y)) (fun y => (INR i + 1) * leg i y)).
      * apply (is_derive_scal (fun y => y * leg (S i) y)).
        apply is_derive_Reals. apply (derivable_pt_lim_mult (fun y => y) (leg (S i))); [apply derivable_pt_lim_id|apply is_derive_Reals; assumption].
      * apply (is_derive_scal (leg i)). assumption.
    + apply (Rmult_eq_reg_l (INR i + 2)); [|lra]. rewrite dleg_rec. field. lra.
Qed.
Lemma leg_cont : forall i x, continuous (leg i) x.
Proof. intros i x. apply (ex_derive_continuous (leg i)). exists (dleg i x). apply leg_derive. Qed.

(** x P_k' - P_(k-1)' = k P_k  and  P_(k+1)' = x P_k' + (k+1) P_k *)
Lemma leg_identities : forall k x,
  x * dleg (S k) x - dleg k x = (INR k + 1) * leg (S k) x /\ dleg (S k) x = x * dleg k x + (INR k + 1) * leg k x.
Proof.
  induction k as [|k IH]; intros x.
  - unfold dleg, leg; simpl. split; ring.
  - destruct (IH x) as [C B]. pose proof (pos_INR k) as Hk. rewrite S_INR.
    assert (B' : dleg (S (S k)) x = x * dleg (S k) x + (INR k + 1 + 1) * leg (S k) x).
    { apply (Rmult_eq_reg_l (INR k + 2)); [|lra]. rewrite dleg_rec.
      assert (Ed : dleg k x = x * dleg (S k) x - (INR k + 1) * leg (S k) x) by lra. rewrite Ed. ring. }
    split; [|exact B'].
    (* (1 - x^2) P' = k (P_(k-1) - x P_k) *)
    assert (D : (1 - x * x) * dleg (S k) x = (INR k + 1) * (leg k x - x * leg (S k) x)).
    { assert (Ed : dleg k x = x * dleg (S k) x - (INR k + 1) * leg (S k) x) by lra.
      rewrite Ed in B. lra. }
    assert (L : (INR k + 1 + 1) * leg (S (S k)) x = (2 * INR k + 3) * x * leg (S k) x - (INR k + 1) * leg k x).
    { rewrite <- leg_rec. ring. }
    rewrite B', L. 
    replace (x * (x * dleg (S k) x + (INR k + 1 + 1) * leg (S k) x) - dleg (S k) x) with (- ((1 - x * x) * dleg (S k) x) + (INR k + 1 + 1) * x * leg (S k) x) by ring.
    rewrite D. ring.
Qed.
Lemma leg_antiderivative : forall k x, dleg (S (S k)) x - dleg k x = (2 * INR k + 3) * leg (S k) x.
Proof.
  intros k x. destruct (leg_identities k x) as [C _]. destruct (leg_identities (S k) x) as [_ B]. rewrite S_INR in B. rewrite B. lra.
Qed.

(** ** the mean value over [-1, 1] *)
Definition mean (f : R -> R) : R := 1 / 2 * RInt f (-1) 1.
Definition cont (f : R -> R) : Prop := forall x, continuous f x.
Lemma cont_ex : forall f a b, cont f -> ex_RInt f a b.
Proof. intros f a b H. apply (ex_RInt_continuous (V := R_CompleteNormedModule)). intros; apply H. Qed.
Lemma cont_plus : forall f g, cont f -> cont g -> cont (fun x => f x + g x).
Proof. intros f g Hf Hg x. apply (continuous_plus (V := R_NormedModule)); auto. Qed.
Lemma cont_scal : forall c f, cont f -> cont (fun x => c * f x).
Proof. intros c f Hf x. apply (continuous_scal_r (V := R_NormedModule) c f). auto. Qed.
Lemma cont_mult : forall f g, cont f -> cont g -> cont (fun x => f x * g x).
Proof. intros f g Hf Hg x. apply (continuous_mult (K := R_AbsRing)); auto. Qed.
Lemma cont_id : cont (fun x => x). Proof. intros x. apply continuous_id. Qed.
Lemma cont_const : forall c, cont (fun _ => c). Proof. intros c x. apply continuous_const. Qed.
Lemma cont_pow : forall k, cont (fun x => x ^ k).
Proof. induction k as [|k IH]; [exact (cont_const 1)|]. apply (cont_mult (fun x => x)); [apply cont_id|exact IH]. Qed.
Lemma mean_ext : forall f g, (forall x, f x = g x) -> mean f = mean g.
Proof. intros f g H. unfold mean. f_equal. apply RInt_ext. intros; apply H. Qed.
Lemma mean_plus : forall f g, cont f -> cont g -> mean (fun x => f x + g x) = mean f + mean g.
Proof.
  intros f g Hf Hg. unfold mean. rewrite (RInt_plus (V := R_CompleteNormedModule) f g) by (apply cont_ex; assumption). unfold plus; simpl. ring.
Qed.
Lemma mean_scal : forall c f, cont f -> mean (fun x => c * f x) = c * mean f.
Proof.
  intros c f Hf. unfold mean. pose proof (RInt_scal (V := R_CompleteNormedModule) f (-1) 1 c (cont_ex f (-1) 1 Hf)) as H.
  change (RInt (fun x => c * f x) (-1) 1 = c * RInt f (-1) 1) in H. rewrite H. ring.
Qed.
Lemma cont_rsum : forall (f : nat -> R -> R) n, (forall i, (i < n)%nat -> cont (f i)) -> cont (fun x => rsum (fun i => f i x) n).
Proof. intros f n. induction n as [|n IH]; intros H; [exact (cont_const 0)|]. apply (cont_plus (fun x => rsum (fun i => f i x) n)); [apply IH; auto|auto]. Qed.
Lemma mean_const0 : mean (fun _ => 0) = 0.
Proof. unfold mean. rewrite RInt_const. unfold scal; simpl. unfold mult; simpl. ring. Qed.
Lemma mean_rsum : forall (f : nat -> R -> R) n, (forall i, (i < n)%nat -> cont (f i)) -> mean (fun x => rsum (fun i => f i x) n) = rsum (fun i => mean (f i)) n.
Proof.
  intros f n. induction n as [|n IH]; intros H; cbn [rsum]; [apply mean_const0|].
  rewrite (mean_plus (fun x => rsum (fun i => f i x) n) (f n)); [rewrite IH by auto; reflexivity|apply cont_rsum; auto|auto].
Qed.
Lemma mean_one : mean (fun _ => 1) = 1.
Proof. unfold mean. rewrite RInt_const. unfold scal; simpl. unfold mult; simpl. field. Qed.
Lemma mean_leg : forall i, mean (leg (S i)) = 0.
Proof.
  intros i. unfold mean. pose proof (pos_INR i) as Hi.
  assert (E : is_RInt (leg (S i)) (-1) 1 0).
  { replace 0 with (/ (2 * INR i + 3) * (leg (S (S i)) 1 - leg i 1) - / (2 * INR i + 3) * (leg (S (S i)) (-1) - leg i (-1))).
    - refine (is_RInt_derive (fun x => / (2 * INR i + 3) * (leg (S (S i)) x - leg i x)) _ (-1) 1 _ _); [|intros; apply leg_cont].
      intros x _. replace (leg (S i) x) with (/ (2 * INR i + 3) * (dleg (S (S i)) x - dleg i x)).
      + apply (is_derive_scal (fun x => leg (S (S i)) x - leg i x)).
        apply (is_derive_minus (V := R_NormedModule) (leg (S (S i))) (leg i)); apply leg_derive.
      + rewrite leg_antiderivative. field. lra.
    - destruct (leg_at_1 i) as [-> _]. destruct (leg_at_1 (S i)) as [_ ->]. destruct (leg_at_m1 i) as [-> _]. destruct (leg_at_m1 (S i)) as [_ ->]. simpl. ring. }
  rewrite (is_RInt_unique _ _ _ _ E). ring.
Qed.
(** orthogonality *)
Definition gram (i j : nat) : R := mean (fun x => leg i x * leg j x).
Lemma gram_0 : forall i, gram i 0 = if (i =? 0)%nat then 1 else 0.
Proof.
  intros [|i]; unfold gram; cbn [Nat.eqb].
  - rewrite (mean_ext _ (fun _ => 1)); [apply mean_one|]. intros x. rewrite !leg_0. ring.
  - rewrite (mean_ext _ (leg (S i))); [apply mean_leg|]. intros x. rewrite leg_0. ring.
Qed.
Definition prev (g : nat -> R) (i : nat) : R := match i with O => 0 | S k => INR i * g k end.
Lemma x_leg : forall i x, (2 * INR i + 1) * (x * leg i x) = (INR i + 1) * leg (S i) x + prev (fun k => leg k x) i.
Proof.
  intros [|i] x; cbn [prev].
  - rewrite leg_0, leg_1. simpl. ring.
  - rewrite S_INR. pose proof (leg_rec i x). lra.
Qed.
Lemma gram_x : forall i j, (2 * INR i + 1) * mean (fun x => x * leg i x * leg j x) = (INR i + 1) * gram (S i) j + prev (fun k => gram k j) i.
Proof.
  intros i j. rewrite <- mean_scal by (apply (cont_mult (fun x => x * leg i x)); [apply cont_mult; [apply cont_id|intro; apply leg_cont]|intro; apply leg_cont]).
  rewrite (mean_ext _ (fun x => (INR i + 1) * (leg (S i) x * leg j x) + (match i with O => 0 | S k => INR i end) * (leg (pred i) x * leg j x))).
  - rewrite mean_plus, !mean_scal; try (try apply cont_scal; apply cont_mult; intro; apply leg_cont).
    unfold gram, prev. f_equal. destruct i; simpl pred; ring.
  - intros x. rewrite <- Rmult_assoc, x_leg. unfold prev. destruct i; simpl pred; ring.
Qed.
Lemma gram_sym : forall i j, gram i j = gram j i.
Proof. intros i j. apply mean_ext. intros; ring. Qed.
Lemma gram_ok : forall j, (forall i, gram i j = if (i =? j)%nat then / (2 * INR i + 1) else 0) /\ (forall i, gram i (S j) = if (i =? S j)%nat then / (2 * INR i + 1) else 0).
Proof.
  assert (Step : forall j, (forall i, gram i j = if (i =? j)%nat then / (2 * INR i + 1) else 0) ->
     (forall k, j = S k -> forall i, gram i k = if (i =? k)%nat then / (2 * INR i + 1) else 0) ->
     forall i, gram i (S j) = if (i =? S j)%nat then / (2 * INR i + 1) else 0).
  { intros j Hj Hk i. pose proof (gram_x i j) as X1. pose proof (gram_x j i) as X2.
    rewrite (mean_ext (fun x => x * leg j x * leg i x) (fun x => x * leg i x * leg j x)) in X2 by (intros; ring).
    rewrite (gram_sym (S j) i) in X2. pose proof (pos_INR i) as Pi. pose proof (pos_INR j) as Pj.
    assert (E : (INR j + 1) * gram i (S j) = (2 * INR j + 1) * / (2 * INR i + 1) * ((INR i + 1) * gram (S i) j + prev (fun k => gram k j) i) - prev (fun k => gram k i) j).
    { rewrite <- X1. replace ((2 * INR j + 1) * / (2 * INR i + 1) * ((2 * INR i + 1) * mean (fun x => x * leg i x * leg j x))) with ((2 * INR j + 1) * mean (fun x => x * leg i x * leg j x)) by (field; lra). lra. }
    apply (Rmult_eq_reg_l (INR j + 1)); [|lra]. rewrite E, (Hj (S i)).
    assert (P1 : prev (fun k => gram k j) i = if (i =? S j)%nat then INR i * / (2 * INR j + 1) else 0).
    { destruct i as [|i]; cbn [prev]; [reflexivity|]. rewrite Hj. cbn [Nat.eqb]. destruct (Nat.eqb_spec i j) as [->|]; ring. }
    assert (P2 : prev (fun k => gram k i) j = if (S i =? j)%nat then INR j * / (2 * INR i + 1) else 0).
    { destruct j as [|k]; cbn [prev]; [reflexivity|]. rewrite gram_sym, (Hk k eq_refl). cbn [Nat.eqb]. destruct (Nat.eqb_spec i k); ring. }
    rewrite P1, P2. destruct (Nat.eqb_spec i (S j)) as [Ei|Ni].
    - destruct (Nat.eqb_spec (S i) j) as [Ej|_]; [lia|]. rewrite Ei, S_INR. field. lra.
    - destruct (Nat.eqb_spec (S i) j) as [Ej|_]; [|ring]. rewrite <- Ej, S_INR. field. lra. }
  induction j as [|j [H1 H2]].
  - assert (G0 : forall i, gram i 0 = if (i =? 0)%nat then / (2 * INR i + 1) else 0) by (intros i; rewrite gram_0; destruct i; simpl; [field|reflexivity]).
    split; [exact G0|]. apply Step; [exact G0|]. intros k E; discriminate.
  - split; [exact H2|]. apply Step; [exact H2|]. intros k E. injection E as <-. exact H1.
Qed.

(** ** the orthonormal recurrence *)
Definition nleg (r : nat) (x : R) : R := sqrt (2 * INR r + 1) * leg r x.
Definition beta (r : nat) : R := INR r / sqrt (4 * INR r * INR r - 1).
Lemma jacobi_up : forall r, jacobi (S r) r = beta (S r).
Proof. intros r. unfold jacobi, beta. rewrite Nat.eqb_refl. reflexivity. Qed.
Lemma jacobi_down : forall r, jacobi r (S r) = beta (S r).
Proof. intros r. unfold jacobi, beta. destruct (Nat.eqb_spec r (S (S r))) as [E|_]; [lia|]. rewrite Nat.eqb_refl. reflexivity. Qed.
Lemma jacobi_zero : forall r s, r <> S s -> s <> S r -> jacobi r s = 0.
Proof. intros r s H1 H2. unfold jacobi. destruct (Nat.eqb_spec r (S s)); [congruence|]. destruct (Nat.eqb_spec s (S r)); [congruence|reflexivity]. Qed.
Lemma jacobi_sym : forall r s, jacobi r s = jacobi s r.
Proof.
  intros r s. unfold jacobi. destruct (Nat.eqb_spec r (S s)) as [E1|N1], (Nat.eqb_spec s (S r)) as [E2|N2]; try reflexivity. lia.
Qed.
Lemma beta_S : forall r, beta (S r) = (INR r + 1) / (sqrt (2 * INR r + 1) * sqrt (2 * INR r + 3)).
Proof.
  intros r. unfold beta. rewrite S_INR. pose proof (pos_INR r). rewrite <- sqrt_mult by lra.
  replace (4 * (INR r + 1) * (INR r + 1) - 1) with ((2 * INR r + 1) * (2 * INR r + 3)) by ring. reflexivity.
Qed.
Lemma x_nleg : forall r x, x * nleg r x = beta (S r) * nleg (S r) x + match r with O => 0 | S q => beta r * nleg q x end.
Proof.
  intros r x. pose proof (pos_INR r) as Hr. unfold nleg at 1 2. rewrite beta_S, S_INR. pose proof (x_leg r x) as X.
  replace (2 * (INR r + 1) + 1) with (2 * INR r + 3) by ring.
  assert (S1 : 0 < sqrt (2 * INR r + 1)) by (apply sqrt_lt_R0; lra). assert (S3 : 0 < sqrt (2 * INR r + 3)) by (apply sqrt_lt_R0; lra).
  assert (Q1 : sqrt (2 * INR r + 1) * sqrt (2 * INR r + 1) = 2 * INR r + 1) by (apply sqrt_sqrt; lra).
  replace ((INR r + 1) / (sqrt (2 * INR r + 1) * sqrt (2 * INR r + 3)) * (sqrt (2 * INR r + 3) * leg (S r) x)) with ((INR r + 1) * leg (S r) x / sqrt (2 * INR r + 1)) by (field; lra).
  apply (Rmult_eq_reg_l (sqrt (2 * INR r + 1))); [|lra].
  replace (sqrt (2 * INR r + 1) * (x * (sqrt (2 * INR r + 1) * leg r x))) with ((sqrt (2 * INR r + 1) * sqrt (2 * INR r + 1)) * (x * leg r x)) by ring.
  rewrite Q1, X, Rmult_plus_distr_l. f_equal; [field; lra|]. destruct r as [|q]; cbn [prev]; [ring|].
  unfold nleg. rewrite beta_S. rewrite S_INR in *. pose proof (pos_INR q). replace (2 * (INR q + 1) + 1) with (2 * INR q + 3) in * by ring.
  assert (S0 : 0 < sqrt (2 * INR q + 1)) by (apply sqrt_lt_R0; lra). field. lra.
Qed.
Lemma nleg_cont : forall r, cont (nleg r).
Proof. intros r. apply cont_scal. intro; apply leg_cont. Qed.
Lemma nleg_orth : forall r s, mean (fun x => nleg r x * nleg s x) = if (r =? s)%nat then 1 else 0.
Proof.
  intros r s. rewrite (mean_ext _ (fun x => (sqrt (2 * INR r + 1) * sqrt (2 * INR s + 1)) * (leg r x * leg s x))) by (intros; unfold nleg; ring).
  rewrite mean_scal by (apply cont_mult; intro; apply leg_cont). fold (gram r s). rewrite (proj1 (gram_ok s) r).
  destruct (Nat.eqb_spec r s) as [->|_]; [|ring]. pose proof (pos_INR s). rewrite sqrt_sqrt by lra. field. lra.
Qed.
(** coefficients of x^k *)
Fixpoint coef (k r : nat) : R :=
  match k with
  | O => if (r =? 0)%nat then 1 else 0
  | S k => match r with O => 0 | S q => beta r * coef k q end + beta (S r) * coef k (S r)
  end.
Lemma coef_supp : forall k r, (k < r)%nat -> coef k r = 0.
Proof.
  induction k as [|k IH]; intros r H; cbn [coef].
  - destruct (Nat.eqb_spec r 0); [lia|reflexivity].
  - destruct r as [|q]; [lia|]. rewrite (IH q), (IH (S (S q))) by lia. ring.
Qed.
Lemma pow_expand : forall k N x, (k < N)%nat -> x ^ k = rsum (fun r => coef k r * nleg r x) N.
Proof.
  assert (Ext : forall k N x, (k < N)%nat -> rsum (fun r => coef k r * nleg r x) N = rsum (fun r => coef k r * nleg r x) (S k)).
  { intros k N x H. replace N with (S k + (N - S k))%nat by lia. rewrite rsum_split.
    rewrite (rsum_zero (fun i => coef k (S k + i) * nleg (S k + i) x)); [ring|]. intros i _. rewrite coef_supp by lia. ring. }
  induction k as [|k IH]; intros N x H.
  - rewrite Ext by assumption. cbn [rsum coef Nat.eqb pow]. unfold nleg. rewrite leg_0. simpl INR. replace (2 * 0 + 1) with 1 by ring. rewrite sqrt_1. ring.
  - rewrite Ext by assumption. cbn [pow]. rewrite (IH (S k) x) by lia. rewrite <- rsum_scal.
    rewrite (rsum_ext _ (fun r => (coef k r * beta (S r)) * nleg (S r) x + match r with O => 0 | S q => coef k r * beta r * nleg q x end)).
    2:{ intros r _. replace (x * (coef k r * nleg r x)) with (coef k r * (x * nleg r x)) by ring. rewrite x_nleg. destruct r; ring. }
    rewrite rsum_plus.
    rewrite (rsum_ext (fun r => coef (S k) r * nleg r x) (fun r => match r with O => 0 | S q => beta r * coef k q end * nleg r x + beta (S r) * coef k (S r) * nleg r x)) by (intros r _; cbn [coef]; ring).
    rewrite rsum_plus. f_equal.
    + rewrite (rsum_shift (fun r => match r with O => 0 | S q => beta r * coef k q end * nleg r x)). rewrite Rmult_0_l, Rplus_0_l. apply rsum_ext. intros; ring.
    + rewrite (rsum_shift (fun r => match r with O => 0 | S q => coef k r * beta r * nleg q x end)), Rplus_0_l.
      cbn [rsum]. rewrite (coef_supp k (S (S k))), (coef_supp k (S k)) by lia. rewrite !Rmult_0_r, !Rmult_0_l, !Rplus_0_r.
      apply rsum_ext. intros; ring.
Qed.
Lemma mean_pow : forall n j k, (j < n)%nat -> (k <= n)%nat -> mean (fun x => x ^ (j + k)) = rsum (fun r => coef j r * coef k r) n.
Proof.
  intros n j k Hj Hk.
  rewrite (mean_ext _ (fun x => rsum (fun r => rsum (fun s => (coef j r * coef k s) * (nleg r x * nleg s x)) (S n)) (S n))).
  - rewrite mean_rsum.
    + rewrite (rsum_ext _ (fun r => coef j r * coef k r)).
      * cbn [rsum]. rewrite (coef_supp j n Hj). ring.
      * intros r Hr. rewrite mean_rsum by (intros; apply cont_scal, cont_mult; apply nleg_cont).
        rewrite (rsum_single _ (S n) r Hr).
        -- rewrite mean_scal by (apply cont_mult; apply nleg_cont). rewrite nleg_orth, Nat.eqb_refl. ring.
        -- intros s Hs Ns. rewrite mean_scal by (apply cont_mult; apply nleg_cont). rewrite nleg_orth. destruct (Nat.eqb_spec r s); [congruence|ring].
    + intros r _. apply (cont_rsum (fun s x => coef j r * coef k s * (nleg r x * nleg s x))). intros; apply cont_scal, cont_mult; apply nleg_cont.
  - intros x. rewrite pow_add, (pow_expand j (S n) x), (pow_expand k (S n) x) by lia. rewrite <- rsum_scal_r. apply rsum_ext. intros r _.
    rewrite <- rsum_scal. apply rsum_ext. intros; ring.
Qed.
(** powers of the truncated matrix, applied to the first unit vector *)
Fixpoint tv (n k r : nat) : R :=
  match k with O => if (r =? 0)%nat then 1 else 0 | S k => rsum (fun s => jacobi r s * tv n k s) n end.
Lemma tv_coef : forall n k r, (k <= n)%nat -> (r < n)%nat -> tv n k r = coef k r.
Proof.
  intros n k. induction k as [|k IH]; intros r Hk Hr; cbn [tv]; [reflexivity|].
  rewrite (rsum_ext _ (fun s => jacobi r s * coef k s)) by (intros s Hs; rewrite IH by lia; reflexivity).
  assert (C : rsum (fun s => jacobi r s * coef k s) n = rsum (fun s => jacobi r s * coef k s) (S n)).
  { cbn [rsum]. rewrite (coef_supp k n) by lia. ring. }
  rewrite C. clear C. replace (S n) with (r + (S (S (n - S r))))%nat by lia. rewrite rsum_split. cbn [coef]. f_equal.
  - destruct r as [|q]; [reflexivity|]. cbn [rsum]. rewrite rsum_zero.
    + rewrite jacobi_up. ring.
    + intros i Hi. rewrite jacobi_zero by lia. ring.
  - rewrite !rsum_shift. rewrite !Nat.add_0_r. replace (r + 1)%nat with (S r) by lia. rewrite jacobi_down, (jacobi_zero r r) by lia.
    rewrite rsum_zero; [ring|]. intros i _. rewrite jacobi_zero by lia. ring.
Qed.
Lemma tv_inner : forall n j k, (0 < n)%nat -> tv n (j + k) 0 = rsum (fun r => tv n j r * tv n k r) n.
Proof.
  intros n j. induction j as [|j IH]; intros k Hn.
  - rewrite (rsum_single _ n 0 Hn).
    + cbn [tv Nat.eqb Nat.add]. ring.
    + intros r Hr N. cbn [tv]. destruct (Nat.eqb_spec r 0); [congruence|ring].
  - rewrite Nat.add_succ_comm, (IH (S k) Hn). cbn [tv].
    rewrite (rsum_ext _ (fun r => rsum (fun s => tv n j r * (jacobi r s * tv n k s)) n)) by (intros; rewrite rsum_scal; reflexivity).
    rewrite rsum_swap. apply rsum_ext. intros s _. rewrite <- rsum_scal_r. apply rsum_ext. intros r _. rewrite (jacobi_sym r s). ring.
Qed.

(** ** the rule *)
Section Eigen.
Variables (n : nat) (lam : nat -> R) (V : nat -> nat -> R).
Hypothesis Hn : (0 < n)%nat.
Hypothesis eig : forall r i, (r < n)%nat -> (i < n)%nat -> rsum (fun s => jacobi r s * V s i) n = lam i * V r i.
Hypothesis orth : forall r s, (r < n)%nat -> (s < n)%nat -> rsum (fun i => V r i * V s i) n = if (r =? s)%nat then 1 else 0.
Lemma eigen_moment : forall k r, (r < n)%nat -> rsum (fun i => V r i * V 0%nat i * lam i ^ k) n = tv n k r.
Proof.
  induction k as [|k IH]; intros r Hr.
  - cbn [tv]. rewrite <- (orth r 0 Hr Hn). apply rsum_ext. intros; simpl; ring.
  - cbn [tv]. rewrite (rsum_ext _ (fun i => rsum (fun s => jacobi r s * (V s i * V 0%nat i * lam i ^ k)) n)).
    + rewrite rsum_swap. apply rsum_ext. intros s Hs. rewrite rsum_scal, IH by assumption. reflexivity.
    + intros i Hi. rewrite (rsum_ext _ (fun s => jacobi r s * V s i * (V 0%nat i * lam i ^ k))) by (intros; ring).
      rewrite rsum_scal_r, eig by assumption. simpl. ring.
Qed.
Lemma eigen_mean : forall m, (m < 2 * n)%nat -> rsum (fun i => V 0%nat i * V 0%nat i * lam i ^ m) n = mean (fun x => x ^ m).
Proof.
  intros m Hm. rewrite eigen_moment by assumption. set (j := Nat.min m (n - 1)). set (k := (m - j)%nat).
  assert (Hj : (j < n)%nat) by (unfold j; lia). assert (Hk : (k <= n)%nat) by (unfold k, j; lia). replace m with (j + k)%nat by (unfold k, j; lia).
  rewrite (mean_pow n j k Hj Hk), (tv_inner n j k Hn). apply rsum_ext. intros r Hr. rewrite !tv_coef by lia. reflexivity.
Qed.
Lemma eigen_poly : forall q, polynomial (2 * n) q -> rsum (fun i => V 0%nat i * V 0%nat i * q (lam i)) n = mean q.
Proof.
  intros q [c Hq]. rewrite (mean_ext q (fun x => rsum (fun k => c k * x ^ k) (2 * n))) by exact Hq.
  rewrite mean_rsum by (intros; apply cont_scal, cont_pow).
  rewrite (rsum_ext _ (fun i => rsum (fun k => V 0%nat i * V 0%nat i * (c k * lam i ^ k)) (2 * n))) by (intros; rewrite rsum_scal, <- Hq; reflexivity).
  rewrite rsum_swap. apply rsum_ext. intros k Hk. rewrite mean_scal by apply cont_pow. rewrite <- eigen_mean by assumption. rewrite <- rsum_scal. apply rsum_ext. intros; ring.
Qed.
Lemma eigen_exact : exact_rule (2 * n) (fst (eigen_rule n lam V)) (snd (eigen_rule n lam V)).
Proof.
  split; [unfold eigen_rule; cbn [fst snd]; rewrite !map_length; reflexivity|]. intros c v Hv.
  assert (P : polynomial (2 * n) (poly_eval c (2 * n))) by (exists c; reflexivity).
  pose proof (poly_affine (2 * n) _ (1 / 2) (1 / 2) P) as Pa. pose proof (eigen_poly _ Pa) as E.
  unfold quad, eigen_rule. cbn [fst snd]. rewrite map_length, seq_length.
  rewrite (rsum_ext _ (fun i => V 0%nat i * V 0%nat i * poly_eval c (2 * n) (1 / 2 * lam i + 1 / 2))).
  - rewrite E. unfold mean. rewrite <- (is_RInt_unique _ _ _ _ Hv).
    assert (Cp : cont (poly_eval c (2 * n))) by (apply (cont_rsum (fun k x => c k * x ^ k)); intros; apply cont_scal, cont_pow).
    assert (Ca : cont (fun t => poly_eval c (2 * n) (1 / 2 * t + 1 / 2))).
    { intro x. apply (continuous_comp (fun t => 1 / 2 * t + 1 / 2) (poly_eval c (2 * n))); [|apply Cp].
      apply (cont_plus (fun t => 1 / 2 * t)); [apply cont_scal, cont_id|apply cont_const]. }
    pose proof (RInt_comp_lin (V := R_CompleteNormedModule) (poly_eval c (2 * n)) (1 / 2) (1 / 2) (-1) 1) as L.
    replace (1 / 2 * -1 + 1 / 2) with 0 in L by field. replace (1 / 2 * 1 + 1 / 2) with 1 in L by field.
    rewrite <- (L (cont_ex _ 0 1 Cp)).
    symmetry. apply (RInt_scal (V := R_CompleteNormedModule) (fun t => poly_eval c (2 * n) (1 / 2 * t + 1 / 2)) (-1) 1 (1 / 2)). apply cont_ex. exact Ca.
  - intros i Hi. 
    assert (N : forall (f : nat -> R), nth i (map f (seq 0 n)) 0 = f i).
    { intros f. rewrite (nth_indep _ 0 (f O)) by (rewrite map_length, seq_length; assumption). rewrite map_nth, seq_nth by assumption. reflexivity. }
    rewrite !N. f_equal. f_equal. lra.
Qed.
End Eigen.
