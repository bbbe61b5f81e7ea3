From Coq Require Import Reals Lra Lia Arith List Bool.
From Verif Require Import RSum ModelBernstein SpecBernstein.
Local Open Scope R_scope.

(** *** binomial coefficients *)
Lemma Binomial_0_r : forall n, Binomial 0 n = 1%nat.
Proof. destruct n; reflexivity. Qed.

Lemma Binomial_diag : forall n, Binomial n n = 1%nat.
Proof. destruct n; simpl; [reflexivity|]. rewrite Nat.eqb_refl. reflexivity. Qed.

Lemma Binomial_gt : forall n k, (n < k)%nat -> Binomial k n = 0%nat.
Proof.
  intros n k H. destruct n; destruct k; try lia; try reflexivity.
  unfold Binomial; fold Binomial.
  destruct (Nat.eqb_spec (S k) (S n)); [lia|].
  destruct (Nat.ltb_spec (S n) (S k)); [reflexivity|lia].
Qed.

Lemma Binomial_step : forall n k, (k < n)%nat ->
  Binomial (S k) (S n) = (Binomial k n + Binomial (S k) n)%nat.
Proof.
  intros n k H. unfold Binomial at 1; fold Binomial.
  destruct (Nat.eqb_spec (S k) (S n)); [lia|].
  destruct (Nat.ltb_spec (S n) (S k)); [lia|reflexivity].
Qed.

Lemma C_0 : forall n, C n 0 = 1.
Proof.
  intros. unfold C. rewrite Nat.sub_0_r. simpl (fact 0). simpl (INR 1).
  field. apply INR_fact_neq_0.
Qed.

Lemma C_n : forall n, C n n = 1.
Proof.
  intros. unfold C. rewrite Nat.sub_diag. simpl (fact 0). simpl (INR 1).
  field. apply INR_fact_neq_0.
Qed.

Lemma Binomial_C : forall n k, (k <= n)%nat -> INR (Binomial k n) = C n k.
Proof.
  induction n as [|n IH]; intros k Hk.
  - replace k with 0%nat by lia. rewrite C_0. reflexivity.
  - destruct k as [|k].
    + rewrite Binomial_0_r, C_0. reflexivity.
    + destruct (Nat.eq_dec k n) as [->|Hne].
      * rewrite Binomial_diag, C_n. reflexivity.
      * rewrite Binomial_step by lia. rewrite plus_INR, !IH by lia.
        apply pascal. lia.
Qed.

Lemma BernsteinX_pow : forall n x, BernsteinX n x = x ^ n.
Proof.
  induction n as [|n IH]; intros x; [reflexivity|].
  destruct n as [|n]; [simpl; ring|].
  change (BernsteinX (S (S n)) x) with (x * BernsteinX (S n) x). rewrite IH. reflexivity.
Qed.

Lemma Bernstein_bern : forall n p x, (n <= p)%nat -> Bernstein n p x = bern p n x.
Proof.
  intros. unfold Bernstein, bern. rewrite !BernsteinX_pow, Binomial_C by assumption. ring.
Qed.

(** *** coefficient evaluation *)
Lemma hidden_EvalCoefs_sum : forall n p a x,
  hidden_EvalCoefs n p a x = rsum (fun i => a i * Bernstein i p x) (n + 1).
Proof.
  induction n as [|n IH]; intros; simpl; [ring|].
  rewrite IH. replace (n + 1)%nat with (S n) by lia. simpl. ring.
Qed.

Lemma hidden_EvalDerCoefs_sum : forall n p a x,
  hidden_EvalDerCoefs n p a x = rsum (fun i => (a (S i) - a i) * Bernstein i p x) (n + 1).
Proof.
  induction n as [|n IH]; intros; simpl; [ring|].
  rewrite IH. replace (n + 1)%nat with (S n) by lia. simpl. ring.
Qed.

Lemma EvalBernstein_spec : forall p a x, EvalBernstein p a x = bernstein_form p a x.
Proof.
  intros. unfold EvalBernstein, bernstein_form. rewrite hidden_EvalCoefs_sum.
  apply rsum_ext; intros. rewrite Bernstein_bern by lia. reflexivity.
Qed.

(** *** basis evaluation *)
Lemma upd_same : forall a i v, upd a i v i = v.
Proof. intros; unfold upd; rewrite Nat.eqb_refl; reflexivity. Qed.
Lemma upd_other : forall a i v k, k <> i -> upd a i v k = a k.
Proof. intros a i v k H; unfold upd; destruct (Nat.eqb_spec k i); [contradiction|reflexivity]. Qed.

Lemma hidden_EvalBasis_spec : forall n p a x k,
  hidden_EvalBasis n p a x k = if (k <=? n)%nat then Bernstein k p x else a k.
Proof.
  induction n as [|n IH]; intros; simpl hidden_EvalBasis.
  - destruct k; [rewrite upd_same; reflexivity|rewrite upd_other by lia; reflexivity].
  - rewrite IH. destruct (Nat.leb_spec k n); destruct (Nat.leb_spec k (S n)); try lia; auto.
    + replace k with (S n) by lia. rewrite upd_same. reflexivity.
    + rewrite upd_other by lia. reflexivity.
Qed.

Lemma EvalBernsteinBasis_spec : forall p a x k,
  EvalBernsteinBasis p a x k = if (k <=? p)%nat then bern p k x else a k.
Proof.
  intros. unfold EvalBernsteinBasis. rewrite hidden_EvalBasis_spec.
  destruct (Nat.leb_spec k p); [apply Bernstein_bern; assumption|reflexivity].
Qed.

Lemma hidden_EvalBasisPEQ_spec : forall n p a x k,
  hidden_EvalBasisPEQ n p a x k = if (k <=? n)%nat then a k + Bernstein k p x else a k.
Proof.
  induction n as [|n IH]; intros; simpl hidden_EvalBasisPEQ.
  - destruct k; [rewrite upd_same; reflexivity|rewrite upd_other by lia; reflexivity].
  - rewrite IH. destruct (Nat.leb_spec k n); destruct (Nat.leb_spec k (S n)); try lia.
    + rewrite upd_other by lia. reflexivity.
    + replace k with (S n) by lia. rewrite upd_same. reflexivity.
    + rewrite upd_other by lia. reflexivity.
Qed.

Lemma EvalBernsteinBasisPEQ_spec : forall p a x k,
  EvalBernsteinBasisPEQ p a x k = if (k <=? p)%nat then a k + bern p k x else a k.
Proof.
  intros. unfold EvalBernsteinBasisPEQ. rewrite hidden_EvalBasisPEQ_spec.
  destruct (Nat.leb_spec k p); [rewrite Bernstein_bern by assumption|]; reflexivity.
Qed.

(** difference formula of the derivative basis *)
Definition dbern (p i : nat) (x : R) : R :=
  match p with
  | O => 0
  | S q => INR p * ((match i with O => 0 | S j => bern q j x end)
                     - (if (i <=? q)%nat then bern q i x else 0))
  end.

Lemma hidden_EvalDerBasis_spec : forall n p a x k,
  hidden_EvalDerBasis n p a x k =
   if (k <=? n)%nat then
     match k with
     | O => (- INR p - 1) * Bernstein 0 p x
     | S j => (INR p + 1) * (Bernstein j p x - Bernstein k p x)
     end
   else a k.
Proof.
  induction n as [|n IH]; intros; simpl hidden_EvalDerBasis.
  - destruct k; [rewrite upd_same; reflexivity|rewrite upd_other by lia; reflexivity].
  - rewrite IH. destruct (Nat.leb_spec k n); destruct (Nat.leb_spec k (S n)); try lia; auto.
    + assert (k = S n) by lia. subst k. rewrite upd_same. reflexivity.
    + rewrite upd_other by lia. reflexivity.
Qed.

Lemma EvalBernsteinDerBasis_spec : forall p a x k,
  EvalBernsteinDerBasis p a x k = if (k <=? p)%nat then dbern p k x else a k.
Proof.
  intros p a x k. unfold EvalBernsteinDerBasis, dbern. destruct p as [|q].
  - destruct k; [rewrite upd_same; simpl; ring|rewrite upd_other by lia; reflexivity].
  - rewrite hidden_EvalDerBasis_spec.
    destruct (Nat.leb_spec k q); destruct (Nat.leb_spec k (S q)); try lia.
    + rewrite S_INR. destruct k as [|j].
      * rewrite Bernstein_bern by lia. ring.
      * rewrite !Bernstein_bern by lia. ring.
    + assert (k = S q) by lia. subst k. rewrite upd_same.
      rewrite Bernstein_bern by lia. ring.
    + rewrite upd_other by lia. reflexivity.
Qed.

Lemma hidden_EvalDerBasisPEQ_spec : forall n p a x k,
  hidden_EvalDerBasisPEQ n p a x k =
   if (k <=? n)%nat then
     a k + match k with
     | O => (- INR p - 1) * Bernstein 0 p x
     | S j => (INR p + 1) * (Bernstein j p x - Bernstein k p x)
     end
   else a k.
Proof.
  induction n as [|n IH]; intros; simpl hidden_EvalDerBasisPEQ.
  - destruct k; [rewrite upd_same; reflexivity|rewrite upd_other by lia; reflexivity].
  - rewrite IH. destruct (Nat.leb_spec k n); destruct (Nat.leb_spec k (S n)); try lia.
    + rewrite upd_other by lia. reflexivity.
    + assert (k = S n) by lia. subst k. rewrite upd_same. reflexivity.
    + rewrite upd_other by lia. reflexivity.
Qed.

Lemma EvalBernsteinDerBasisPEQ_spec : forall p a x k,
  EvalBernsteinDerBasisPEQ p a x k = if (k <=? p)%nat then a k + dbern p k x else a k.
Proof.
  intros p a x k. unfold EvalBernsteinDerBasisPEQ, dbern. destruct p as [|q].
  - destruct k; [rewrite upd_same; simpl; ring|rewrite upd_other by lia; reflexivity].
  - rewrite hidden_EvalDerBasisPEQ_spec.
    destruct (Nat.leb_spec k q); destruct (Nat.leb_spec k (S q)); try lia.
    + rewrite upd_other by lia. rewrite S_INR. destruct k as [|j].
      * rewrite Bernstein_bern by lia. ring.
      * rewrite !Bernstein_bern by lia. ring.
    + assert (k = S q) by lia. subst k. rewrite upd_same.
      rewrite Bernstein_bern by lia. ring.
    + rewrite upd_other by lia. reflexivity.
Qed.

(** *** analysis *)
Lemma bern_sum : forall p x, rsum (fun i => bern p i x) (p + 1) = 1.
Proof.
  intros. transitivity ((x + (1 - x)) ^ p).
  - rewrite binomial. unfold bern. generalize (fun i => C p i * x ^ i * (1 - x) ^ (p - i)).
    intros f. clear. replace (p + 1)%nat with (S p) by lia.
    induction p as [|p IH]; [simpl; ring|]. simpl sum_f_R0. rewrite <- IH. simpl. ring.
  - replace (x + (1 - x)) with 1 by ring. apply pow1.
Qed.

Lemma C_pos : forall n k, 0 < C n k.
Proof.
  intros. unfold C. apply Rdiv_lt_0_compat; [apply INR_fact_lt_0|].
  apply Rmult_lt_0_compat; apply INR_fact_lt_0.
Qed.

Lemma bern_nonneg : forall p i x, 0 <= x <= 1 -> 0 <= bern p i x.
Proof.
  intros p i x [H0 H1]. unfold bern. apply Rmult_le_pos; [apply Rmult_le_pos|].
  - left; apply C_pos.
  - apply pow_le; assumption.
  - apply pow_le; lra.
Qed.

Lemma bern_le_1 : forall p i x, 0 <= x <= 1 -> (i <= p)%nat -> bern p i x <= 1.
Proof.
  intros p i x Hx Hi. rewrite <- (bern_sum p x).
  apply (rsum_member_le (fun i => bern p i x)); [intros; apply bern_nonneg; assumption|lia].
Qed.

Lemma C_absorb : forall q j, (j <= q)%nat -> INR (S j) * C (S q) (S j) = INR (S q) * C q j.
Proof.
  intros. unfold C. replace (S q - S j)%nat with (q - j)%nat by lia.
  rewrite !fact_simpl, !mult_INR. field.
  repeat split; try apply INR_fact_neq_0; apply not_0_INR; lia.
Qed.

Lemma C_absorb2 : forall q i, (i <= q)%nat -> INR (S q - i) * C (S q) i = INR (S q) * C q i.
Proof.
  intros. unfold C. replace (S q - i)%nat with (S (q - i)) by lia.
  rewrite !fact_simpl, !mult_INR. field.
  repeat split; try apply INR_fact_neq_0; apply not_0_INR; lia.
Qed.

Lemma derivable_pt_lim_one_minus_pow : forall n x,
  derivable_pt_lim (fun y => (1 - y) ^ n) x (- (INR n * (1 - x) ^ pred n)).
Proof.
  intros n x.
  replace (- (INR n * (1 - x) ^ pred n)) with ((INR n * (1 - x) ^ pred n) * (0 - 1)) by ring.
  apply (derivable_pt_lim_comp (fun y => 1 - y) (fun y => y ^ n)).
  - apply (derivable_pt_lim_minus (fun _ => 1) (fun y => y)).
    + apply derivable_pt_lim_const.
    + apply derivable_pt_lim_id.
  - apply derivable_pt_lim_pow.
Qed.

Lemma bern_derivable : forall p i x, (i <= p)%nat ->
  derivable_pt_lim (fun y => bern p i y) x (dbern p i x).
Proof.
  intros p i x Hi.
  assert (HD : derivable_pt_lim (fun y => bern p i y) x
     (C p i * (INR i * x ^ pred i * (1 - x) ^ (p - i)
             + x ^ i * - (INR (p - i) * (1 - x) ^ pred (p - i))))).
  { unfold bern.
    assert (E : forall y, C p i * y ^ i * (1 - y) ^ (p - i)
                   = (fun _ => C p i) y * (y ^ i * (1 - y) ^ (p - i))).
    { intros; simpl; ring. }
    pose proof (derivable_pt_lim_mult (fun y => y ^ i) (fun y => (1 - y) ^ (p - i)) x
                 _ _ (derivable_pt_lim_pow x i) (derivable_pt_lim_one_minus_pow (p - i) x)) as H1.
    pose proof (derivable_pt_lim_scal _ (C p i) x _ H1) as H2.
    apply (derivable_pt_lim_ext (mult_real_fct (C p i) (mult_fct (fun y => y ^ i) (fun y => (1 - y) ^ (p - i))))).
    - intros y. unfold mult_real_fct, mult_fct. ring.
    - exact H2. }
  replace (dbern p i x) with (C p i * (INR i * x ^ pred i * (1 - x) ^ (p - i)
             + x ^ i * - (INR (p - i) * (1 - x) ^ pred (p - i)))); [exact HD|].
  clear HD. unfold dbern. destruct p as [|q].
  - replace i with 0%nat by lia. simpl. ring.
  - unfold bern. destruct i as [|j].
    + rewrite Nat.sub_0_r. simpl pred. simpl (0 <=? q)%nat. cbv iota.
      rewrite C_0, C_0, Nat.sub_0_r. simpl (INR 0). simpl (x ^ 0). ring.
    + simpl pred. replace (S q - S j)%nat with (q - j)%nat by lia.
      transitivity (INR (S j) * C (S q) (S j) * (x ^ j * (1 - x) ^ (q - j))
         - C (S q) (S j) * INR (q - j) * (x ^ S j * (1 - x) ^ pred (q - j))); [ring|].
      rewrite C_absorb by lia.
      destruct (Nat.leb_spec (S j) q).
      * replace (C (S q) (S j) * INR (q - j)) with (INR (S q) * C q (S j)).
        2:{ rewrite <- C_absorb2 by lia. replace (S q - S j)%nat with (q - j)%nat by lia. ring. }
        replace (pred (q - j)) with (q - S j)%nat by lia. ring.
      * replace (q - j)%nat with 0%nat by lia. simpl (INR 0). ring.
Qed.

Lemma bernstein_form_derivable : forall p a x,
  derivable_pt_lim (bernstein_form p a) x (rsum (fun i => a i * dbern p i x) (p + 1)).
Proof.
  intros p a x.
  apply (rsum_derivable (fun i y => a i * bern p i y) (fun i y => a i * dbern p i y)).
  intros i Hi. apply (derivable_pt_lim_scal (fun y => bern p i y) (a i)).
  apply bern_derivable; lia.
Qed.

Lemma EvalBernsteinDer_dbern : forall p a x,
  EvalBernsteinDer p a x = rsum (fun i => a i * dbern p i x) (p + 1).
Proof.
  intros p a x. unfold EvalBernsteinDer. destruct p as [|q].
  - simpl. ring.
  - rewrite hidden_EvalDerCoefs_sum, <- rsum_scal.
    transitivity (rsum (fun i => INR (S q) * (a (S i) * bern q i x)) (q + 1)
                  - rsum (fun i => INR (S q) * (a i * bern q i x)) (q + 1)).
    { rewrite <- rsum_minus. apply rsum_ext; intros. rewrite Bernstein_bern by lia. ring. }
    transitivity (rsum (fun i => INR (S q) * (a i * match i with O => 0 | S j => bern q j x end)) (S q + 1)
       - rsum (fun i => INR (S q) * (a i * (if (i <=? q)%nat then bern q i x else 0))) (S q + 1)).
    2:{ rewrite <- rsum_minus. apply rsum_ext; intros. unfold dbern. ring. }
    f_equal.
    + replace (S q + 1)%nat with (S (q + 1)) by lia. rewrite rsum_shift.
      rewrite Rmult_0_r, Rmult_0_r, Rplus_0_l. reflexivity.
    + replace (S q + 1)%nat with (S (q + 1)) by lia. simpl rsum at 2.
      destruct (Nat.leb_spec (q + 1) q); [lia|]. rewrite Rmult_0_r, Rmult_0_r, Rplus_0_r.
      apply rsum_ext; intros. destruct (Nat.leb_spec i q); [reflexivity|lia].
Qed.

Lemma EvalBernsteinDer_derivable : forall p a x,
  derivable_pt_lim (EvalBernstein p a) x (EvalBernsteinDer p a x).
Proof.
  intros. rewrite EvalBernsteinDer_dbern.
  apply (derivable_pt_lim_ext (bernstein_form p a)).
  - intros; symmetry; apply EvalBernstein_spec.
  - apply bernstein_form_derivable.
Qed.

Lemma bern_at_0 : forall p i, (i <= p)%nat -> bern p i 0 = if (i =? 0)%nat then 1 else 0.
Proof.
  intros p i Hi. unfold bern. destruct i as [|i].
  - rewrite C_0. simpl. rewrite Rminus_0_r, pow1. ring.
  - simpl. ring.
Qed.

Lemma bern_at_1 : forall p i, (i <= p)%nat -> bern p i 1 = if (i =? p)%nat then 1 else 0.
Proof.
  intros p i Hi. unfold bern. replace (1 - 1) with 0 by ring. rewrite pow1.
  destruct (Nat.eqb_spec i p) as [->|Hne].
  - rewrite C_n, Nat.sub_diag. simpl. ring.
  - rewrite pow_i by lia. ring.
Qed.

Lemma bernstein_form_0 : forall p a, bernstein_form p a 0 = a 0%nat.
Proof.
  intros. unfold bernstein_form. rewrite (rsum_single _ _ 0%nat); try lia.
  - rewrite bern_at_0 by lia. simpl. ring.
  - intros. rewrite bern_at_0 by lia. destruct (Nat.eqb_spec i 0); [lia|ring].
Qed.

Lemma bernstein_form_1 : forall p a, bernstein_form p a 1 = a p.
Proof.
  intros. unfold bernstein_form. rewrite (rsum_single _ _ p); try lia.
  - rewrite bern_at_1 by lia. rewrite Nat.eqb_refl. ring.
  - intros. rewrite bern_at_1 by lia. destruct (Nat.eqb_spec i p); [lia|ring].
Qed.

Lemma bernstein_form_bounds : forall p a x lo hi, 0 <= x <= 1 ->
  (forall i, (i <= p)%nat -> lo <= a i <= hi) -> lo <= bernstein_form p a x <= hi.
Proof.
  intros p a x lo hi Hx H. unfold bernstein_form. split.
  - replace lo with (rsum (fun i => lo * bern p i x) (p + 1)).
    + apply rsum_le; intros i Hi. apply Rmult_le_compat_r; [apply bern_nonneg; assumption|].
      apply H; lia.
    + rewrite rsum_scal, bern_sum; ring.
  - replace hi with (rsum (fun i => hi * bern p i x) (p + 1)).
    + apply rsum_le; intros i Hi. apply Rmult_le_compat_r; [apply bern_nonneg; assumption|].
      apply H; lia.
    + rewrite rsum_scal, bern_sum; ring.
Qed.

(** *** dispatch *)
Lemma dispatch_le : forall {A} P (f : nat -> A) p, (p <= P)%nat -> dispatch P f p = f p.
Proof.
  intros A P f p. induction P as [|P IH]; intros H.
  - replace p with 0%nat by lia. reflexivity.
  - simpl. destruct (Nat.eqb_spec p (S P)) as [->|Hne]; [reflexivity|]. apply IH; lia.
Qed.

Lemma dispatch_gt : forall {A} P (f : nat -> A) p, (P < p)%nat -> dispatch P f p = f 0%nat.
Proof.
  intros A P f p. induction P as [|P IH]; intros H; [reflexivity|].
  simpl. destruct (Nat.eqb_spec p (S P)) as [->|Hne]; [lia|]. apply IH; lia.
Qed.

(** *** loops *)
Lemma for_loop_inv : forall {A} (I : nat -> A -> Prop) n body s,
  I 0%nat s -> (forall i s, (i < n)%nat -> I i s -> I (S i) (body i s)) -> I n (for_loop n body s).
Proof.
  intros A I n body s H0 Hs. assert (H : forall k, (k <= n)%nat -> I k (for_loop k body s)).
  { induction k as [|k IH]; intros Hk; simpl; [assumption|]. apply Hs; [lia|]. apply IH; lia. }
  apply H; lia.
Qed.

Lemma loop_acc_spec : forall n (v : arr) c k,
  for_loop n (fun i c => upd c i (c i + v i)) c k = if (k <? n)%nat then c k + v k else c k.
Proof.
  intros n v c. induction n as [|n IH]; intros k; simpl for_loop; [reflexivity|].
  unfold upd at 1. destruct (Nat.eqb_spec k n) as [->|Hne].
  - rewrite IH. rewrite Nat.ltb_irrefl. destruct (Nat.ltb_spec n (S n)); [reflexivity|lia].
  - rewrite IH. destruct (Nat.ltb_spec k n); destruct (Nat.ltb_spec k (S n)); try lia; reflexivity.
Qed.

(** Inner loop over ix of the tensor-product accumulation. *)
Lemma tp_inner : forall n I iy (X : arr) w y c k, (n <= I)%nat ->
  for_loop n (fun ix c => upd c (iy * I + ix) (c (iy * I + ix)%nat + w * X ix * y)) c k
  = if ((iy * I <=? k) && (k <? iy * I + n))%nat%bool then c k + w * X (k - iy * I)%nat * y else c k.
Proof.
  intros n I iy X w y c k. induction n as [|n IH]; intros Hn.
  - simpl. destruct (Nat.leb_spec (iy * I) k); destruct (Nat.ltb_spec k (iy * I + 0)); simpl; try lia; reflexivity.
  - simpl for_loop. unfold upd at 1. destruct (Nat.eqb_spec k (iy * I + n)) as [->|Hne].
    + set (q := (iy * I)%nat). fold q in IH |- *.
      assert (E : for_loop n (fun ix c => upd c (q + ix) (c (q + ix)%nat + w * X ix * y)) c (q + n)%nat = c (q + n)%nat).
      { clear IH. assert (G : forall m k, (q + m <= k)%nat ->
          for_loop m (fun ix c => upd c (q + ix) (c (q + ix)%nat + w * X ix * y)) c k = c k).
        { induction m as [|m IHm]; intros k0 Hk0; simpl; [reflexivity|].
          rewrite upd_other by lia. apply IHm; lia. }
        apply G; lia. }
      rewrite E. destruct (Nat.leb_spec q (q + n)); [|lia].
      destruct (Nat.ltb_spec (q + n) (q + S n)); [|lia]. simpl.
      replace (q + n - q)%nat with n by lia. reflexivity.
    + rewrite IH by lia.
      destruct (Nat.leb_spec (iy * I) k); simpl; [|reflexivity].
      destruct (Nat.ltb_spec k (iy * I + n)); destruct (Nat.ltb_spec k (iy * I + S n)); try lia; reflexivity.
Qed.

Lemma tp_accumulate_rows : forall m I (X Y : arr) w c k, (0 < I)%nat ->
  for_loop m (fun iy c =>
    for_loop I (fun ix c => upd c (iy * I + ix) (c (iy * I + ix)%nat + w * X ix * Y iy)) c) c k
  = if (k <? m * I)%nat then c k + w * X (k mod I) * Y (k / I)%nat else c k.
Proof.
  intros m I X Y w c k HI. induction m as [|m IH].
  - simpl. destruct k; reflexivity.
  - simpl for_loop. rewrite tp_inner by lia. rewrite IH.
    destruct (Nat.leb_spec (m * I) k) as [H1|H1]; simpl.
    + destruct (Nat.ltb_spec k (m * I)); [lia|].
      destruct (Nat.ltb_spec k (m * I + I)) as [H2|H2]; destruct (Nat.ltb_spec k (I + m * I)); try lia; [|reflexivity].
      assert (E : k = (m * I + (k - m * I))%nat) by lia.
      assert (Hd : (k / I = m)%nat).
      { rewrite E, Nat.div_add_l by lia. rewrite Nat.div_small by lia. lia. }
      assert (Hm : (k mod I = k - m * I)%nat).
      { rewrite (Nat.mod_eq k I) by lia. rewrite Hd. lia. }
      rewrite Hd, Hm. reflexivity.
    + destruct (Nat.ltb_spec k (m * I)); [|lia].
      destruct (Nat.ltb_spec k (I + m * I)); [reflexivity|lia].
Qed.

Lemma tp_accumulate_spec : forall I X Y w c iy ix, (iy < I)%nat -> (ix < I)%nat ->
  tp_accumulate I X Y w c (iy * I + ix)%nat = c (iy * I + ix)%nat + w * X ix * Y iy.
Proof.
  intros. unfold tp_accumulate. rewrite tp_accumulate_rows by lia.
  destruct (Nat.ltb_spec (iy * I + ix) (I * I)) as [H1|H1].
  - rewrite Nat.div_add_l by lia. rewrite Nat.div_small by lia. rewrite Nat.add_0_r.
    rewrite Nat.add_comm, Nat.mod_add by lia. rewrite Nat.mod_small by lia. reflexivity.
  - exfalso. assert (iy * I + ix < (iy + 1) * I)%nat by lia.
    assert ((iy + 1) * I <= I * I)%nat by (apply Nat.mul_le_mono_r; lia). lia.
Qed.

Lemma tp_accumulate_frame : forall I X Y w c k, (0 < I)%nat -> (I * I <= k)%nat ->
  tp_accumulate I X Y w c k = c k.
Proof.
  intros. unfold tp_accumulate. rewrite tp_accumulate_rows by lia.
  destruct (Nat.ltb_spec k (I * I)); [lia|reflexivity].
Qed.

Lemma basis_at : forall P junk x i, (i <= P)%nat ->
  dispatch P (fun q => EvalBernsteinBasis q junk x) P i = bern P i x.
Proof.
  intros. rewrite dispatch_le by lia. rewrite EvalBernsteinBasis_spec.
  destruct (Nat.leb_spec i P); [reflexivity|lia].
Qed.

Lemma dbasis_at : forall P junk x i, (i <= P)%nat ->
  dispatch P (fun q => EvalBernsteinDerBasis q junk x) P i = dbern P i x.
Proof.
  intros. rewrite dispatch_le by lia. rewrite EvalBernsteinDerBasis_spec.
  destruct (Nat.leb_spec i P); [reflexivity|lia].
Qed.

Lemma phi_spec : forall junk P c w x k,
  phi junk P c w x k = if (k <=? P)%nat then c k + w * bern P k x else c k.
Proof.
  intros. unfold phi. rewrite (loop_acc_spec (P + 1) (fun i => w * _ i)).
  destruct (Nat.ltb_spec k (P + 1)); destruct (Nat.leb_spec k P); try lia; [|reflexivity].
  rewrite basis_at by lia. reflexivity.
Qed.

Lemma phi_dx_spec : forall junk P c w x k,
  phi_dx junk P c w x k = if (k <=? P)%nat then c k + w * dbern P k x else c k.
Proof.
  intros. unfold phi_dx. rewrite (loop_acc_spec (P + 1) (fun i => w * _ i)).
  destruct (Nat.ltb_spec k (P + 1)); destruct (Nat.leb_spec k P); try lia; [|reflexivity].
  rewrite dbasis_at by lia. reflexivity.
Qed.

Lemma phiphi_spec : forall j1 j2 P c w x y iy ix, (iy <= P)%nat -> (ix <= P)%nat ->
  phiphi j1 j2 P c w x y (iy * (P + 1) + ix)%nat
   = c (iy * (P + 1) + ix)%nat + w * bern P ix x * bern P iy y.
Proof.
  intros. unfold phiphi. rewrite tp_accumulate_spec by lia. rewrite !basis_at by lia. reflexivity.
Qed.

Lemma phiphi_dx_spec : forall j1 j2 P c w x y iy ix, (iy <= P)%nat -> (ix <= P)%nat ->
  phiphi_dx j1 j2 P c w x y (iy * (P + 1) + ix)%nat
   = c (iy * (P + 1) + ix)%nat + w * dbern P ix x * bern P iy y.
Proof.
  intros. unfold phiphi_dx. rewrite tp_accumulate_spec by lia.
  rewrite basis_at, dbasis_at by lia. reflexivity.
Qed.

Lemma phiphi_dy_spec : forall j1 j2 P c w x y iy ix, (iy <= P)%nat -> (ix <= P)%nat ->
  phiphi_dy j1 j2 P c w x y (iy * (P + 1) + ix)%nat
   = c (iy * (P + 1) + ix)%nat + w * bern P ix x * dbern P iy y.
Proof.
  intros. unfold phiphi_dy. rewrite tp_accumulate_spec by lia.
  rewrite basis_at, dbasis_at by lia. reflexivity.
Qed.

(** matrix loops *)
Lemma updm_same : forall c i j v, updm c i j v i j = v.
Proof. intros; unfold updm; rewrite !Nat.eqb_refl; reflexivity. Qed.
Lemma updm_other : forall c i j v k l, ~ (k = i /\ l = j) -> updm c i j v k l = c k l.
Proof.
  intros c i j v k l H; unfold updm.
  destruct (Nat.eqb_spec k i); destruct (Nat.eqb_spec l j); simpl; try reflexivity. tauto.
Qed.

Lemma mat_inner : forall n i r s (a : R) (b : arr) (c : mat) k l,
  for_loop n (fun j c => updm c (i + r) (j + s) (c (i + r)%nat (j + s)%nat + a * b j)) c k l
  = if ((k =? i + r) && ((s <=? l) && (l <? n + s)))%nat%bool then c k l + a * b (l - s)%nat else c k l.
Proof.
  intros n i r s a b c. induction n as [|n IH]; intros k l.
  - simpl for_loop. destruct (Nat.eqb_spec k (i + r)); cbn [andb]; [|reflexivity].
    destruct (Nat.leb_spec s l); destruct (Nat.ltb_spec l (0 + s)); cbn [andb]; try lia; reflexivity.
  - simpl for_loop. unfold updm at 1. rewrite !IH.
    destruct (Nat.eqb_spec k (i + r)) as [E|Hk]; cbn [andb]; [|reflexivity].
    destruct (Nat.eqb_spec (i + r) (i + r)); [|congruence]. cbn [andb].
    destruct (Nat.leb_spec s (n + s)); [|lia].
    destruct (Nat.ltb_spec (n + s) (n + s)); [lia|]. cbn [andb]. cbv iota.
    destruct (Nat.eqb_spec l (n + s)) as [El|Hl].
    + subst k l. destruct (Nat.leb_spec s (n + s)); [|lia].
      destruct (Nat.ltb_spec (n + s) (S n + s)); [|lia]. cbn [andb]. cbv iota.
      replace (n + s - s)%nat with n by lia. reflexivity.
    + destruct (Nat.leb_spec s l); cbn [andb]; [|reflexivity].
      destruct (Nat.ltb_spec l (n + s)); destruct (Nat.ltb_spec l (S n + s)); try lia; reflexivity.
Qed.

Lemma mat_loop : forall m n r s (a b : arr) (c : mat) k l,
  for_loop m (fun i c => for_loop n (fun j c =>
     updm c (i + r) (j + s) (c (i + r)%nat (j + s)%nat + a i * b j)) c) c k l
  = if (((r <=? k) && (k <? m + r)) && ((s <=? l) && (l <? n + s)))%nat%bool
    then c k l + a (k - r)%nat * b (l - s)%nat else c k l.
Proof.
  intros m n r s a b c k l. induction m as [|m IH].
  - simpl. destruct (Nat.leb_spec r k); destruct (Nat.ltb_spec k r); simpl; try lia; reflexivity.
  - simpl for_loop. rewrite (mat_inner n m r s (a m) b). rewrite IH.
    destruct (Nat.eqb_spec k (m + r)) as [->|Hk]; cbn [andb].
    + destruct (Nat.leb_spec r (m + r)); [|lia].
      destruct (Nat.ltb_spec (m + r) (m + r)); [lia|].
      destruct (Nat.ltb_spec (m + r) (S m + r)); [|lia]. cbn [andb].
      replace (m + r - r)%nat with m by lia. reflexivity.
    + destruct (Nat.leb_spec r k); cbn [andb]; [|reflexivity].
      destruct (Nat.ltb_spec k (m + r)); destruct (Nat.ltb_spec k (S m + r)); try lia; reflexivity.
Qed.

Lemma loop_ext : forall {A} n (f g : nat -> A -> A) s,
  (forall i s, f i s = g i s) -> for_loop n f s = for_loop n g s.
Proof. intros A n f g s H. induction n as [|n IH]; simpl; [reflexivity|]. rewrite IH. apply H. Qed.

Lemma tp_write_inner : forall n I iy (X : arr) w y c k,
  for_loop n (fun ix c => upd c (iy * I + ix) (w * X ix * y)) c k
  = if ((iy * I <=? k) && (k <? iy * I + n))%nat%bool then w * X (k - iy * I)%nat * y else c k.
Proof.
  intros n I iy X w y c k. induction n as [|n IH].
  - simpl. destruct (Nat.leb_spec (iy * I) k); destruct (Nat.ltb_spec k (iy * I + 0)); simpl; try lia; reflexivity.
  - simpl for_loop. unfold upd at 1. destruct (Nat.eqb_spec k (iy * I + n)) as [->|Hne].
    + destruct (Nat.leb_spec (iy * I) (iy * I + n)); [|lia].
      destruct (Nat.ltb_spec (iy * I + n) (iy * I + S n)); [|lia]. cbn [andb].
      replace (iy * I + n - iy * I)%nat with n by lia. reflexivity.
    + rewrite IH. destruct (Nat.leb_spec (iy * I) k); cbn [andb]; [|reflexivity].
      destruct (Nat.ltb_spec k (iy * I + n)); destruct (Nat.ltb_spec k (iy * I + S n)); try lia; reflexivity.
Qed.

Lemma tp_write : forall m I (X Y : arr) w c k, (0 < I)%nat ->
  for_loop m (fun iy c =>
    for_loop I (fun ix c => upd c (iy * I + ix) (w * X ix * Y iy)) c) c k
  = if (k <? m * I)%nat then w * X (k mod I) * Y (k / I)%nat else c k.
Proof.
  intros m I X Y w c k HI. induction m as [|m IH].
  - simpl. destruct k; reflexivity.
  - simpl for_loop. rewrite tp_write_inner. rewrite IH.
    destruct (Nat.leb_spec (m * I) k) as [H1|H1]; simpl.
    + destruct (Nat.ltb_spec k (m * I)); [lia|].
      destruct (Nat.ltb_spec k (m * I + I)) as [H2|H2]; destruct (Nat.ltb_spec k (I + m * I)); try lia; [|reflexivity].
      assert (Hd : (k / I = m)%nat).
      { symmetry. apply (Nat.div_unique k I m (k - m * I)); lia. }
      assert (Hm : (k mod I = k - m * I)%nat).
      { rewrite (Nat.mod_eq k I) by lia. rewrite Hd. lia. }
      rewrite Hd, Hm. reflexivity.
    + destruct (Nat.ltb_spec k (m * I)); [|lia].
      destruct (Nat.ltb_spec k (I + m * I)); [reflexivity|lia].
Qed.

Lemma split_idx : forall I k, (k < I * I)%nat -> (k / I < I /\ k mod I < I)%nat.
Proof.
  intros I k H. assert (I <> 0)%nat by (intros ->; simpl in H; lia).
  split; [apply Nat.div_lt_upper_bound; assumption|apply Nat.mod_upper_bound; assumption].
Qed.

Lemma app2 : forall (f g : mat) k l, f = g -> f k l = g k l.
Proof. intros; subst; reflexivity. Qed.
Lemma app1 : forall (f g : arr) k, f = g -> f k = g k.
Proof. intros; subst; reflexivity. Qed.

Lemma mat_loop00 : forall m n (a b : arr) (c : mat) k l,
  for_loop m (fun i c => for_loop n (fun j c => updm c i j (c i j + a i * b j)) c) c k l
  = if ((k <? m) && (l <? n))%nat%bool then c k l + a k * b l else c k l.
Proof.
  intros. transitivity (for_loop m (fun i c => for_loop n (fun j c =>
     updm c (i + 0) (j + 0) (c (i + 0)%nat (j + 0)%nat + a i * b j)) c) c k l).
  - apply app2. apply loop_ext. intros i s. apply loop_ext. intros j s0. rewrite !Nat.add_0_r. reflexivity.
  - rewrite mat_loop. rewrite !Nat.add_0_r, !Nat.sub_0_r. reflexivity.
Qed.

Lemma mat_loop0s : forall m n s (a b : arr) (c : mat) k l,
  for_loop m (fun i c => for_loop n (fun j c => updm c i (j + s) (c i (j + s)%nat + a i * b j)) c) c k l
  = if ((k <? m) && ((s <=? l) && (l <? n + s)))%nat%bool then c k l + a k * b (l - s)%nat else c k l.
Proof.
  intros. transitivity (for_loop m (fun i c => for_loop n (fun j c =>
     updm c (i + 0) (j + s) (c (i + 0)%nat (j + s)%nat + a i * b j)) c) c k l).
  - apply app2. apply loop_ext. intros i s0. apply loop_ext. intros j s1. rewrite !Nat.add_0_r. reflexivity.
  - rewrite mat_loop. rewrite !Nat.add_0_r, !Nat.sub_0_r. reflexivity.
Qed.

Lemma mat_loopr0 : forall m n r (a b : arr) (c : mat) k l,
  for_loop m (fun i c => for_loop n (fun j c => updm c (i + r) j (c (i + r)%nat j + a i * b j)) c) c k l
  = if (((r <=? k) && (k <? m + r)) && (l <? n))%nat%bool then c k l + a (k - r)%nat * b l else c k l.
Proof.
  intros. transitivity (for_loop m (fun i c => for_loop n (fun j c =>
     updm c (i + r) (j + 0) (c (i + r)%nat (j + 0)%nat + a i * b j)) c) c k l).
  - apply app2. apply loop_ext. intros i s0. apply loop_ext. intros j s1. rewrite !Nat.add_0_r. reflexivity.
  - rewrite mat_loop. rewrite !Nat.add_0_r, !Nat.sub_0_r. reflexivity.
Qed.

Lemma tp_write1 : forall m I (X Y : arr) c k, (0 < I)%nat ->
  for_loop m (fun iy c =>
    for_loop I (fun ix c => upd c (iy * I + ix) (X ix * Y iy)) c) c k
  = if (k <? m * I)%nat then X (k mod I) * Y (k / I)%nat else c k.
Proof.
  intros. transitivity (for_loop m (fun iy c =>
    for_loop I (fun ix c => upd c (iy * I + ix) (1 * X ix * Y iy)) c) c k).
  - apply app1. apply loop_ext. intros i s. apply loop_ext. intros j s0. f_equal. ring.
  - rewrite tp_write by assumption. destruct (k <? m * I)%nat; ring.
Qed.

Lemma tp_idx : forall I iy ix, (iy < I)%nat -> (ix < I)%nat ->
  (iy * I + ix < I * I /\ (iy * I + ix) / I = iy /\ (iy * I + ix) mod I = ix)%nat.
Proof.
  intros I iy ix H1 H2. split; [|split].
  - assert ((iy + 1) * I <= I * I)%nat by (apply Nat.mul_le_mono_r; lia). lia.
  - rewrite Nat.div_add_l, Nat.div_small by lia. lia.
  - rewrite Nat.add_comm, Nat.mod_add, Nat.mod_small by lia. reflexivity.
Qed.

Lemma Phi_times_Phi_spec : forall j1 j2 ja jb P c w x1 y1 x2 y2 iy ix jy jx,
  (iy <= P)%nat -> (ix <= P)%nat -> (jy <= P)%nat -> (jx <= P)%nat ->
  Phi_times_Phi j1 j2 ja jb P c w x1 y1 x2 y2 (iy * (P + 1) + ix)%nat (jy * (P + 1) + jx)%nat
  = c (iy * (P + 1) + ix)%nat (jy * (P + 1) + jx)%nat
    + w * (bern P ix x1 * bern P iy y1) * (bern P jx x2 * bern P jy y2).
Proof.
  intros. unfold Phi_times_Phi. rewrite mat_loop00.
  destruct (tp_idx (P + 1) iy ix) as [B1 [D1 M1]]; [lia|lia|].
  destruct (tp_idx (P + 1) jy jx) as [B2 [D2 M2]]; [lia|lia|].
  apply Nat.ltb_lt in B1, B2. rewrite B1, B2. cbn [andb].
  rewrite tp_write, tp_write1 by lia. rewrite B1, B2, D1, D2, M1, M2.
  rewrite !basis_at by lia. ring.
Qed.

Lemma Div_Phi_times_Div_Phi_spec : forall j1 j2 P c w x1 y1 x2 y2 iy ix jy jx (di dj : bool),
  (iy <= P)%nat -> (ix <= P)%nat -> (jy <= P)%nat -> (jx <= P)%nat ->
  let I2 := ((P + 1) * (P + 1))%nat in
  let k := ((if di then I2 else 0) + (iy * (P + 1) + ix))%nat in
  let l := ((if dj then I2 else 0) + (jy * (P + 1) + jx))%nat in
  Div_Phi_times_Div_Phi j1 j2 P c w x1 y1 x2 y2 k l
  = c k l + w * (if di then bern P ix x1 * dbern P iy y1 else dbern P ix x1 * bern P iy y1)
              * (if dj then bern P jx x2 * dbern P jy y2 else dbern P jx x2 * bern P jy y2).
Proof.
  intros. unfold Div_Phi_times_Div_Phi. fold I2.
  destruct (tp_idx (P + 1) iy ix) as [B1 _]; [lia|lia|].
  destruct (tp_idx (P + 1) jy jx) as [B2 _]; [lia|lia|]. fold I2 in B1, B2.
  rewrite mat_loop, mat_loopr0, mat_loop0s, mat_loop00.
  assert (K1 : (k <? I2)%nat = negb di).
  { unfold k. destruct di; cbn [negb]; [apply Nat.ltb_ge; lia|apply Nat.ltb_lt; lia]. }
  assert (K2 : (I2 <=? k)%nat = di).
  { unfold k. destruct di; [apply Nat.leb_le; lia|apply Nat.leb_gt; lia]. }
  assert (K3 : (k <? I2 + I2)%nat = true).
  { unfold k. destruct di; apply Nat.ltb_lt; lia. }
  assert (L1 : (l <? I2)%nat = negb dj).
  { unfold l. destruct dj; cbn [negb]; [apply Nat.ltb_ge; lia|apply Nat.ltb_lt; lia]. }
  assert (L2 : (I2 <=? l)%nat = dj).
  { unfold l. destruct dj; [apply Nat.leb_le; lia|apply Nat.leb_gt; lia]. }
  assert (L3 : (l <? I2 + I2)%nat = true).
  { unfold l. destruct dj; apply Nat.ltb_lt; lia. }
  rewrite K1, K2, K3, L1, L2, L3.
  destruct di, dj; cbn [negb andb]; unfold k, l; cbn [Nat.add];
  rewrite ?(Nat.add_comm I2 (iy * (P + 1) + ix)), ?(Nat.add_comm I2 (jy * (P + 1) + jx)),
          ?Nat.add_sub;
  rewrite ?phiphi_dx_spec, ?phiphi_dy_spec by assumption; unfold zero_arr; ring.
Qed.
