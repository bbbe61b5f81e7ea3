(** Derivatives of the inverse cube of the distance along a line: Gegenbauer polynomials. *)
From Coq Require Import List Arith Bool Lia Reals Lra.
From Verif Require Import RSum ProofCheb SpecCheb ProofLegendre.
Local Open Scope R_scope.

Fixpoint hk (k : nat) : R := match k with O => 1 | S j => hk j * ((2 * INR j + 3) / (2 * INR j + 2)) end.
Lemma hk_S : forall j, hk (S j) * (2 * INR j + 2) = hk j * (2 * INR j + 3).
Proof. intros j. cbn [hk]. pose proof (pos_INR j). field. lra. Qed.
Lemma hk_pos : forall k, 0 < hk k.
Proof. induction k as [|k IH]; [simpl; lra|]. cbn [hk]. pose proof (pos_INR k). apply Rmult_lt_0_compat; [exact IH|apply Rdiv_lt_0_compat; lra]. Qed.
Definition geg (n : nat) (a : R) : R := rsum (fun k => hk k * hk (n - k) * cos ((INR n - 2 * INR k) * a)) (S n).
Lemma geg_0 : forall a, geg 0 a = 1.
Proof. intros a. unfold geg. cbn [rsum hk Nat.sub INR]. replace ((0 - 2 * 0) * a) with 0 by ring. rewrite cos_0. ring. Qed.
Lemma geg_1 : forall a, geg 1 a = 3 * cos a.
Proof.
  intros a. unfold geg. cbn [rsum hk Nat.sub INR]. replace ((1 - 2 * 0) * a) with a by ring. replace ((1 - 2 * 1) * a) with (- a) by ring. rewrite cos_neg. field.
Qed.
Lemma geg_rec : forall n a, (INR n + 2) * geg (S (S n)) a = (2 * INR n + 5) * cos a * geg (S n) a - (INR n + 3) * geg n a.
Proof.
  intros n a. set (c := fun k => cos ((INR n + 2 - 2 * INR k) * a)).
  set (A := fun k => (2 * INR n + 5) / 2 * (hk k * hk (S n - k))).
  assert (E1 : (2 * INR n + 5) * cos a * geg (S n) a = (A O * c O + rsum (fun j => A (S j) * c (S j)) (S n)) + (rsum (fun j => A j * c (S j)) (S n) + A (S n) * c (S (S n)))).
  { unfold geg. rewrite <- rsum_scal.
    transitivity (rsum (fun k => A k * c k) (S (S n)) + rsum (fun k => A k * c (S k)) (S (S n))).
    - rewrite <- rsum_plus. apply rsum_ext. intros k Hk. unfold A, c. rewrite !S_INR.
      replace ((INR n + 2 - 2 * INR k) * a) with ((INR n + 1 - 2 * INR k) * a + a) by ring. replace ((INR n + 2 - 2 * (INR k + 1)) * a) with ((INR n + 1 - 2 * INR k) * a - a) by ring.
      rewrite cos_plus, cos_minus. field.
    - rewrite (rsum_shift (fun k => A k * c k)). reflexivity. }
  assert (E2 : (INR n + 3) * geg n a = rsum (fun j => (INR n + 3) * (hk j * hk (n - j)) * c (S j)) (S n)).
  { unfold geg. rewrite <- rsum_scal. apply rsum_ext. intros j Hj. unfold c. rewrite S_INR. replace ((INR n + 2 - 2 * (INR j + 1)) * a) with ((INR n - 2 * INR j) * a) by ring. ring. }
  assert (E3 : (INR n + 2) * geg (S (S n)) a = rsum (fun k => (INR n + 2) * (hk k * hk (S (S n) - k)) * c k) (S (S (S n)))).
  { unfold geg. rewrite <- rsum_scal. apply rsum_ext. intros k Hk. unfold c. rewrite !S_INR. replace (INR n + 1 + 1 - 2 * INR k) with (INR n + 2 - 2 * INR k) by ring. ring. }
  rewrite E1, E2, E3, ends. rewrite !Nat.sub_0_r, Nat.sub_diag. pose proof (pos_INR n) as Pn.
  assert (G : hk (S (S n)) * (2 * INR n + 4) = hk (S n) * (2 * INR n + 5)) by (pose proof (hk_S (S n)) as Q; rewrite S_INR in Q; lra).
  assert (T0 : (INR n + 2) * (hk 0 * hk (S (S n))) = A O) by (unfold A; rewrite Nat.sub_0_r; change (hk 0) with 1; lra).
  assert (T2 : (INR n + 2) * (hk (S (S n)) * hk 0) = A (S n)) by (unfold A; rewrite Nat.sub_diag; change (hk 0) with 1; lra).
  assert (T1 : rsum (fun j => (INR n + 2) * (hk (S j) * hk (S (S n) - S j)) * c (S j)) (S n) =
    rsum (fun j => A (S j) * c (S j)) (S n) + rsum (fun j => A j * c (S j)) (S n) - rsum (fun j => (INR n + 3) * (hk j * hk (n - j)) * c (S j)) (S n)).
  { rewrite <- rsum_plus, <- rsum_minus. apply rsum_ext. intros j Hj. unfold A. change (S n - S j)%nat with (n - j)%nat. change (S (S n) - S j)%nat with (S n - j)%nat.
    replace (S n - j)%nat with (S (n - j)) by lia. cbn [hk]. rewrite minus_INR by lia. set (x := INR j). set (y := INR n). set (p := hk j). set (q := hk (n - j)).
    assert (X0 : 0 <= x) by apply pos_INR. assert (XY : x <= y) by (apply le_INR; lia). field. split; lra. }
  rewrite T0, T1, T2. ring.
Qed.
Lemma geg_zero : forall n, geg n 0 = (INR n + 1) * (INR n + 2) / 2.
Proof.
  intros n. induction n as [| |n I1 I2] using nat_ind2; [rewrite geg_0; simpl; field|rewrite geg_1, cos_0; simpl; field|].
  pose proof (geg_rec n 0) as E. rewrite I1, I2, cos_0 in E. pose proof (pos_INR n) as Pn. apply Rmult_eq_reg_l with (INR n + 2); [|lra]. rewrite E, !S_INR. field.
Qed.
Lemma geg_bound : forall n a, Rabs (geg n a) <= (INR n + 1) * (INR n + 2) / 2.
Proof.
  intros n a. rewrite <- (geg_zero n). unfold geg. eapply Rle_trans; [apply rsum_abs|]. apply rsum_le. intros k _. rewrite Rmult_0_r, cos_0.
  pose proof (hk_pos k). pose proof (hk_pos (n - k)). rewrite Rabs_mult, Rabs_right by (apply Rle_ge, Rmult_le_pos; lra).
  apply Rmult_le_compat_l; [apply Rmult_le_pos; lra|]. apply Rabs_le, COS_bound.
Qed.

(** ** the derivatives of the inverse cube of sqrt (al + 2 ga t + be t^2) *)
Section Cube.
Variables al ga be : R.
Notation qq := (qq al ga be). Notation uu := (uu ga be).
Fixpoint ek (k : nat) (t : R) : R * R :=
  match k with
  | O => (0, / sqrt (qq t) ^ 3)
  | S j => let (p, c) := ek j t in (c, - ((2 * INR j + 3) * uu t * c + INR j * (INR j + 2) * be * p) / qq t)
  end.
Definition HH (k : nat) (t : R) : R := snd (ek k t).
Definition KK (k : nat) (t : R) : R := fst (ek k t).
Lemma HH_S : forall k t, HH (S k) t = - ((2 * INR k + 3) * uu t * HH k t + INR k * (INR k + 2) * be * KK k t) / qq t.
Proof. intros k t. unfold HH, KK. cbn [ek]. destruct (ek k t); reflexivity. Qed.
Lemma KK_S : forall k t, KK (S k) t = HH k t.
Proof. intros k t. unfold HH, KK. cbn [ek]. destruct (ek k t); reflexivity. Qed.
Lemma HH_0_der : forall t, 0 < qq t -> derivable_pt_lim (HH 0) t (HH 1 t).
Proof.
  intros t Q. pose proof (sqrt_lt_R0 _ Q) as Sp. pose proof (sqrt_sqrt _ (Rlt_le _ _ Q)) as SS.
  apply (derivable_pt_lim_ext (fun s => 1 / sqrt (qq s) ^ 3)); [intros; unfold HH; cbn [ek snd]; unfold Rdiv; ring|].
  assert (Ds : derivable_pt_lim (fun s => sqrt (qq s)) t (/ (2 * sqrt (qq t)) * (2 * uu t))).
  { apply (derivable_pt_lim_comp qq sqrt); [apply qq_der|apply derivable_pt_lim_sqrt, Q]. }
  assert (D3 : derivable_pt_lim (fun s => sqrt (qq s) ^ 3) t (INR 3 * sqrt (qq t) ^ 2 * (/ (2 * sqrt (qq t)) * (2 * uu t)))).
  { apply (derivable_pt_lim_comp (fun s => sqrt (qq s)) (fun y => y ^ 3)); [exact Ds|apply derivable_pt_lim_pow]. }
  rewrite HH_S. unfold HH, KK. cbn [ek fst snd].
  replace (- ((2 * INR 0 + 3) * uu t * / sqrt (qq t) ^ 3 + INR 0 * (INR 0 + 2) * be * 0) / qq t) with ((0 * sqrt (qq t) ^ 3 - INR 3 * sqrt (qq t) ^ 2 * (/ (2 * sqrt (qq t)) * (2 * uu t)) * 1) / (sqrt (qq t) ^ 3)²).
  - apply (derivable_pt_lim_div (fun _ => 1) (fun s => sqrt (qq s) ^ 3)); [apply derivable_pt_lim_const|exact D3|apply pow_nonzero; lra].
  - unfold Rsqr. set (r := sqrt (qq t)) in *. rewrite <- SS. cbn [INR pow]. field. lra.
Qed.
Lemma HH_der : forall k t, 0 < qq t -> derivable_pt_lim (HH k) t (HH (S k) t) /\ exists g, derivable_pt_lim (KK k) t g /\ INR k * g = INR k * HH k t.
Proof.
  intros k t Q. induction k as [|k [I1 [g [I2 Eg]]]].
  - split; [apply HH_0_der, Q|]. exists 0. split; [|simpl; ring]. apply (derivable_pt_lim_ext (fun _ => 0)); [reflexivity|apply derivable_pt_lim_const].
  - split; [|exists (HH (S k) t); split; [apply (derivable_pt_lim_ext (HH k)); [intros; symmetry; apply KK_S|exact I1]|reflexivity]].
    set (N := fun s => (2 * INR k + 3) * (uu s * HH k s) + INR k * (INR k + 2) * be * KK k s).
    assert (DN : derivable_pt_lim N t ((2 * INR k + 3) * (be * HH k t + uu t * HH (S k) t) + INR k * (INR k + 2) * be * g)).
    { apply (derivable_pt_lim_plus (fun s => (2 * INR k + 3) * (uu s * HH k s)) (fun s => INR k * (INR k + 2) * be * KK k s)).
      - apply (derivable_pt_lim_scal (fun s => uu s * HH k s)). apply (derivable_pt_lim_mult uu (HH k)); [apply uu_der|exact I1].
      - apply (derivable_pt_lim_scal (KK k)). exact I2. }
    apply (derivable_pt_lim_ext (fun s => - (N s / qq s))); [intros s; rewrite HH_S; unfold N, Rdiv; ring|].
    assert (EF : HH (S k) t * qq t = - N t) by (rewrite HH_S; unfold N; field; lra).
    replace (HH (S (S k)) t) with (- ((((2 * INR k + 3) * (be * HH k t + uu t * HH (S k) t) + INR k * (INR k + 2) * be * g) * qq t - 2 * uu t * N t) / (qq t)²)).
    + apply (derivable_pt_lim_opp (fun s => N s / qq s)). apply (derivable_pt_lim_div N qq); [exact DN|apply qq_der|lra].
    + rewrite (HH_S (S k)), KK_S. replace (N t) with (- (HH (S k) t * qq t)) by (rewrite EF; ring). rewrite S_INR.
      replace (INR k * (INR k + 2) * be * g) with (be * (INR k + 2) * (INR k * HH k t)) by (rewrite <- Eg; ring). unfold Rsqr. field. lra.
Qed.
(** Cauchy-Schwarz *)
Hypothesis CS : ga ^ 2 <= al * be.
Hypothesis Be : 0 <= be.
Lemma HH_geg : forall t a, 0 < qq t -> - uu t = sqrt be * sqrt (qq t) * cos a ->
  forall k, HH k t * sqrt (qq t) ^ (k + 3) = INR (fact k) * sqrt be ^ k * geg k a.
Proof.
  intros t a Q Ea. pose proof (sqrt_lt_R0 _ Q) as Sp. pose proof (sqrt_sqrt _ (Rlt_le _ _ Q)) as SS. pose proof (sqrt_sqrt _ Be) as SB. set (r := sqrt (qq t)) in *. set (s := sqrt be) in *.
  assert (E0 : HH 0 t * r ^ 3 = INR (fact 0) * s ^ 0 * geg 0 a) by (rewrite geg_0; unfold HH; cbn [ek snd fact INR]; fold r; rewrite Rinv_l by (apply pow_nonzero; lra); cbn [pow]; ring).
  induction k as [| |k I1 I2] using nat_ind2; [exact E0|..].
  - rewrite HH_S, geg_1. replace (- ((2 * INR 0 + 3) * uu t * HH 0 t + INR 0 * (INR 0 + 2) * be * KK 0 t) / qq t) with (3 * - uu t * HH 0 t / (r * r)) by (rewrite SS; cbn [INR]; field; lra).
    rewrite Ea. rewrite geg_0 in E0. cbn [fact INR pow Nat.add Nat.mul] in E0 |- *. replace (3 * (s * r * cos a) * HH 0 t / (r * r) * (r * (r * (r * (r * 1))))) with (3 * s * cos a * (HH 0 t * (r * (r * (r * 1))))) by (field; lra). rewrite E0. ring.
  - rewrite (HH_S (S k)), KK_S. rewrite <- SS. cbn [Nat.add] in I2 |- *.
    replace (- ((2 * INR (S k) + 3) * uu t * HH (S k) t + INR (S k) * (INR (S k) + 2) * be * HH k t) / (r * r) * r ^ S (S (k + 3))) with
      ((2 * INR (S k) + 3) * (- uu t) * HH (S k) t * r ^ (k + 3) - INR (S k) * (INR (S k) + 2) * be * (HH k t * r ^ (k + 3))) by (cbn [pow]; field; lra).
    rewrite Ea, <- SB. replace ((2 * INR (S k) + 3) * (s * r * cos a) * HH (S k) t * r ^ (k + 3)) with ((2 * INR (S k) + 3) * s * cos a * (HH (S k) t * r ^ S (k + 3))) by (cbn [pow]; ring).
    rewrite I1, I2. pose proof (geg_rec k a) as L. rewrite (fact_simpl (S k)), (fact_simpl k), !mult_INR, !S_INR. cbn [pow].
    replace ((INR k + 1 + 1) * ((INR k + 1) * INR (fact k)) * (s * (s * s ^ k)) * geg (S (S k)) a) with ((INR k + 1) * INR (fact k) * (s * (s * s ^ k)) * ((INR k + 2) * geg (S (S k)) a)) by ring.
    rewrite L. ring.
Qed.
Lemma HH_bound : forall n t, 0 < qq t -> Rabs (HH n t) * sqrt (qq t) ^ (n + 3) <= INR (fact n) * sqrt be ^ n * ((INR n + 1) * (INR n + 2) / 2).
Proof.
  intros n t Q. destruct (angle al ga be CS Be t Q) as [a Ea]. pose proof (HH_geg t a Q Ea n) as E. pose proof (geg_bound n a) as Lb.
  assert (Rp : 0 < sqrt (qq t)) by (apply sqrt_lt_R0, Q). set (r := sqrt (qq t)) in *. assert (Pr : 0 < r ^ (n + 3)) by (apply pow_lt, Rp).
  assert (Cp : 0 <= INR (fact n) * sqrt be ^ n) by (apply Rmult_le_pos; [apply pos_INR|apply pow_le, sqrt_pos]).
  set (cc := INR (fact n) * sqrt be ^ n) in *. rewrite <- (Rabs_right (r ^ (n + 3))) by lra. rewrite <- Rabs_mult, E, Rabs_mult, (Rabs_right cc) by lra. apply Rmult_le_compat_l; lra.
Qed.
(** a linear function times the inverse cube *)
Definition LL (l0 l1 : R) (k : nat) (t : R) : R := match k with O => (l0 + l1 * t) * HH 0 t | S j => (l0 + l1 * t) * HH (S j) t + INR (S j) * (l1 * HH j t) end.
Lemma LL_der : forall l0 l1 k t, 0 < qq t -> derivable_pt_lim (LL l0 l1 k) t (LL l0 l1 (S k) t).
Proof.
  intros l0 l1 k t Q. assert (Dl : derivable_pt_lim (fun s => l0 + l1 * s) t l1).
  { replace (derivable_pt_lim (fun s => l0 + l1 * s) t l1) with (derivable_pt_lim (fun s => l0 + l1 * s) t (0 + l1 * 1)) by (f_equal; ring). apply (derivable_pt_lim_plus (fun _ => l0) (fun s => l1 * s)); [apply derivable_pt_lim_const|apply (derivable_pt_lim_scal (fun s => s)), derivable_pt_lim_id]. }
  destruct k as [|k].
  - change (LL l0 l1 1 t) with ((l0 + l1 * t) * HH 1 t + INR 1 * (l1 * HH 0 t)). replace ((l0 + l1 * t) * HH 1 t + INR 1 * (l1 * HH 0 t)) with (l1 * HH 0 t + (l0 + l1 * t) * HH 1 t) by (simpl INR; ring).
    apply (derivable_pt_lim_mult (fun s => l0 + l1 * s) (HH 0)); [exact Dl|apply HH_der, Q].
  - change (LL l0 l1 (S (S k)) t) with ((l0 + l1 * t) * HH (S (S k)) t + INR (S (S k)) * (l1 * HH (S k) t)).
    replace ((l0 + l1 * t) * HH (S (S k)) t + INR (S (S k)) * (l1 * HH (S k) t)) with ((l1 * HH (S k) t + (l0 + l1 * t) * HH (S (S k)) t) + INR (S k) * (l1 * HH (S k) t)) by (rewrite (S_INR (S k)); ring).
    apply (derivable_pt_lim_plus (fun s => (l0 + l1 * s) * HH (S k) s) (fun s => INR (S k) * (l1 * HH k s))).
    + apply (derivable_pt_lim_mult (fun s => l0 + l1 * s) (HH (S k))); [exact Dl|apply HH_der, Q].
    + apply (derivable_pt_lim_scal (fun s => l1 * HH k s)), (derivable_pt_lim_scal (HH k)), HH_der, Q.
Qed.
Lemma LL_bound : forall l0 l1 N n t d, 0 < d -> d <= sqrt (qq t) -> 0 < qq t -> 0 <= N -> Rabs (l0 + l1 * t) <= N * sqrt (qq t) -> Rabs l1 <= N * sqrt be ->
  Rabs (LL l0 l1 n t) <= N * (INR (fact n) * sqrt be ^ n * (INR n + 1) ^ 2 / d ^ (n + 2)).
Proof.
  intros l0 l1 N n t d Hd Hq Q HN B0 B1. set (r := sqrt (qq t)) in *. set (s := sqrt be) in *. assert (Rp : 0 < r) by lra. assert (Sp : 0 <= s) by apply sqrt_pos.
  assert (Pr : 0 < r ^ (n + 2)) by (apply pow_lt, Rp). assert (Pd : 0 < d ^ (n + 2)) by (apply pow_lt, Hd). assert (Pm : d ^ (n + 2) <= r ^ (n + 2)) by (apply pow_incr; lra).
  set (cc := INR (fact n) * s ^ n). assert (Cp : 0 <= cc) by (apply Rmult_le_pos; [apply pos_INR|apply pow_le, Sp]). pose proof (pos_INR n) as Pn.
  assert (A0 : Rabs ((l0 + l1 * t) * HH n t) * r ^ (n + 2) <= N * (cc * ((INR n + 1) * (INR n + 2) / 2))).
  { rewrite Rabs_mult. pose proof (HH_bound n t Q) as HB. fold r s cc in HB. replace (n + 3)%nat with (S (n + 2)) in HB by lia. cbn [pow] in HB.
    apply Rle_trans with (N * (Rabs (HH n t) * (r * r ^ (n + 2)))); [|apply Rmult_le_compat_l; assumption].
    replace (N * (Rabs (HH n t) * (r * r ^ (n + 2)))) with (N * r * (Rabs (HH n t) * r ^ (n + 2))) by ring. rewrite Rmult_assoc. apply Rmult_le_compat_r; [|exact B0]. apply Rmult_le_pos; [apply Rabs_pos|lra]. }
  assert (A1 : Rabs (match n with O => 0 | S j => INR (S j) * (l1 * HH j t) end) * r ^ (n + 2) <= N * (cc * (INR n * (INR n + 1) / 2))).
  { destruct n as [|j]; [rewrite Rabs_R0; cbn [INR]; lra|]. pose proof (HH_bound j t Q) as HB. fold r s in HB. replace (S j + 2)%nat with (j + 3)%nat by lia.
    assert (E : N * (cc * (INR (S j) * (INR (S j) + 1) / 2)) = INR (S j) * (N * s) * (INR (fact j) * s ^ j * ((INR j + 1) * (INR j + 2) / 2))).
    { unfold cc. rewrite fact_simpl, mult_INR, S_INR. cbn [pow]. field. }
    rewrite E, !Rabs_mult, (Rabs_right (INR (S j))) by (apply Rle_ge, pos_INR). rewrite <- !Rmult_assoc, (Rmult_assoc (INR (S j) * Rabs l1)). rewrite !(Rmult_assoc (INR (S j))).
    apply Rmult_le_compat_l; [apply pos_INR|]. rewrite (Rmult_assoc (N * s)). rewrite (Rmult_assoc (N * s)). apply Rmult_le_compat; [apply Rabs_pos|apply Rmult_le_pos; [apply Rabs_pos|apply pow_le; lra]|exact B1|].
    eapply Rle_trans; [exact HB|]. apply Req_le. ring. }
  assert (Sum : Rabs (LL l0 l1 n t) * r ^ (n + 2) <= N * (cc * (INR n + 1) ^ 2)).
  { replace (LL l0 l1 n t) with ((l0 + l1 * t) * HH n t + match n with O => 0 | S j => INR (S j) * (l1 * HH j t) end) by (destruct n; cbn [LL]; ring).
    eapply Rle_trans; [apply Rmult_le_compat_r; [lra|apply Rabs_triang]|]. rewrite Rmult_plus_distr_r. eapply Rle_trans; [apply Rplus_le_compat; [exact A0|exact A1]|]. apply Req_le. field. }
  apply Rmult_le_reg_r with (d ^ (n + 2)); [exact Pd|]. eapply Rle_trans; [apply Rmult_le_compat_l; [apply Rabs_pos|exact Pm]|]. eapply Rle_trans; [exact Sum|]. apply Req_le. unfold cc. field. lra.
Qed.
Lemma cube_bounded : forall l0 l1 N n d, 0 < d -> 0 <= N -> (forall t, inside t -> d <= sqrt (qq t)) -> (forall t, inside t -> Rabs (l0 + l1 * t) <= N * sqrt (qq t)) -> Rabs l1 <= N * sqrt be ->
  derivative_bounded n (N * (INR (fact n) * sqrt be ^ n * (INR n + 1) ^ 2 / d ^ (n + 2))) (fun t => (l0 + l1 * t) * / sqrt (qq t) ^ 3).
Proof.
  intros l0 l1 N n d Hd HN Hq B0 B1.
  assert (Qp : forall t, inside t -> 0 < qq t).
  { intros t It. pose proof (Hq t It) as B. destruct (Rle_lt_dec (qq t) 0) as [L|L]; [|exact L]. rewrite sqrt_neg_0 in B by exact L. lra. }
  exists (LL l0 l1). split; [intros; reflexivity|]. split.
  - intros k x _ Ix. apply LL_der, Qp, Ix.
  - intros x Ix. apply LL_bound; auto.
Qed.
End Cube.
