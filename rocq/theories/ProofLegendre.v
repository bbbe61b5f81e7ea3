(** Derivatives of the inverse distance along a line: Legendre polynomials. *)
From Coq Require Import List Arith Bool Lia Reals Lra.
From Verif Require Import RSum ProofCheb SpecCheb.
Local Open Scope R_scope.

(** ** Legendre polynomials of a cosine, as a sum of cosines with positive coefficients *)
Fixpoint gk (k : nat) : R := match k with O => 1 | S j => gk j * ((2 * INR j + 1) / (2 * INR j + 2)) end.
Lemma gk_S : forall j, gk (S j) * (2 * INR j + 2) = gk j * (2 * INR j + 1).
Proof. intros j. cbn [gk]. pose proof (pos_INR j). field. lra. Qed.
Lemma gk_pos : forall k, 0 < gk k.
Proof. induction k as [|k IH]; [simpl; lra|]. cbn [gk]. pose proof (pos_INR k). apply Rmult_lt_0_compat; [exact IH|apply Rdiv_lt_0_compat; lra]. Qed.
Definition leg (n : nat) (a : R) : R := rsum (fun k => gk k * gk (n - k) * cos ((INR n - 2 * INR k) * a)) (S n).
Lemma leg_0 : forall a, leg 0 a = 1.
Proof. intros a. unfold leg. cbn [rsum gk Nat.sub INR]. replace ((0 - 2 * 0) * a) with 0 by ring. rewrite cos_0. ring. Qed.
Lemma leg_1 : forall a, leg 1 a = cos a.
Proof.
  intros a. unfold leg. cbn [rsum gk Nat.sub INR]. replace ((1 - 2 * 0) * a) with a by ring. replace ((1 - 2 * 1) * a) with (- a) by ring. rewrite cos_neg. field.
Qed.
Lemma ends : forall f n, rsum f (S (S (S n))) = f O + rsum (fun j => f (S j)) (S n) + f (S (S n)).
Proof. intros f n. change (rsum f (S (S (S n)))) with (rsum f (S (S n)) + f (S (S n))). rewrite rsum_shift. ring. Qed.
Lemma leg_rec : forall n a, (INR n + 2) * leg (S (S n)) a = (2 * INR n + 3) * cos a * leg (S n) a - (INR n + 1) * leg n a.
Proof.
  intros n a. set (c := fun k => cos ((INR n + 2 - 2 * INR k) * a)).
  set (A := fun k => (2 * INR n + 3) / 2 * (gk k * gk (S n - k))).
  assert (E1 : (2 * INR n + 3) * cos a * leg (S n) a = (A O * c O + rsum (fun j => A (S j) * c (S j)) (S n)) + (rsum (fun j => A j * c (S j)) (S n) + A (S n) * c (S (S n)))).
  { unfold leg. rewrite <- rsum_scal.
    transitivity (rsum (fun k => A k * c k) (S (S n)) + rsum (fun k => A k * c (S k)) (S (S n))).
    - rewrite <- rsum_plus. apply rsum_ext. intros k Hk. unfold A, c. rewrite !S_INR.
      replace ((INR n + 2 - 2 * INR k) * a) with ((INR n + 1 - 2 * INR k) * a + a) by ring. replace ((INR n + 2 - 2 * (INR k + 1)) * a) with ((INR n + 1 - 2 * INR k) * a - a) by ring.
      rewrite cos_plus, cos_minus. field.
    - rewrite (rsum_shift (fun k => A k * c k)). reflexivity. }
  assert (E2 : (INR n + 1) * leg n a = rsum (fun j => (INR n + 1) * (gk j * gk (n - j)) * c (S j)) (S n)).
  { unfold leg. rewrite <- rsum_scal. apply rsum_ext. intros j Hj. unfold c. rewrite S_INR. replace ((INR n + 2 - 2 * (INR j + 1)) * a) with ((INR n - 2 * INR j) * a) by ring. ring. }
  assert (E3 : (INR n + 2) * leg (S (S n)) a = rsum (fun k => (INR n + 2) * (gk k * gk (S (S n) - k)) * c k) (S (S (S n)))).
  { unfold leg. rewrite <- rsum_scal. apply rsum_ext. intros k Hk. unfold c. rewrite !S_INR. replace (INR n + 1 + 1 - 2 * INR k) with (INR n + 2 - 2 * INR k) by ring. ring. }
  rewrite E1, E2, E3, ends. rewrite !Nat.sub_0_r, Nat.sub_diag. pose proof (pos_INR n) as Pn.
  assert (G : gk (S (S n)) * (2 * INR n + 4) = gk (S n) * (2 * INR n + 3)) by (pose proof (gk_S (S n)) as Q; rewrite S_INR in Q; lra).
  assert (T0 : (INR n + 2) * (gk 0 * gk (S (S n))) = A O) by (unfold A; rewrite Nat.sub_0_r; change (gk 0) with 1; lra).
  assert (T2 : (INR n + 2) * (gk (S (S n)) * gk 0) = A (S n)) by (unfold A; rewrite Nat.sub_diag; change (gk 0) with 1; lra).
  assert (T1 : rsum (fun j => (INR n + 2) * (gk (S j) * gk (S (S n) - S j)) * c (S j)) (S n) =
    rsum (fun j => A (S j) * c (S j)) (S n) + rsum (fun j => A j * c (S j)) (S n) - rsum (fun j => (INR n + 1) * (gk j * gk (n - j)) * c (S j)) (S n)).
  { rewrite <- rsum_plus, <- rsum_minus. apply rsum_ext. intros j Hj. unfold A. change (S n - S j)%nat with (n - j)%nat. change (S (S n) - S j)%nat with (S n - j)%nat.
    replace (S n - j)%nat with (S (n - j)) by lia. cbn [gk]. rewrite minus_INR by lia. set (x := INR j). set (y := INR n). set (p := gk j). set (q := gk (n - j)).
    assert (X0 : 0 <= x) by apply pos_INR. assert (XY : x <= y) by (apply le_INR; lia). field. split; lra. }
  rewrite T0, T1, T2. ring.
Qed.
Lemma leg_zero : forall n, leg n 0 = 1.
Proof.
  intros n. induction n as [| |n I1 I2] using nat_ind2; [apply leg_0|rewrite leg_1; apply cos_0|].
  pose proof (leg_rec n 0) as E. rewrite I1, I2, cos_0 in E. pose proof (pos_INR n) as Pn. apply Rmult_eq_reg_l with (INR n + 2); lra.
Qed.
Lemma leg_bound : forall n a, Rabs (leg n a) <= 1.
Proof.
  intros n a. rewrite <- (leg_zero n). unfold leg. eapply Rle_trans; [apply rsum_abs|]. apply rsum_le. intros k _. rewrite Rmult_0_r, cos_0.
  pose proof (gk_pos k). pose proof (gk_pos (n - k)). rewrite Rabs_mult, Rabs_right by (apply Rle_ge, Rmult_le_pos; lra).
  apply Rmult_le_compat_l; [apply Rmult_le_pos; lra|]. apply Rabs_le, COS_bound.
Qed.

(** ** the derivatives of 1 / sqrt (al + 2 ga t + be t^2) *)
Section Inverse.
Variables al ga be : R.
Definition qq (t : R) : R := al + 2 * ga * t + be * t ^ 2.
Definition uu (t : R) : R := ga + be * t.
Fixpoint dk (k : nat) (t : R) : R * R :=
  match k with
  | O => (0, / sqrt (qq t))
  | S j => let (p, c) := dk j t in (c, - ((2 * INR j + 1) * uu t * c + INR j ^ 2 * be * p) / qq t)
  end.
Definition FF (k : nat) (t : R) : R := snd (dk k t).
Definition GG (k : nat) (t : R) : R := fst (dk k t).
Lemma FF_S : forall k t, FF (S k) t = - ((2 * INR k + 1) * uu t * FF k t + INR k ^ 2 * be * GG k t) / qq t.
Proof. intros k t. unfold FF, GG. cbn [dk]. destruct (dk k t); reflexivity. Qed.
Lemma GG_S : forall k t, GG (S k) t = FF k t.
Proof. intros k t. unfold FF, GG. cbn [dk]. destruct (dk k t); reflexivity. Qed.
Lemma qq_der : forall t, derivable_pt_lim qq t (2 * uu t).
Proof.
  intros t. apply (derivable_pt_lim_ext (fun s => al + (2 * ga * s + be * s ^ 2))); [intros; unfold qq; ring|].
  replace (2 * uu t) with (0 + (2 * ga * 1 + be * (INR 2 * t ^ pred 2))) by (unfold uu; simpl; ring).
  apply (derivable_pt_lim_plus (fun _ => al)); [apply derivable_pt_lim_const|].
  apply (derivable_pt_lim_plus (fun s => 2 * ga * s) (fun s => be * s ^ 2)).
  - apply (derivable_pt_lim_scal (fun s => s)). apply derivable_pt_lim_id.
  - apply (derivable_pt_lim_scal (fun s => s ^ 2)). apply derivable_pt_lim_pow.
Qed.
Lemma uu_der : forall t, derivable_pt_lim uu t be.
Proof.
  intros t. replace be with (0 + be * 1) by ring. apply (derivable_pt_lim_plus (fun _ => ga) (fun s => be * s)); [apply derivable_pt_lim_const|].
  apply (derivable_pt_lim_scal (fun s => s)). apply derivable_pt_lim_id.
Qed.
Lemma FF_0_der : forall t, 0 < qq t -> derivable_pt_lim (FF 0) t (FF 1 t).
Proof.
  intros t Q. pose proof (sqrt_lt_R0 _ Q) as Sp. pose proof (sqrt_sqrt _ (Rlt_le _ _ Q)) as SS.
  apply (derivable_pt_lim_ext (fun s => 1 / sqrt (qq s))); [intros; unfold FF; cbn [dk snd]; unfold Rdiv; ring|].
  assert (Ds : derivable_pt_lim (fun s => sqrt (qq s)) t (/ (2 * sqrt (qq t)) * (2 * uu t))).
  { apply (derivable_pt_lim_comp qq sqrt); [apply qq_der|apply derivable_pt_lim_sqrt, Q]. }
  rewrite FF_S. unfold FF, GG. cbn [dk fst snd INR].
  replace (- ((2 * 0 + 1) * uu t * / sqrt (qq t) + 0 ^ 2 * be * 0) / qq t) with ((0 * sqrt (qq t) - / (2 * sqrt (qq t)) * (2 * uu t) * 1) / (sqrt (qq t))²).
  - apply (derivable_pt_lim_div (fun _ => 1) (fun s => sqrt (qq s))); [apply derivable_pt_lim_const|exact Ds|lra].
  - unfold Rsqr. rewrite SS. field. split; lra.
Qed.
Lemma FF_der : forall k t, 0 < qq t -> derivable_pt_lim (FF k) t (FF (S k) t) /\ exists g, derivable_pt_lim (GG k) t g /\ INR k ^ 2 * g = INR k ^ 2 * FF k t.
Proof.
  intros k t Q. induction k as [|k [I1 [g [I2 Eg]]]].
  - split; [apply FF_0_der, Q|]. exists 0. split; [|simpl; ring]. apply (derivable_pt_lim_ext (fun _ => 0)); [reflexivity|apply derivable_pt_lim_const].
  - split; [|exists (FF (S k) t); split; [apply (derivable_pt_lim_ext (FF k)); [intros; symmetry; apply GG_S|exact I1]|reflexivity]].
    set (N := fun s => (2 * INR k + 1) * (uu s * FF k s) + INR k ^ 2 * be * GG k s).
    assert (DN : derivable_pt_lim N t ((2 * INR k + 1) * (be * FF k t + uu t * FF (S k) t) + INR k ^ 2 * be * g)).
    { apply (derivable_pt_lim_plus (fun s => (2 * INR k + 1) * (uu s * FF k s)) (fun s => INR k ^ 2 * be * GG k s)).
      - apply (derivable_pt_lim_scal (fun s => uu s * FF k s)). apply (derivable_pt_lim_mult uu (FF k)); [apply uu_der|exact I1].
      - apply (derivable_pt_lim_scal (GG k)). exact I2. }
    apply (derivable_pt_lim_ext (fun s => - (N s / qq s))); [intros s; rewrite FF_S; unfold N, Rdiv; ring|].
    assert (EF : FF (S k) t * qq t = - N t) by (rewrite FF_S; unfold N; field; lra).
    replace (FF (S (S k)) t) with (- ((((2 * INR k + 1) * (be * FF k t + uu t * FF (S k) t) + INR k ^ 2 * be * g) * qq t - 2 * uu t * N t) / (qq t)²)).
    + apply (derivable_pt_lim_opp (fun s => N s / qq s)). apply (derivable_pt_lim_div N qq); [exact DN|apply qq_der|lra].
    + rewrite (FF_S (S k)), GG_S. replace (N t) with (- (FF (S k) t * qq t)) by (rewrite EF; ring). rewrite S_INR.
      replace (INR k ^ 2 * be * g) with (be * (INR k ^ 2 * FF k t)) by (rewrite <- Eg; ring). unfold Rsqr. field. lra.
Qed.
(** Cauchy-Schwarz *)
Hypothesis CS : ga ^ 2 <= al * be.
Hypothesis Be : 0 <= be.
Lemma angle : forall t, 0 < qq t -> exists a, - uu t = sqrt be * sqrt (qq t) * cos a.
Proof.
  intros t Q. pose proof (sqrt_lt_R0 _ Q) as Sp. pose proof (sqrt_sqrt _ (Rlt_le _ _ Q)) as SS. pose proof (sqrt_sqrt _ Be) as SB. pose proof (sqrt_pos be) as B0.
  assert (Sq : (uu t) ^ 2 <= be * qq t) by (unfold uu, qq; nra).
  destruct (Req_dec be 0) as [Z|NZ].
  - exists 0. assert (U0 : uu t = 0) by (rewrite Z in Sq; nra). assert (S0 : sqrt be = 0) by (rewrite Z; apply sqrt_0). rewrite U0, S0. ring.
  - assert (Bp : 0 < sqrt be) by (apply sqrt_lt_R0; lra). set (m := sqrt be * sqrt (qq t)). assert (Mp : 0 < m) by (apply Rmult_lt_0_compat; assumption).
    assert (M2 : m * m = be * qq t) by (rewrite <- SB, <- SS; unfold m; ring).
    exists (acos (- uu t / m)). rewrite cos_acos; [field; lra|].
    assert (- m <= - uu t <= m) by nra. split.
    + apply Rmult_le_reg_r with m; [exact Mp|]. unfold Rdiv. rewrite Rmult_assoc, Rinv_l by lra. lra.
    + apply Rmult_le_reg_r with m; [exact Mp|]. unfold Rdiv. rewrite Rmult_assoc, Rinv_l by lra. lra.
Qed.
Lemma FF_leg : forall t a, 0 < qq t -> - uu t = sqrt be * sqrt (qq t) * cos a ->
  forall k, FF k t * sqrt (qq t) ^ S k = INR (fact k) * sqrt be ^ k * leg k a.
Proof.
  intros t a Q Ea. pose proof (sqrt_lt_R0 _ Q) as Sp. pose proof (sqrt_sqrt _ (Rlt_le _ _ Q)) as SS. pose proof (sqrt_sqrt _ Be) as SB. set (r := sqrt (qq t)) in *. set (s := sqrt be) in *.
  assert (E0 : FF 0 t * r ^ 1 = INR (fact 0) * s ^ 0 * leg 0 a) by (rewrite leg_0; unfold FF; cbn [dk snd fact INR pow]; fold r; field; lra).
  induction k as [| |k I1 I2] using nat_ind2; [exact E0|..].
  - rewrite FF_S, leg_1. replace (- ((2 * INR 0 + 1) * uu t * FF 0 t + INR 0 ^ 2 * be * GG 0 t) / qq t) with (- uu t * FF 0 t / (r * r)) by (rewrite SS; simpl; field; lra).
    rewrite Ea. rewrite leg_0 in E0. cbn [fact INR pow] in E0 |- *. replace (s * r * cos a * FF 0 t / (r * r) * (r * (r * 1))) with (s * cos a * (FF 0 t * (r * 1))) by (field; lra). rewrite E0. simpl. ring.
  - rewrite (FF_S (S k)), GG_S. rewrite <- SS.
    replace (- ((2 * INR (S k) + 1) * uu t * FF (S k) t + INR (S k) ^ 2 * be * FF k t) / (r * r) * r ^ S (S (S k))) with
      ((2 * INR (S k) + 1) * (- uu t) * FF (S k) t * r ^ S k - INR (S k) ^ 2 * be * (FF k t * r ^ S k)) by (cbn [pow]; field; lra).
    rewrite Ea, <- SB. replace ((2 * INR (S k) + 1) * (s * r * cos a) * FF (S k) t * r ^ S k) with ((2 * INR (S k) + 1) * s * cos a * (FF (S k) t * r ^ S (S k))) by (cbn [pow]; ring).
    rewrite I1, I2. pose proof (leg_rec k a) as L. rewrite (fact_simpl (S k)), (fact_simpl k), !mult_INR, !S_INR. cbn [pow].
    replace ((INR k + 1 + 1) * ((INR k + 1) * INR (fact k)) * (s * (s * s ^ k)) * leg (S (S k)) a) with ((INR k + 1) * INR (fact k) * (s * (s * s ^ k)) * ((INR k + 2) * leg (S (S k)) a)) by ring.
    rewrite L. ring.
Qed.
Lemma FF_bound : forall n t d, 0 < d -> d <= sqrt (qq t) -> 0 < qq t -> Rabs (FF n t) <= INR (fact n) * sqrt be ^ n / d ^ S n.
Proof.
  intros n t d Hd Hq Q. destruct (angle t Q) as [a Ea]. pose proof (FF_leg t a Q Ea n) as E. pose proof (leg_bound n a) as Lb.
  set (r := sqrt (qq t)) in *. assert (Rp : 0 < r) by lra. assert (Pr : 0 < r ^ S n) by (apply pow_lt, Rp). assert (Pd : 0 < d ^ S n) by (apply pow_lt, Hd).
  assert (Pm : d ^ S n <= r ^ S n) by (apply pow_incr; lra). assert (Cp : 0 <= INR (fact n) * sqrt be ^ n) by (apply Rmult_le_pos; [apply pos_INR|apply pow_le, sqrt_pos]).
  set (cc := INR (fact n) * sqrt be ^ n) in *.
  assert (A1 : Rabs (FF n t) * r ^ S n <= cc).
  { rewrite <- (Rabs_right (r ^ S n)) by lra. rewrite <- Rabs_mult, E, Rabs_mult, (Rabs_right cc) by lra. rewrite <- (Rmult_1_r cc) at 2. apply Rmult_le_compat_l; lra. }
  apply Rmult_le_reg_r with (d ^ S n); [exact Pd|]. unfold Rdiv. rewrite Rmult_assoc, Rinv_l, Rmult_1_r by lra.
  eapply Rle_trans; [apply Rmult_le_compat_l; [apply Rabs_pos|exact Pm]|exact A1].
Qed.
Lemma inverse_bounded : forall n d c, 0 < d -> 0 <= c -> (forall t, inside t -> d <= sqrt (qq t)) ->
  derivative_bounded n (c * (INR (fact n) * sqrt be ^ n / d ^ S n)) (fun t => c * / sqrt (qq t)).
Proof.
  intros n d c Hd Hc Hq.
  assert (Qp : forall t, inside t -> 0 < qq t).
  { intros t It. pose proof (Hq t It) as B. destruct (Rle_lt_dec (qq t) 0) as [L|L]; [|exact L]. rewrite sqrt_neg_0 in B by exact L. lra. }
  exists (fun k t => c * FF k t). split; [intros; reflexivity|]. split.
  - intros k x _ Ix. apply (derivable_pt_lim_scal (FF k)). apply FF_der, Qp, Ix.
  - intros x Ix. rewrite Rabs_mult, Rabs_right by lra. apply Rmult_le_compat_l; [exact Hc|]. apply FF_bound; auto.
Qed.
End Inverse.
