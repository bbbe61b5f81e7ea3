(** C37, C38, C39: quadrature rules and quadrature degrees. *)
From Coq Require Import List Arith Lia ZArith Reals Lra QArith Qreals Qabs.
From Coquelicot Require Import Coquelicot.
From Verif Require Import RSum GaussTable ModelQuad SpecQuad ProofQuad ProofGolub.
Import ListNotations.
Local Close Scope Q_scope.
Local Open Scope nat_scope.

Lemma qmoment_quad : forall x w j, length x = length w -> qmoment x w j = quad x w (fun t => t ^ j)%R.
Proof.
  induction x as [|a x IH]; intros [|b w] j L; try discriminate; [reflexivity|].
  cbn [qmoment]. unfold quad. cbn [length]. rewrite rsum_shift. cbn [nth]. rewrite (IH w j) by (simpl in L; lia). reflexivity.
Qed.
Lemma quad_poly : forall x w c n, quad x w (poly_eval c n) = rsum (fun j => c j * quad x w (fun t => t ^ j))%R n.
Proof.
  intros x w c n. unfold quad, poly_eval.
  transitivity (rsum (fun k => rsum (fun j => nth k w 0 * (c j * nth k x 0 ^ j))%R n) (length w)).
  - apply rsum_ext. intros k _. rewrite rsum_scal. reflexivity.
  - rewrite rsum_swap. apply rsum_ext. intros j _. rewrite <- rsum_scal. apply rsum_ext. intros; ring.
Qed.
Lemma integral_pow : forall j, is_RInt (fun t => t ^ j)%R 0 1 (/ INR (S j))%R.
Proof.
  intros j. replace (/ INR (S j))%R with (1 ^ S j / INR (S j) - 0 ^ S j / INR (S j))%R.
  - refine (is_RInt_derive (fun t => t ^ S j / INR (S j))%R _ 0 1 _ _).
    + intros t _. auto_derive; [exact I|]. change (match j with O => 1 | S _ => INR j + 1 end)%R with (INR (S j)).
      change (Nat.pred (S j)) with j. field. apply not_0_INR. lia.
    + intros t _. apply continuity_pt_filterlim. apply derivable_continuous_pt, derivable_pt_pow.
  - rewrite pow1. replace (0 ^ S j)%R with 0%R by (simpl; ring). field. apply not_0_INR. lia.
Qed.
Lemma integral_poly : forall c n, integral01 (poly_eval c n) (rsum (fun j => c j / INR (S j))%R n).
Proof.
  intros c n. unfold integral01, poly_eval. induction n as [|n IH]; cbn [rsum].
  - pose proof (is_RInt_const 0 1 (0%R : R_NormedModule)) as H. unfold scal in H; simpl in H. unfold mult in H; simpl in H. rewrite Rmult_0_r in H. exact H.
  - apply (is_RInt_plus (V := R_NormedModule)); [exact IH|].
    apply (is_RInt_scal (V := R_NormedModule) (fun t => t ^ n)%R 0 1 (c n) (/ INR (S n))%R). apply integral_pow.
Qed.
Lemma integral_unique : forall f u v, integral01 f u -> integral01 f v -> u = v.
Proof. intros f u v Hu Hv. rewrite <- (is_RInt_unique _ _ _ _ Hu). apply is_RInt_unique. exact Hv. Qed.

(** ** C37: the tables *)
Lemma table_facts : forall n g, gauss_table n = Some g -> 
  length (fst g) = n /\ length (snd g) = n /\
  (forall a, In a (fst g) -> (0 < a < 1)%Q) /\ (forall a, In a (snd g) -> (0 < a)%Q) /\
  (forall k, S k < n -> (nth k (fst g) 0 < nth (S k) (fst g) 0)%Q) /\
  (forall k, k < n -> (Qabs (nth k (fst g) 0 + nth (n - 1 - k)%nat (fst g) 0 - 1) <= (1 # 10 ^ 40))%Q /\ (nth k (snd g) 0 == nth (n - 1 - k)%nat (snd g) 0)%Q) /\
  (forall j, j < 2 * n -> (Rabs (qmoment (map Q2R (fst g)) (map Q2R (snd g)) j - / INR (S j)) <= / 10 ^ 20)%R).
Proof.
  intros n [x w] H. apply table_check in H. destruct H as [H Hn]. unfold rule_check in H. cbn [fst snd].
  repeat (apply andb_prop in H; let H' := fresh "B" in destruct H as [H H']). apply Nat.eqb_eq in H, B6.
  split; [assumption|]. split; [assumption|].
  rewrite forallb_forall in B3, B2, B0. unfold increasing_b in B1. rewrite forallb_forall in B1.
  split. { intros a Ha. specialize (B3 a Ha). destruct (Qlt_le_dec 0 a); [|discriminate]. destruct (Qlt_le_dec a 1); [auto|discriminate]. }
  split. { intros a Ha. specialize (B2 a Ha). destruct (Qlt_le_dec 0 a); [assumption|discriminate]. }
  split. { intros k Hk. specialize (B1 k ltac:(apply in_seq; lia)). destruct (Qlt_le_dec (nth k x 0%Q) (nth (S k) x 0%Q)); [assumption|discriminate]. }
  split. { intros k Hk. specialize (B0 k ltac:(apply in_seq; lia)). destruct (Qlt_le_dec (1 # 10 ^ 40) (Qabs (nth k x 0 + nth (n - 1 - k)%nat x 0 - 1))%Q); [discriminate|].
    split; [assumption|apply Qeq_bool_eq; assumption]. }
  intros j Hj. change j with (0 + j). apply (checks_ok (2 * n) 0 x w (map fixed w)); [lia|apply closes_0; [congruence|assumption|assumption]|assumption|assumption|lia].
Qed.
Lemma nth_Q2R : forall l k, nth k (map Q2R l) 0%R = Q2R (nth k l 0%Q).
Proof. intros l k. rewrite <- RMicromega.Q2R_0. apply map_nth. Qed.

(** the n-point rule: n points in (0,1), increasing, positive weights, symmetric about 1/2 up to the last decimal *)
Theorem C37_tables : forall n, 1 <= n <= 20 -> exists x w, gauss_rule n = Some (x, w) /\ length x = n /\ length w = n /\
  (forall k, k < n -> (0 < nth k x 0 < 1)%R /\ (0 < nth k w 0)%R) /\
  (forall k, S k < n -> (nth k x 0 < nth (S k) x 0)%R) /\
  (forall k, k < n -> (Rabs (nth k x 0 + nth (n - 1 - k)%nat x 0 - 1) <= / 10 ^ 40)%R /\ nth k w 0%R = nth (n - 1 - k)%nat w 0%R).
Proof.
  intros n Hn. assert (E : exists g, gauss_table n = Some g).
  { destruct Hn as [H1 H2]. destruct n as [|n]; [lia|]. do 20 (destruct n as [|n]; [eexists; reflexivity|]). lia. }
  destruct E as [[x w] E]. destruct (table_facts n _ E) as [Lx [Lw [Rx [Rw [Inc [Sy _]]]]]]. cbn [fst snd] in *.
  exists (map Q2R x), (map Q2R w). unfold gauss_rule. rewrite E. split; [reflexivity|]. rewrite !map_length. split; [assumption|]. split; [assumption|].
  split; [|split].
  - intros k Hk. rewrite !nth_Q2R. destruct (Rx (nth k x 0%Q)) as [X1 X2]; [apply nth_In; lia|]. pose proof (Rw (nth k w 0%Q) ltac:(apply nth_In; lia)) as X3.
    apply Qlt_Rlt in X1, X2, X3. rewrite RMicromega.Q2R_0 in X1, X3. rewrite RMicromega.Q2R_1 in X2. auto.
  - intros k Hk. rewrite !nth_Q2R. apply Qlt_Rlt, Inc. assumption.
  - intros k Hk. rewrite !nth_Q2R. destruct (Sy k Hk) as [S1 S2]. split; [|apply Qeq_eqR; assumption].
    apply Qabs_Qle_condition in S1. destruct S1 as [S1 S3]. apply Qle_Rle in S1, S3.
    unfold Qminus in S1, S3. rewrite !Q2R_plus in S1, S3. rewrite (Q2R_opp (1 # 10 ^ 40)) in S1. rewrite (Q2R_opp 1), RMicromega.Q2R_1 in S1, S3.
    assert (T : Q2R (1 # 10 ^ 40) = (/ 10 ^ 40)%R).
    { unfold Q2R. simpl Qnum. rewrite Rmult_1_l. f_equal. simpl Qden. rewrite (pow_IZR 10 40). reflexivity. }
    rewrite T in S1, S3. apply Rabs_le. lra.
Qed.
(** every polynomial of degree at most 2n - 1 is integrated up to 10^-20 times the sum of its coefficients *)
Theorem C37_exact : forall n x w c v, gauss_rule n = Some (x, w) -> integral01 (poly_eval c (2 * n)) v ->
  (Rabs (quad x w (poly_eval c (2 * n)) - v) <= / 10 ^ 20 * rsum (fun j => Rabs (c j)) (2 * n))%R.
Proof.
  intros n x w c v E Hv. unfold gauss_rule in E. destruct (gauss_table n) as [[x0 w0]|] eqn:Eg; [|discriminate]. injection E as <- <-.
  destruct (table_facts n _ Eg) as [Lx [Lw [_ [_ [_ [_ Mc]]]]]]. cbn [fst snd] in *.
  rewrite (integral_unique _ _ _ Hv (integral_poly c (2 * n))), quad_poly, <- rsum_minus.
  assert (G : forall m, m <= 2 * n -> (Rabs (rsum (fun j => c j * quad (map Q2R x0) (map Q2R w0) (fun t => t ^ j) - c j / INR (S j)) m) <= / 10 ^ 20 * rsum (fun j => Rabs (c j)) m)%R).
  { induction m as [|m IH]; intros Hm; cbn [rsum]; [rewrite Rabs_R0; lra|].
    eapply Rle_trans; [apply Rabs_triang|]. rewrite Rmult_plus_distr_l. apply Rplus_le_compat; [apply IH; lia|].
    pose proof (Mc m Hm) as B. rewrite qmoment_quad in B by (rewrite !map_length; congruence).
    unfold Rdiv. rewrite <- Rmult_minus_distr_l, Rabs_mult, Rmult_comm. apply Rmult_le_compat_r; [apply Rabs_pos|exact B]. }
  apply G. lia.
Qed.
Example gauss_example : exists x w, gauss_rule 20 = Some (x, w).
Proof. destruct (C37_tables 20) as [x [w [E _]]]; [lia|]. eauto. Qed.

(** ** C38: tensor product rules and look-up *)
(** the value of a cubature *)
Definition cub_value (c : cubature) (f : R -> R -> R) : R :=
  rsum (fun k => nth k (snd c) 0 * f (fst (nth k (fst c) (0, 0))) (snd (nth k (fst c) (0, 0))))%R (length (snd c)).
Lemma tensor_value : forall x w f, length x = length w ->
  cub_value (tensor_rule (x, w)) f = quad x w (fun s => quad x w (fun t => f s t)).
Proof.
  intros x w f L. unfold cub_value, tensor_rule. cbn [fst snd]. rewrite map_length, seq_length. set (n := length w). rewrite L. fold n.
  rewrite rsum_flatten. unfold quad. fold n. apply rsum_ext. intros i Hi. rewrite <- rsum_scal. apply rsum_ext. intros j Hj.
  assert (B : i * n + j < n * n) by nia.
  rewrite (nth_indep _ 0%R ((fun k => nth (k / n) w 0 * nth (k mod n) w 0)%R 0)) by (rewrite map_length, seq_length; assumption).
  rewrite (nth_indep _ (0, 0)%R ((fun k => (nth (k / n) x 0, nth (k mod n) x 0)%R) 0)) by (rewrite map_length, seq_length; assumption).
  rewrite !(map_nth (fun k => nth (k / n) w 0 * nth (k mod n) w 0)%R), !(map_nth (fun k => (nth (k / n) x 0, nth (k mod n) x 0)%R)), seq_nth by assumption.
  assert (Hd : (0 + (i * n + j)) / n = i) by (rewrite Nat.add_0_l, Nat.div_add_l, Nat.div_small by lia; lia).
  assert (Hm : (0 + (i * n + j)) mod n = j) by (rewrite Nat.add_0_l, Nat.add_comm, Nat.mod_add, Nat.mod_small by lia; lia).
  rewrite Hd, Hm. cbn [fst snd]. ring.
Qed.
Theorem C38_tensor_product : forall x w f g, length x = length w ->
  length (snd (tensor_rule (x, w))) = length w * length w /\ length (fst (tensor_rule (x, w))) = length w * length w /\
  cub_value (tensor_rule (x, w)) (fun s t => f s * g t)%R = (quad x w f * quad x w g)%R.
Proof.
  intros x w f g L. unfold tensor_rule at 1 2. cbn [fst snd]. rewrite !map_length, !seq_length. split; [reflexivity|]. split; [congruence|].
  rewrite tensor_value by assumption. unfold quad at 1. unfold quad at 2. rewrite <- rsum_scal_r. apply rsum_ext. intros k _.
  unfold quad. rewrite <- !rsum_scal. apply rsum_ext. intros; ring.
Qed.
(** a tensor product rule integrates products of polynomials exactly if the rule does *)
Theorem C38_exactness : forall x w d c1 c2 v1 v2, exact_rule d x w ->
  integral01 (poly_eval c1 d) v1 -> integral01 (poly_eval c2 d) v2 ->
  cub_value (tensor_rule (x, w)) (fun s t => poly_eval c1 d s * poly_eval c2 d t)%R = (v1 * v2)%R.
Proof.
  intros x w d c1 c2 v1 v2 [L Ex] H1 H2. destruct (C38_tensor_product x w (poly_eval c1 d) (poly_eval c2 d) L) as [_ [_ ->]].
  rewrite (Ex c1 v1 H1), (Ex c2 v2 H2). reflexivity.
Qed.
(** entry i of a vector of rules of the given order is the rule with i + 1 points; beyond the order it is the
    one-point rule, without any complaint *)
Theorem C38_lookup : forall (A : Type) (qr : nat -> A) order i,
  qvector qr order i = if i <=? order then qr (i + 1) else qr 1.
Proof.
  intros A qr order i. induction order as [|o IH]; cbn [qvector].
  - destruct i as [|i]; reflexivity.
  - destruct (Nat.eqb_spec i (S o)) as [->|N]; [rewrite Nat.leb_refl; reflexivity|]. rewrite IH.
    destruct (Nat.leb_spec i o), (Nat.leb_spec i (S o)); try reflexivity; lia.
Qed.

(** ** C39: quadrature degrees *)
Lemma ln2_pos : (0 < ln 2)%R. Proof. rewrite <- ln_1. apply ln_increasing; lra. Qed.
Lemma ln_pow2 : forall n, ln (2 ^ n) = (INR n * ln 2)%R.
Proof.
  induction n as [|n IH]; [simpl; rewrite ln_1; ring|]. rewrite S_INR. cbn [pow]. rewrite ln_mult, IH by (try apply pow_lt; lra). ring.
Qed.
Lemma distance_log_ge : forall d l, (- (INR l * ln 2) <= distance_log d l)%R.
Proof.
  intros d l. unfold distance_log. destruct (Rlt_dec (d * 2 ^ l) 1) as [H|H]; [lra|].
  assert (P : (0 < 2 ^ l)%R) by (apply pow_lt; lra). apply Rnot_lt_le in H.
  rewrite <- ln_pow2, <- ln_Rinv by assumption.
  assert (D : (/ 2 ^ l <= d)%R) by (apply (Rmult_le_reg_r (2 ^ l)); [assumption|]; rewrite Rinv_l by lra; lra).
  destruct D as [D| ->]; [left; apply ln_increasing; [apply Rinv_0_lt_compat; assumption|assumption]|lra].
Qed.
Lemma distance_log_mono : forall d1 d2 l, (d1 <= d2)%R -> (distance_log d1 l <= distance_log d2 l)%R.
Proof.
  intros d1 d2 l H. destruct (Rlt_dec (d1 * 2 ^ l) 1) as [H1|H1].
  - unfold distance_log at 1. destruct (Rlt_dec (d1 * 2 ^ l) 1); [apply distance_log_ge|lra].
  - unfold distance_log. assert (P : (0 < 2 ^ l)%R) by (apply pow_lt; lra).
    destruct (Rlt_dec (d1 * 2 ^ l) 1); [lra|]. destruct (Rlt_dec (d2 * 2 ^ l) 1) as [H2|H2].
    + assert (d1 * 2 ^ l <= d2 * 2 ^ l)%R by (apply Rmult_le_compat_r; lra). lra.
    + destruct H as [H| ->]; [|lra]. left. apply ln_increasing; [|assumption].
      apply Rnot_lt_le in H1. apply (Rmult_lt_reg_r (2 ^ l)); [assumption|]. lra.
Qed.
Theorem C39_denominator : forall d l, (2 * ln 2 <= nearfield_denominator d l)%R /\ (0 < 2 * ln 2)%R.
Proof.
  intros d l. pose proof (distance_log_ge d l). pose proof ln2_pos. unfold nearfield_denominator. rewrite plus_INR. simpl (INR 2). lra.
Qed.
Lemma Int_part_spec : forall x n, (IZR n <= x < IZR n + 1)%R -> Int_part x = n.
Proof.
  intros x n [H1 H2]. unfold Int_part. rewrite <- (tech_up x (n + 1)); [lia| |]; rewrite plus_IZR; lra.
Qed.
Lemma Int_part_mono : forall x y, (x <= y)%R -> (Int_part x <= Int_part y)%Z.
Proof.
  intros x y H. destruct (base_Int_part x) as [X1 X2]. destruct (base_Int_part y) as [Y1 Y2].
  apply Z.lt_succ_r, lt_IZR. rewrite succ_IZR. lra.
Qed.
Lemma trunc_mono : forall x y, (x <= y)%R -> (trunc x <= trunc y)%Z.
Proof.
  intros x y H. unfold trunc. destruct (Rle_dec 0 x), (Rle_dec 0 y).
  - apply Int_part_mono; assumption.
  - lra.
  - assert (0 <= Int_part (- x))%Z by (rewrite <- (Int_part_spec 0 0) by lra; apply Int_part_mono; lra).
    assert (0 <= Int_part y)%Z by (rewrite <- (Int_part_spec 0 0) by lra; apply Int_part_mono; lra). lia.
  - assert (Int_part (- y) <= Int_part (- x))%Z by (apply Int_part_mono; lra). lia.
Qed.
(** singular integrals (distance zero, or less than the width of the element): the degree is (p + 2) level / 2 *)
Theorem C39_singular_degree : forall p order d l, (0 <= p)%Z -> (d * 2 ^ l < 1)%R ->
  nearfield_degree p order d l = ((p + 2) * Z.of_nat l / 2)%Z.
Proof.
  intros p order d l Hp Hd. pose proof ln2_pos. unfold nearfield_degree, nearfield_numerator, nearfield_denominator, distance_log.
  destruct (Rlt_dec (d * 2 ^ l) 1); [|lra].
  replace (1 / 2 * _ / _)%R with (IZR ((p + 2) * Z.of_nat l) / 2)%R.
  - unfold trunc. set (m := ((p + 2) * Z.of_nat l)%Z). assert (Hm : (0 <= m)%Z) by (unfold m; nia).
    pose proof (IZR_le _ _ Hm). destruct (Rle_dec 0 (IZR m / 2)); [|lra]. apply Int_part_spec.
    pose proof (Z.div_mod m 2 ltac:(lia)) as E. pose proof (Z.mod_pos_bound m 2 ltac:(lia)) as B.
    assert (E' : IZR m = (2 * IZR (m / 2) + IZR (m mod 2))%R) by (rewrite <- mult_IZR, <- plus_IZR; f_equal; lia).
    destruct B as [B1 B2]. assert (B3 : (m mod 2 <= 1)%Z) by lia. apply IZR_le in B1, B3. lra.
  - rewrite mult_IZR, plus_INR, <- INR_IZR_INZ. simpl (INR 2).
    rewrite !plus_IZR, !minus_IZR, !mult_IZR. field. repeat split; try lra; intro Z0; ring_simplify in Z0; lra.
Qed.
(** on refined meshes more distant elements never get a higher degree; so the singular one is the maximum *)
Theorem C39_monotone : forall p order d1 d2 l, (0 <= p)%Z -> (-4 <= order)%Z -> 1 <= l -> (d1 <= d2)%R ->
  (nearfield_degree p order d2 l <= nearfield_degree p order d1 l)%Z.
Proof.
  intros p order d1 d2 l Hp Ho Hl H. unfold nearfield_degree. apply trunc_mono.
  pose proof (C39_denominator d1 l) as [D1 P]. pose proof (C39_denominator d2 l) as [D2 _].
  unfold Rdiv. rewrite !Rmult_1_l, !Rmult_assoc. apply Rmult_le_compat_l; [lra|].
  pose proof (distance_log_mono d1 d2 l H) as T. revert D1 D2. unfold nearfield_numerator, nearfield_denominator.
  set (t1 := distance_log d1 l) in *. set (t2 := distance_log d2 l) in *. intros D1 D2.
  set (C := (INR (l + 2) * ln 2)%R) in *. set (A := (IZR (2 - order + 2 * p + p) * INR l * ln 2)%R). set (B := IZR (2 - p + order)).
  apply (Rmult_le_reg_r ((C + t1) * (C + t2))); [apply Rmult_lt_0_compat; lra|].
  replace ((A - B * t2) * / (C + t2) * ((C + t1) * (C + t2)))%R with ((A - B * t2) * (C + t1))%R by (field; lra).
  replace ((A - B * t1) * / (C + t1) * ((C + t1) * (C + t2)))%R with ((A - B * t1) * (C + t2))%R by (field; lra).
  assert (K : (0 <= A + B * C)%R).
  { unfold A, B, C. replace (IZR (2 - order + 2 * p + p) * INR l * ln 2 + IZR (2 - p + order) * (INR (l + 2) * ln 2))%R
      with (IZR ((2 - order + 2 * p + p) * Z.of_nat l + (2 - p + order) * Z.of_nat (l + 2)) * ln 2)%R.
    - apply Rmult_le_pos; [|pose proof ln2_pos; lra]. apply IZR_le. clear - Hp Ho Hl.
      replace ((2 - order + 2 * p + p) * Z.of_nat l + (2 - p + order) * Z.of_nat (l + 2))%Z with (4 * Z.of_nat l + 2 * (2 + order) + 2 * p * (Z.of_nat l - 1))%Z by (rewrite Nat2Z.inj_add; ring).
      assert (0 <= p * (Z.of_nat l - 1))%Z by (apply Z.mul_nonneg_nonneg; lia). lia.
    - rewrite plus_IZR, !mult_IZR, <- !INR_IZR_INZ. ring. }
  assert (0 <= (A + B * C) * (t2 - t1))%R by (apply Rmult_le_pos; lra). lra.
Qed.
Corollary C39_bounded : forall p order d l, (0 <= p)%Z -> (-4 <= order)%Z -> 1 <= l -> (0 <= d)%R ->
  (nearfield_degree p order d l <= (p + 2) * Z.of_nat l / 2)%Z.
Proof.
  intros p order d l Hp Ho Hl Hd. rewrite <- (C39_singular_degree p order 0 l Hp) by lra. apply C39_monotone; assumption.
Qed.
(** evaluateBilinearForm asserts that the larger one of the two degrees is less than 50: this holds for all elements
    of the level if (p + 2) level < 100, and fails for singular integrals otherwise *)
Definition used_degree (p order : Z) (d : R) (l : nat) : Z := Z.max (nearfield_degree p order d l) (farfield_degree p order).
Theorem C39_assertion : forall p order l, (0 <= p)%Z -> (-1 <= order)%Z -> 1 <= l -> (farfield_degree p order < 50)%Z ->
  ((p + 2) * Z.of_nat l < 100)%Z <-> (forall d, (0 <= d)%R -> (used_degree p order d l < 50)%Z).
Proof.
  intros p order l Hp Ho Hl HF. unfold used_degree. split.
  - intros H d Hd. pose proof (C39_bounded p order d l Hp ltac:(lia) Hl Hd) as B.
    assert ((p + 2) * Z.of_nat l / 2 < 50)%Z by (apply Z.div_lt_upper_bound; lia). lia.
  - intros H. specialize (H 0%R ltac:(lra)). rewrite (C39_singular_degree p order 0 l Hp) in H by lra.
    destruct (Z.lt_ge_cases ((p + 2) * Z.of_nat l) 100) as [L|L]; [assumption|].
    assert (50 <= (p + 2) * Z.of_nat l / 2)%Z by (apply Z.div_le_lower_bound; lia). lia.
Qed.
(** the hypotheses are met: single layer operator (order -1), constant and cubic functions, level 4 *)
Example degree_example : nearfield_degree 0 (-1) 0 4 = 4%Z /\ nearfield_degree 3 (-1) 0 4 = 10%Z.
Proof. split; rewrite C39_singular_degree by (lia || lra); reflexivity. Qed.

(** ** C55: the computed rules *)
(** V diag(lam) V^T is an orthogonal eigenvalue decomposition of the n x n matrix A *)
Definition eigen_decomposition (n : nat) (A : nat -> nat -> R) (lam : nat -> R) (V : nat -> nat -> R) : Prop :=
  (forall r i, r < n -> i < n -> rsum (fun s => A r s * V s i)%R n = (lam i * V r i)%R) /\
  (forall r s, r < n -> s < n -> rsum (fun i => V r i * V s i)%R n = if r =? s then 1%R else 0%R) /\
  (forall i j, i < n -> j < n -> rsum (fun r => V r i * V r j)%R n = if i =? j then 1%R else 0%R).
(** the rule with n points computed from the eigenvalues and eigenvectors is exact for polynomials of degree 2n - 1 *)
Theorem C55_exact : forall n lam V x w, 0 < n -> eigen_decomposition n jacobi lam V -> eigen_rule n lam V = (x, w) ->
  length x = n /\ length w = n /\ exact_rule (2 * n) x w.
Proof.
  intros n lam V x w Hn [E [O _]] Er. pose proof (eigen_exact n lam V Hn E O) as X. rewrite Er in X. cbn [fst snd] in X.
  unfold eigen_rule in Er. injection Er as <- <-. rewrite !map_length, !seq_length. auto.
Qed.
(** its weights are nonnegative and sum up to one *)
Theorem C55_weights : forall n lam V x w, 0 < n -> eigen_decomposition n jacobi lam V -> eigen_rule n lam V = (x, w) ->
  (forall k, k < n -> (0 <= nth k w 0)%R) /\ rsum (fun k => nth k w 0%R) n = 1%R.
Proof.
  intros n lam V x w Hn [E [O _]] Er. unfold eigen_rule in Er. injection Er as <- <-.
  assert (N : forall i (f : nat -> R), i < n -> nth i (map f (seq 0 n)) 0%R = f i).
  { intros i f Hi. rewrite (nth_indep _ 0%R (f 0)) by (rewrite map_length, seq_length; assumption). rewrite map_nth, seq_nth by assumption. reflexivity. }
  split.
  - intros k Hk. rewrite N by assumption. apply Rle_0_sqr.
  - rewrite (rsum_ext _ (fun i => V 0%nat i * V 0%nat i)%R) by (intros i Hi; apply N; assumption). apply (O 0 0 Hn Hn).
Qed.
Example eigen_example : eigen_decomposition 2 jacobi (fun i => if i =? 0 then (- / sqrt 3)%R else (/ sqrt 3)%R)
  (fun r i => if (r =? 1) && (i =? 0) then (- / sqrt 2)%R else (/ sqrt 2)%R)%bool.
Proof.
  assert (S2 : (/ sqrt 2 * / sqrt 2 = / 2)%R) by (rewrite <- Rinv_mult, sqrt_sqrt by lra; reflexivity).
  assert (J0 : jacobi 0 1 = (/ sqrt 3)%R) by (unfold jacobi; simpl; replace (4 * 1 * 1 - 1)%R with 3%R by ring; lra).
  assert (J1 : jacobi 1 0 = (/ sqrt 3)%R) by (unfold jacobi; simpl; replace (4 * 1 * 1 - 1)%R with 3%R by ring; lra).
  assert (J2 : jacobi 0 0 = 0%R) by reflexivity. assert (J3 : jacobi 1 1 = 0%R) by reflexivity.
  split; [|split].
  - intros [|[|r]] [|[|i]] Hr Hi; try lia; cbn [rsum Nat.eqb andb]; rewrite ?J0, ?J1, ?J2, ?J3; ring.
  - intros [|[|r]] [|[|i]] Hr Hi; try lia; cbn [rsum Nat.eqb andb]; ring_simplify; rewrite ?Rmult_1_r; lra || (replace (2 * (/ sqrt 2) ^ 2)%R with (2 * (/ sqrt 2 * / sqrt 2))%R by ring; lra).
  - intros [|[|r]] [|[|i]] Hr Hi; try lia; cbn [rsum Nat.eqb andb]; ring_simplify; rewrite ?Rmult_1_r; lra || (replace (2 * (/ sqrt 2) ^ 2)%R with (2 * (/ sqrt 2 * / sqrt 2))%R by ring; lra).
Qed.

(* BEGIN ASSUMPTIONS *)
Print Assumptions C37_tables.
Print Assumptions C37_exact.
Print Assumptions C38_tensor_product.
Print Assumptions C38_exactness.
Print Assumptions C38_lookup.
Print Assumptions C39_denominator.
Print Assumptions C39_singular_degree.
Print Assumptions C39_monotone.
Print Assumptions C39_assertion.
Print Assumptions C55_exact.
Print Assumptions C55_weights.
