(** Exactness of the Duffy quadratures, proved on moments: L is the value of the one-dimensional rule. *)
From Coq Require Import List Arith Lia Reals Lra.
From Verif Require Import RSum SpecQuad SpecInterp ProofInterp SpecDuffy.
Import ListNotations.
Local Open Scope R_scope.

Lemma quad_ext' : forall x w f g, (forall t, f t = g t) -> quad x w f = quad x w g.
Proof. intros x w f g H. unfold quad. apply rsum_ext. intros. rewrite H. reflexivity. Qed.
Lemma quad_plus : forall x w f g, quad x w (fun t => f t + g t) = quad x w f + quad x w g.
Proof. intros. unfold quad. rewrite <- rsum_plus. apply rsum_ext. intros. ring. Qed.
Lemma quad_minus : forall x w f g, quad x w (fun t => f t - g t) = quad x w f - quad x w g.
Proof. intros. unfold quad. rewrite <- rsum_minus. apply rsum_ext. intros. ring. Qed.
Lemma quad_scal : forall x w c f, quad x w (fun t => c * f t) = c * quad x w f.
Proof. intros. unfold quad. rewrite <- rsum_scal. apply rsum_ext. intros. ring. Qed.
Lemma quad_scal_r : forall x w c f, quad x w (fun t => f t * c) = quad x w f * c.
Proof. intros. unfold quad. rewrite <- rsum_scal_r. apply rsum_ext. intros. ring. Qed.
Lemma quad_swap : forall x w (f : R -> R -> R), quad x w (fun a => quad x w (fun b => f a b)) = quad x w (fun b => quad x w (fun a => f a b)).
Proof.
  intros x w f. unfold quad.
  transitivity (rsum (fun k => rsum (fun l => nth k w 0 * (nth l w 0 * f (nth k x 0) (nth l x 0))) (length w)) (length w)).
  - apply rsum_ext. intros. rewrite rsum_scal. reflexivity.
  - rewrite rsum_swap. apply rsum_ext. intros. rewrite <- rsum_scal. apply rsum_ext. intros. ring.
Qed.
Lemma quad_poly_sum : forall x w c n, quad x w (fun t => rsum (fun k => c k * t ^ k) n) = rsum (fun k => c k * quad x w (fun t => t ^ k)) n.
Proof.
  intros x w c n. induction n as [|n IH]; cbn [rsum].
  - unfold quad. apply rsum_zero. intros. ring.
  - rewrite quad_plus, IH, quad_scal. reflexivity.
Qed.

(** linear functionals that agree on the monomials agree on the polynomials *)
Definition linear (A : (R -> R) -> R) : Prop :=
  (forall f g, (forall t, f t = g t) -> A f = A g) /\ (forall f g, A (fun t => f t + g t) = A f + A g) /\ (forall c f, A (fun t => c * f t) = c * A f).
Lemma linear_agree : forall A B n f, linear A -> linear B -> (forall m, (m < n)%nat -> A (fun t => t ^ m) = B (fun t => t ^ m)) -> polynomial n f -> A f = B f.
Proof.
  intros A B n f [A0 [A1 A2]] [B0 [B1 B2]] H [c E]. rewrite (A0 _ _ E), (B0 _ _ E). clear E f.
  induction n as [|n IH]; cbn [rsum].
  - rewrite (A0 _ (fun t => 0 * t ^ 0)), (B0 _ (fun t => 0 * t ^ 0)), A2, B2 by (intros; ring). ring.
  - rewrite (A1 (fun t => rsum (fun k => c k * t ^ k) n) (fun t => c n * t ^ n)), (B1 (fun t => rsum (fun k => c k * t ^ k) n) (fun t => c n * t ^ n)), IH by (intros; apply H; lia).
    rewrite (A2 (c n) (fun t => t ^ n)), (B2 (c n) (fun t => t ^ n)), H by lia. reflexivity.
Qed.

Section Rule.
Variables (x w : list R) (d : nat).
Notation L := (quad x w).
Hypothesis moments : forall j, (j < d)%nat -> L (fun t => t ^ j) = / INR (S j).

Lemma linear_L : linear L.
Proof. repeat split; intros; [apply quad_ext'; assumption|apply quad_plus|apply quad_scal]. Qed.
Lemma INR_S_neq : forall n, INR (S n) <> 0.
Proof. intros. apply not_0_INR. lia. Qed.
Lemma fact_neq : forall n, INR (fact n) <> 0.
Proof. intros. apply INR_fact_neq_0. Qed.

(** moments of z^e (1-z)^m *)
Lemma beta : forall m e, (e + m < d)%nat -> L (fun z => z ^ e * (1 - z) ^ m) = INR (fact e) * INR (fact m) / INR (fact (e + m + 1)).
Proof.
  induction m as [|m IH]; intros e H.
  - rewrite (quad_ext' _ _ _ (fun z => z ^ e)) by (intros; simpl; ring). rewrite moments by lia.
    replace (e + 0 + 1)%nat with (S e) by lia. rewrite fact_simpl, mult_INR. simpl (fact 0). simpl (INR 1). field. split; [apply fact_neq|apply INR_S_neq].
  - rewrite (quad_ext' _ _ _ (fun z => z ^ e * (1 - z) ^ m - z ^ S e * (1 - z) ^ m)) by (intros; simpl; ring).
    rewrite quad_minus, IH, IH by lia. replace (S e + m + 1)%nat with (S (e + m + 1)) by lia. replace (e + S m + 1)%nat with (S (e + m + 1)) by lia.
    rewrite (fact_simpl (e + m + 1)), (fact_simpl e), (fact_simpl m), !mult_INR.
    replace (INR (S (e + m + 1))) with (INR (S e) + INR (S m)) by (rewrite <- plus_INR; f_equal; lia).
    field. split; [apply fact_neq|]. rewrite <- plus_INR. apply not_0_INR. lia.
Qed.
(** the triangle u <= v *)
Lemma triangle : forall c a e, (a + c + e + 1 < d)%nat ->
  L (fun z => L (fun q => (1 - z) * (q * (1 - z)) ^ a * ((1 - q) * (1 - z)) ^ e * (1 - (1 - q) * (1 - z)) ^ c))
  = INR (fact e) * INR (fact (a + c + 1)) / INR (fact (a + c + e + 2)) / INR (S a).
Proof.
  induction c as [|c IH]; intros a e H.
  - rewrite (quad_ext' _ _ _ (fun z => L (fun q => q ^ a * (1 - q) ^ e) * (z ^ 0 * (1 - z) ^ (a + e + 1)))).
    + rewrite quad_scal, !beta by lia. replace (a + 0 + 1)%nat with (S a) by lia. replace (0 + (a + e + 1) + 1)%nat with (S (a + e + 1)) by lia.
      replace (a + 0 + e + 2)%nat with (S (a + e + 1)) by lia. rewrite (fact_simpl (a + e + 1)), (fact_simpl a), !mult_INR. simpl (fact 0). simpl (INR 1).
      field. repeat split; try apply fact_neq; apply INR_S_neq.
    + intros z. rewrite <- quad_scal_r. apply quad_ext'. intros q. rewrite !Rpow_mult_distr, !pow_add. simpl. ring.
  - rewrite (quad_ext' _ _ _ (fun z => L (fun q => (1 - z) * (q * (1 - z)) ^ a * ((1 - q) * (1 - z)) ^ e * (1 - (1 - q) * (1 - z)) ^ c)
        - L (fun q => (1 - z) * (q * (1 - z)) ^ a * ((1 - q) * (1 - z)) ^ S e * (1 - (1 - q) * (1 - z)) ^ c))).
    + rewrite quad_minus, IH, IH by lia. replace (a + c + S e + 2)%nat with (S (a + c + e + 2)) by lia. replace (a + S c + e + 2)%nat with (S (a + c + e + 2)) by lia.
      replace (a + S c + 1)%nat with (S (a + c + 1)) by lia.
      rewrite (fact_simpl (a + c + e + 2)), (fact_simpl (a + c + 1)), (fact_simpl e), !mult_INR.
      replace (INR (S (a + c + e + 2))) with (INR (S (a + c + 1)) + INR (S e)) by (rewrite <- plus_INR; f_equal; lia).
      field. repeat split; try apply fact_neq; try apply INR_S_neq. rewrite <- plus_INR. apply not_0_INR. lia.
    + intros z. rewrite <- quad_minus. apply quad_ext'. intros q. simpl. ring.
Qed.

(** the integral along the line with distance z *)
Definition seg (a c : nat) (z : R) : R := L (fun q => (1 - z) * ((q * (1 - z)) ^ a * (q * (1 - z) + z) ^ c)).
Definition sig (a c : nat) (z : R) : R := seg a c z + seg c a z.
Lemma sig_swap : forall a c z, sig a c z = sig c a z.
Proof. intros. unfold sig. ring. Qed.
Lemma sig_total : forall a c, (a + c + 1 < d)%nat -> L (sig a c) = / INR (S a) * / INR (S c).
Proof.
  intros a c H. unfold sig. rewrite quad_plus.
  assert (E : forall a c, (a + c + 1 < d)%nat -> L (fun z => seg a c z) = / INR (S a) * / INR (a + c + 2)).
  { intros a' c' H'. pose proof (triangle c' a' 0 ltac:(lia)) as T. rewrite Nat.add_0_r in T.
    transitivity (INR (fact 0) * INR (fact (a' + c' + 1)) / INR (fact (a' + c' + 2)) / INR (S a')).
    - rewrite <- T. apply quad_ext'. intros z. unfold seg. apply quad_ext'. intros q. simpl. replace (q * (1 - z) + z) with (1 - (1 - q) * (1 - z)) by ring. ring.
    - replace (a' + c' + 2)%nat with (S (a' + c' + 1)) by lia. rewrite (fact_simpl (a' + c' + 1)), mult_INR. simpl (fact 0). simpl (INR 1).
      field. repeat split; try apply fact_neq; try apply INR_S_neq. }
  rewrite !E by lia. rewrite (Nat.add_comm c a). replace (a + c + 2)%nat with (S a + S c)%nat by lia. rewrite plus_INR.
  field. repeat split; try apply INR_S_neq. rewrite <- plus_INR. apply not_0_INR. lia.
Qed.
Lemma poly_pow_lin : forall k n p a b, polynomial n p -> polynomial (k + n) (fun t => (a * t + b) ^ k * p t).
Proof.
  induction k as [|k IH]; intros n p a b H; [apply (poly_ext _ p); [intros; simpl; ring|exact H]|].
  apply (poly_ext _ (fun t => (a * t + b) * ((a * t + b) ^ k * p t))); [intros; simpl; ring|]. apply poly_lin_mul, IH, H.
Qed.
Lemma seg_poly : forall a c, polynomial (a + c + 2) (seg a c).
Proof.
  intros a c. unfold seg, quad. apply poly_sum. intros i _. set (q := nth i x 0). 
  apply (poly_ext _ (fun t => nth i w 0 * (((-1) * t + 1) ^ 1 * ((- q * t + q) ^ a * (((1 - q) * t + q) ^ c * 1))))).
  - intros t. simpl pow at 1. replace (- q * t + q) with (q * (1 - t)) by ring. replace ((1 - q) * t + q) with (q * (1 - t) + t) by ring. ring.
  - apply poly_scal. replace (a + c + 2)%nat with (1 + (a + (c + 1)))%nat by lia. do 3 apply poly_pow_lin. apply poly_const. lia.
Qed.
Lemma sig_poly : forall a c, polynomial (a + c + 2) (sig a c).
Proof. intros. unfold sig. apply poly_plus; [apply seg_poly|]. rewrite (Nat.add_comm a c). apply seg_poly. Qed.

(** reflections *)
Lemma reflect : forall n f, (n <= d)%nat -> polynomial n f -> L (fun t => f (1 - t)) = L f.
Proof.
  intros n f H P. apply (linear_agree (fun f => L (fun t => f (1 - t))) L n f); [|exact linear_L| |exact P].
  - repeat split; intros; [apply quad_ext'; intros; auto|apply quad_plus|apply (quad_scal x w c (fun t => f0 (1 - t)))].
  - intros m Hm. rewrite moments by lia.
    rewrite (quad_ext' _ _ _ (fun z => z ^ 0 * (1 - z) ^ m)) by (intros; simpl; ring). rewrite beta by lia.
    rewrite Nat.add_0_l, Nat.add_1_r, fact_simpl, mult_INR. simpl (fact 0). simpl (INR 1). field. repeat split; try apply fact_neq; apply INR_S_neq.
Qed.

(** two-dimensional cones *)
Lemma cone2 : forall n1 n2 f g, (n1 + n2 <= d)%nat -> polynomial n1 f -> polynomial n2 g ->
  L (fun a => L (fun b => a * (f a * g (a * b) + f (a * b) * g a))) = L f * L g.
Proof.
  intros n1 n2 f g H Pf Pg.
  apply (linear_agree (fun f => L (fun a => L (fun b => a * (f a * g (a * b) + f (a * b) * g a)))) (fun f => L f * L g) n1 f); [| | |exact Pf].
  - repeat split; intros.
    + apply quad_ext'. intros. apply quad_ext'. intros. rewrite !H0. reflexivity.
    + rewrite <- quad_plus. apply quad_ext'. intros. rewrite <- quad_plus. apply quad_ext'. intros. ring.
    + rewrite <- quad_scal. apply quad_ext'. intros. rewrite <- quad_scal. apply quad_ext'. intros. ring.
  - repeat split; intros.
    + rewrite (quad_ext' _ _ _ g0) by assumption. reflexivity.
    + rewrite quad_plus. ring.
    + rewrite quad_scal. ring.
  - intros m Hm. apply (linear_agree (fun g => L (fun a => L (fun b => a * (a ^ m * g (a * b) + (a * b) ^ m * g a)))) (fun g => L (fun t => t ^ m) * L g) n2 g); [| | |exact Pg].
    + repeat split; intros.
      * apply quad_ext'. intros. apply quad_ext'. intros. rewrite !H0. reflexivity.
      * rewrite <- quad_plus. apply quad_ext'. intros. rewrite <- quad_plus. apply quad_ext'. intros. ring.
      * rewrite <- quad_scal. apply quad_ext'. intros. rewrite <- quad_scal. apply quad_ext'. intros. ring.
    + repeat split; intros.
      * rewrite (quad_ext' _ _ f0 g0) by assumption. reflexivity.
      * rewrite quad_plus. ring.
      * rewrite quad_scal. ring.
    + intros n Hn. rewrite (quad_ext' _ _ _ (fun a => a ^ (m + n + 1) * (L (fun b => b ^ n) + L (fun b => b ^ m)))).
      * rewrite quad_scal_r, !moments by lia. replace (S (m + n + 1)) with (S m + S n)%nat by lia. rewrite plus_INR.
        field. repeat split; try apply INR_S_neq. rewrite <- plus_INR. apply not_0_INR. lia.
      * intros a. rewrite <- quad_plus, <- quad_scal. apply quad_ext'. intros b. rewrite !Rpow_mult_distr, !pow_add. simpl. ring.
Qed.
(** the cones of the common edge case *)
Lemma cone3 : forall n f b e, (n + b + e + 2 <= d)%nat -> polynomial n f ->
  L (fun z => L (fun p => L (fun q =>
     z * z * (f z * (z * p) ^ b * (z * q) ^ e + f (z * p) * z ^ b * (z * q) ^ e + f (z * p) * (z * q) ^ b * z ^ e)))) = L f * / INR (S b) * / INR (S e).
Proof.
  intros n f b e H P.
  apply (linear_agree (fun f => L (fun z => L (fun p => L (fun q =>
     z * z * (f z * (z * p) ^ b * (z * q) ^ e + f (z * p) * z ^ b * (z * q) ^ e + f (z * p) * (z * q) ^ b * z ^ e)))))
     (fun f => L f * / INR (S b) * / INR (S e)) n f); [| | |exact P].
  - repeat split; intros.
    + apply quad_ext'. intros. apply quad_ext'. intros. apply quad_ext'. intros. rewrite !H0. reflexivity.
    + rewrite <- quad_plus. apply quad_ext'. intros. rewrite <- quad_plus. apply quad_ext'. intros. rewrite <- quad_plus. apply quad_ext'. intros. ring.
    + rewrite <- quad_scal. apply quad_ext'. intros. rewrite <- quad_scal. apply quad_ext'. intros. rewrite <- quad_scal. apply quad_ext'. intros. ring.
  - repeat split; intros.
    + rewrite (quad_ext' _ _ f0 g) by assumption. reflexivity.
    + rewrite quad_plus. ring.
    + rewrite quad_scal. ring.
  - intros m Hm.
    rewrite (quad_ext' _ _ _ (fun z => z ^ (m + b + e + 2) * (L (fun p => p ^ b) * L (fun q => q ^ e) + L (fun p => p ^ m) * L (fun q => q ^ e) + L (fun p => p ^ m) * L (fun q => q ^ b)))).
    + rewrite quad_scal_r, !moments by lia. replace (S (m + b + e + 2)) with (S m + S b + S e)%nat by lia. rewrite !plus_INR.
      field. repeat split; try apply INR_S_neq. rewrite <- !plus_INR. apply not_0_INR. lia.
    + intros z. rewrite !Rmult_plus_distr_l.
      rewrite (quad_ext' _ _ _ (fun p => z ^ (m + b + e + 2) * L (fun q => q ^ e) * p ^ b + (z ^ (m + b + e + 2) * L (fun q => q ^ e) * p ^ m + z ^ (m + b + e + 2) * L (fun q => q ^ b) * p ^ m))).
      * rewrite !quad_plus, !quad_scal. ring.
      * intros p. rewrite (quad_ext' _ _ _ (fun q => z ^ (m + b + e + 2) * p ^ b * q ^ e + (z ^ (m + b + e + 2) * p ^ m * q ^ e + z ^ (m + b + e + 2) * p ^ m * q ^ b))).
        -- rewrite !quad_plus, !quad_scal. ring.
        -- intros q. rewrite !Rpow_mult_distr, !pow_add. simpl. ring.
Qed.

(** ** four variables *)
Definition fun4 := R -> R -> R -> R -> R.
Inductive P4 : nat -> fun4 -> Prop :=
| P4_const : forall n c F, (forall a b e f, F a b e f = c) -> P4 n F
| P4_plus : forall n F G H, P4 n F -> P4 n G -> (forall a b e f, H a b e f = F a b e f + G a b e f) -> P4 n H
| P4_scal : forall n c F H, P4 n F -> (forall a b e f, H a b e f = c * F a b e f) -> P4 n H
| P4_x1 : forall n F H, P4 n F -> (forall a b e f, H a b e f = a * F a b e f) -> P4 (S n) H
| P4_x2 : forall n F H, P4 n F -> (forall a b e f, H a b e f = b * F a b e f) -> P4 (S n) H
| P4_x3 : forall n F H, P4 n F -> (forall a b e f, H a b e f = e * F a b e f) -> P4 (S n) H
| P4_x4 : forall n F H, P4 n F -> (forall a b e f, H a b e f = f * F a b e f) -> P4 (S n) H.
Lemma P4_mono : forall n m F, (n <= m)%nat -> P4 n F -> P4 m F.
Proof.
  intros n m F H P. revert m H. induction P; intros m Hm.
  - eapply P4_const; eassumption.
  - eapply P4_plus; [apply IHP1|apply IHP2|]; eassumption.
  - eapply P4_scal; [apply IHP|]; eassumption.
  - destruct m as [|m]; [lia|]. eapply P4_x1; [apply IHP; lia|eassumption].
  - destruct m as [|m]; [lia|]. eapply P4_x2; [apply IHP; lia|eassumption].
  - destruct m as [|m]; [lia|]. eapply P4_x3; [apply IHP; lia|eassumption].
  - destruct m as [|m]; [lia|]. eapply P4_x4; [apply IHP; lia|eassumption].
Qed.
Lemma P4_ext : forall n F G, P4 n F -> (forall a b e f, F a b e f = G a b e f) -> P4 n G.
Proof. intros n F G P H. eapply (P4_scal n 1 F); [exact P|]. intros. rewrite H. ring. Qed.
(** substitution of affine functions of one variable *)
Definition affine4 (X : fun4) : Prop :=
  exists c u1 u2 u3 u4, forall a b e f, X a b e f = c + u1 * a + u2 * b + u3 * e + u4 * f.
Lemma P4_times : forall n X F, affine4 X -> P4 n F -> P4 (S n) (fun a b e f => X a b e f * F a b e f).
Proof.
  intros n X F [c [u1 [u2 [u3 [u4 H]]]]] P.
  eapply (P4_plus _ (fun a b e f => c * F a b e f + u1 * (a * F a b e f)) (fun a b e f => u2 * (b * F a b e f) + (u3 * (e * F a b e f) + u4 * (f * F a b e f)))).
  - eapply P4_plus; [eapply P4_scal; [apply (P4_mono n); [lia|exact P]|reflexivity]|eapply P4_scal; [eapply P4_x1; [exact P|reflexivity]|reflexivity]|reflexivity].
  - eapply P4_plus; [eapply P4_scal; [eapply P4_x2; [exact P|reflexivity]|reflexivity]| |reflexivity].
    eapply P4_plus; [eapply P4_scal; [eapply P4_x3; [exact P|reflexivity]|reflexivity]|eapply P4_scal; [eapply P4_x4; [exact P|reflexivity]|reflexivity]|reflexivity].
  - intros. rewrite H. ring.
Qed.
Lemma P4_subst : forall n F X1 X2 X3 X4, affine4 X1 -> affine4 X2 -> affine4 X3 -> affine4 X4 -> P4 n F ->
  P4 n (fun a b e f => F (X1 a b e f) (X2 a b e f) (X3 a b e f) (X4 a b e f)).
Proof.
  intros n F X1 X2 X3 X4 A1 A2 A3 A4 P. induction P.
  - eapply P4_const. intros. apply H.
  - eapply P4_plus; [exact IHP1|exact IHP2|]. intros. apply H0.
  - eapply P4_scal; [exact IHP|]. intros. apply H0.
  - eapply P4_ext; [apply (P4_times _ _ _ A1 IHP)|]. intros. symmetry. apply H0.
  - eapply P4_ext; [apply (P4_times _ _ _ A2 IHP)|]. intros. symmetry. apply H0.
  - eapply P4_ext; [apply (P4_times _ _ _ A3 IHP)|]. intros. symmetry. apply H0.
  - eapply P4_ext; [apply (P4_times _ _ _ A4 IHP)|]. intros. symmetry. apply H0.
Qed.

Definition linear4 (A : fun4 -> R) : Prop :=
  (forall F G, (forall a b e f, F a b e f = G a b e f) -> A F = A G) /\
  (forall F G, A (fun a b e f => F a b e f + G a b e f) = A F + A G) /\ (forall c F, A (fun a b e f => c * F a b e f) = c * A F).
(** monomials *)
Definition mono (i j k l : nat) : fun4 := fun a b e f => a ^ i * b ^ j * e ^ k * f ^ l.
Lemma linear4_agree_mono : forall A B, linear4 A -> linear4 B -> forall D n F, P4 n F -> forall i j k l, (i + j + k + l + n <= D)%nat ->
  (forall i j k l, (i + j + k + l <= D)%nat -> A (mono i j k l) = B (mono i j k l)) ->
  A (fun a b e f => mono i j k l a b e f * F a b e f) = B (fun a b e f => mono i j k l a b e f * F a b e f).
Proof.
  intros A B [A0 [A1 A2]] [B0 [B1 B2]] D n F P. induction P; intros i j k l Hd M.
  - rewrite (A0 _ (fun a b e f => c * mono i j k l a b e f)), (B0 _ (fun a b e f => c * mono i j k l a b e f)) by (intros; rewrite H; ring).
    rewrite A2, B2, M by lia. reflexivity.
  - rewrite (A0 _ (fun a b e f => mono i j k l a b e f * F a b e f + mono i j k l a b e f * G a b e f)), (B0 _ (fun a b e f => mono i j k l a b e f * F a b e f + mono i j k l a b e f * G a b e f)) by (intros; rewrite H0; ring).
    rewrite (A1 (fun a b e f => mono i j k l a b e f * F a b e f)), (B1 (fun a b e f => mono i j k l a b e f * F a b e f)), IHP1, IHP2 by assumption. reflexivity.
  - rewrite (A0 _ (fun a b e f => c * (mono i j k l a b e f * F a b e f))), (B0 _ (fun a b e f => c * (mono i j k l a b e f * F a b e f))) by (intros; rewrite H0; ring).
    rewrite (A2 c (fun a b e f => mono i j k l a b e f * F a b e f)), (B2 c (fun a b e f => mono i j k l a b e f * F a b e f)), IHP by assumption. reflexivity.
  - rewrite (A0 _ (fun a b e f => mono (S i) j k l a b e f * F a b e f)), (B0 _ (fun a b e f => mono (S i) j k l a b e f * F a b e f)) by (intros; rewrite H0; unfold mono; simpl; ring).
    apply IHP; [lia|assumption].
  - rewrite (A0 _ (fun a b e f => mono i (S j) k l a b e f * F a b e f)), (B0 _ (fun a b e f => mono i (S j) k l a b e f * F a b e f)) by (intros; rewrite H0; unfold mono; simpl; ring).
    apply IHP; [lia|assumption].
  - rewrite (A0 _ (fun a b e f => mono i j (S k) l a b e f * F a b e f)), (B0 _ (fun a b e f => mono i j (S k) l a b e f * F a b e f)) by (intros; rewrite H0; unfold mono; simpl; ring).
    apply IHP; [lia|assumption].
  - rewrite (A0 _ (fun a b e f => mono i j k (S l) a b e f * F a b e f)), (B0 _ (fun a b e f => mono i j k (S l) a b e f * F a b e f)) by (intros; rewrite H0; unfold mono; simpl; ring).
    apply IHP; [lia|assumption].
Qed.
Lemma linear4_agree : forall A B D F, linear4 A -> linear4 B -> (forall i j k l, (i + j + k + l <= D)%nat -> A (mono i j k l) = B (mono i j k l)) -> P4 D F -> A F = B F.
Proof.
  intros A B D F LA LB M P. pose proof LA as [A0 _]. pose proof LB as [B0 _].
  rewrite (A0 _ (fun a b e f => mono 0 0 0 0 a b e f * F a b e f)), (B0 _ (fun a b e f => mono 0 0 0 0 a b e f * F a b e f)) by (intros; unfold mono; simpl; ring).
  apply (linear4_agree_mono A B LA LB D D F P); [lia|exact M].
Qed.

Definition L4 (F : fun4) : R := L (fun a => L (fun b => L (fun e => L (fun f => F a b e f)))).
Lemma L4_ext : forall F G, (forall a b e f, F a b e f = G a b e f) -> L4 F = L4 G.
Proof. intros. unfold L4. do 4 (apply quad_ext'; intros). apply H. Qed.
Lemma L4_plus : forall F G, L4 (fun a b e f => F a b e f + G a b e f) = L4 F + L4 G.
Proof. intros. unfold L4. do 4 (rewrite <- quad_plus; apply quad_ext'; intros). reflexivity. Qed.
Lemma L4_scal : forall c F, L4 (fun a b e f => c * F a b e f) = c * L4 F.
Proof. intros. unfold L4. do 4 (rewrite <- quad_scal; apply quad_ext'; intros). reflexivity. Qed.
Lemma linear4_L4 : linear4 L4.
Proof. split; [exact L4_ext|split; [exact L4_plus|exact L4_scal]]. Qed.
(** weighted substitutions are linear *)
Lemma linear4_subst : forall W (X1 X2 X3 X4 : fun4),
  linear4 (fun F => L4 (fun a b e f => W a b e f * F (X1 a b e f) (X2 a b e f) (X3 a b e f) (X4 a b e f))).
Proof.
  intros W X1 X2 X3 X4. split; [|split]; intros.
  - apply L4_ext. intros. rewrite H. reflexivity.
  - rewrite <- L4_plus. apply L4_ext. intros. ring.
  - rewrite <- L4_scal. apply L4_ext. intros. ring.
Qed.
Lemma linear4_sum : forall A B, linear4 A -> linear4 B -> linear4 (fun F => A F + B F).
Proof.
  intros A B [A0 [A1 A2]] [B0 [B1 B2]]. split; [|split]; intros.
  - rewrite (A0 F G), (B0 F G) by assumption. reflexivity.
  - rewrite A1, B1. ring.
  - rewrite A2, B2. ring.
Qed.
Lemma L4_prod : forall p q r s, L4 (fun a b e f => p a * q b * r e * s f) = L p * L q * L r * L s.
Proof.
  intros. unfold L4. rewrite (quad_ext' _ _ _ (fun a => p a * (L q * L r * L s))); [rewrite quad_scal_r; ring|]. intros a.
  rewrite (quad_ext' _ _ _ (fun b => q b * (p a * L r * L s))); [rewrite quad_scal_r; ring|]. intros b.
  rewrite (quad_ext' _ _ _ (fun e => r e * (p a * q b * L s))); [rewrite quad_scal_r; ring|]. intros e. rewrite quad_scal. ring.
Qed.
Lemma L4_mono : forall i j k l, (i < d)%nat -> (j < d)%nat -> (k < d)%nat -> (l < d)%nat ->
  L4 (mono i j k l) = / INR (S i) * / INR (S j) * / INR (S k) * / INR (S l).
Proof. intros. unfold mono. rewrite L4_prod, !moments by assumption. reflexivity. Qed.

(** reflections of single coordinates *)
Lemma pow_poly : forall i, polynomial (S i) (fun t => t ^ i).
Proof. intros i. apply (poly_ext _ (fun t => (1 * t + 0) ^ i * 1)); [intros; rewrite Rmult_1_l, Rplus_0_r; ring|]. replace (S i) with (i + 1)%nat by lia. apply poly_pow_lin, poly_const. lia. Qed.
Lemma reflect_pow : forall i, (i < d)%nat -> L (fun t => (1 - t) ^ i) = L (fun t => t ^ i).
Proof. intros i H. apply (reflect (S i) (fun t => t ^ i)); [exact H|apply pow_poly]. Qed.
Lemma L4_reflect : forall D F (r1 r2 r3 r4 : bool), (D < d)%nat -> P4 D F ->
  L4 (fun a b e f => F (if r1 then 1 - a else a) (if r2 then 1 - b else b) (if r3 then 1 - e else e) (if r4 then 1 - f else f)) = L4 F.
Proof.
  intros D F r1 r2 r3 r4 H P.
  apply (linear4_agree (fun F => L4 (fun a b e f => F (if r1 then 1 - a else a) (if r2 then 1 - b else b) (if r3 then 1 - e else e) (if r4 then 1 - f else f))) L4 D F); [| | |exact P].
  - split; [|split]; intros; [apply L4_ext; intros; apply H0| |]; [rewrite <- L4_plus|rewrite <- L4_scal]; reflexivity.
  - exact linear4_L4.
  - intros i j k l Hd. unfold mono. rewrite (L4_prod (fun a => (if r1 then 1 - a else a) ^ i) (fun b => (if r2 then 1 - b else b) ^ j) (fun e => (if r3 then 1 - e else e) ^ k) (fun f => (if r4 then 1 - f else f) ^ l)).
    rewrite L4_prod. f_equal; [f_equal; [f_equal|]|]; [destruct r1|destruct r2|destruct r3|destruct r4]; try reflexivity; apply reflect_pow; lia.
Qed.
Lemma L4_swap12 : forall F, L4 (fun a b e f => F b a e f) = L4 F.
Proof. intros F. unfold L4. apply (quad_swap x w (fun a b => L (fun e => L (fun f => F b a e f)))). Qed.
Lemma L4_swap34 : forall F, L4 (fun a b e f => F a b f e) = L4 F.
Proof. intros F. unfold L4. apply quad_ext'; intros a. apply quad_ext'; intros b. apply (quad_swap x w (fun e f => F a b f e)). Qed.

(** ** common vertex *)
Definition vertex4 (F : fun4) : R :=
  L4 (fun a b p q => a ^ 3 * (F a (b * a) (a * p) (a * q) + F (b * a) a (a * p) (a * q) + F (a * p) (a * q) a (b * a) + F (a * p) (a * q) (b * a) a)).
Lemma vertex4_ok : forall D F, (D + 4 <= d)%nat -> P4 D F -> vertex4 F = L4 F.
Proof.
  intros D F H P. apply (linear4_agree vertex4 L4 D F); [|exact linear4_L4| |exact P].
  - unfold vertex4. split; [|split]; intros.
    + apply L4_ext. intros. rewrite !H0. reflexivity.
    + rewrite <- L4_plus. apply L4_ext. intros. ring.
    + rewrite <- L4_scal. apply L4_ext. intros. ring.
  - intros i j k l Hd. rewrite L4_mono by lia. unfold vertex4.
    rewrite (L4_ext _ (fun a b p q => (a ^ (i + j + k + l + 3) * b ^ j * p ^ k * q ^ l + a ^ (i + j + k + l + 3) * b ^ i * p ^ k * q ^ l)
       + (a ^ (i + j + k + l + 3) * b ^ l * p ^ i * q ^ j + a ^ (i + j + k + l + 3) * b ^ k * p ^ i * q ^ j))).
    + rewrite (L4_plus (fun a b p q => a ^ (i + j + k + l + 3) * b ^ j * p ^ k * q ^ l + a ^ (i + j + k + l + 3) * b ^ i * p ^ k * q ^ l)).
      rewrite (L4_plus (fun a b p q => a ^ (i + j + k + l + 3) * b ^ j * p ^ k * q ^ l)), (L4_plus (fun a b p q => a ^ (i + j + k + l + 3) * b ^ l * p ^ i * q ^ j)).
      rewrite !L4_prod, !moments by lia. replace (S (i + j + k + l + 3)) with (S i + S j + S k + S l)%nat by lia. rewrite !plus_INR.
      field. repeat split; try apply INR_S_neq. rewrite <- !plus_INR. apply not_0_INR. lia.
    + intros a b p q. unfold mono. rewrite !Rpow_mult_distr, !pow_add. ring.
Qed.

(** ** identical elements *)
Definition identical4 (F : fun4) : R :=
  L4 (fun a b p q =>
    let t1 := p * (1 - a) in let t2 := q * (1 - a * b) in let t3 := p * (1 - a) + a in let t4 := q * (1 - a * b) + a * b in
    a * (1 - a) * (1 - a * b) *
    (F t1 t2 t3 t4 + F t3 t4 t1 t2 + (F t1 t4 t3 t2 + F t3 t2 t1 t4) + (F t2 t1 t4 t3 + F t4 t3 t2 t1) + (F t2 t3 t4 t1 + F t4 t1 t2 t3))).
Lemma identical4_ok : forall D F, (D + 4 <= d)%nat -> P4 D F -> identical4 F = L4 F.
Proof.
  intros D F H P. apply (linear4_agree identical4 L4 D F); [|exact linear4_L4| |exact P].
  - unfold identical4. cbv zeta. split; [|split]; intros.
    + apply L4_ext. intros. rewrite !H0. reflexivity.
    + rewrite <- L4_plus. apply L4_ext. intros. ring.
    + rewrite <- L4_scal. apply L4_ext. intros. ring.
  - intros i j k l Hd. rewrite L4_mono by lia.
    transitivity (L (fun a => L (fun b => a * (sig i k a * sig j l (a * b) + sig i k (a * b) * sig j l a)))).
    + unfold identical4, L4. cbv zeta. apply quad_ext'; intros a. apply quad_ext'; intros b.
      rewrite (quad_ext' _ _ _ (fun p =>
         a * ((1 - a) * ((p * (1 - a)) ^ i * (p * (1 - a) + a) ^ k) + (1 - a) * ((p * (1 - a)) ^ k * (p * (1 - a) + a) ^ i)) * sig j l (a * b) +
         a * ((1 - a) * ((p * (1 - a)) ^ j * (p * (1 - a) + a) ^ l) + (1 - a) * ((p * (1 - a)) ^ l * (p * (1 - a) + a) ^ j)) * sig i k (a * b))).
      * rewrite quad_plus, !quad_scal_r, !quad_scal, !quad_plus. unfold sig. fold (seg i k a) (seg k i a) (seg j l a) (seg l j a). ring.
      * intros p. unfold sig, seg at 1 2 3 4. rewrite <- !quad_plus, <- !quad_scal, <- quad_plus. apply quad_ext'; intros q. unfold mono. ring.
    + rewrite (cone2 (i + k + 2) (j + l + 2) (sig i k) (sig j l)) by (try apply sig_poly; lia).
      rewrite !sig_total by lia. ring.
Qed.

(** ** common edge *)
Definition edge4 (F : fun4) : R :=
  L4 (fun r z p q =>
    let t1 := r * (1 - z) in let t2 := (1 - r) * (1 - z) in let t3 := r * (1 - z * p) in let t4 := (1 - r) * (1 - z * p) in
    z * z * (1 - z) * (F t1 (z * p) t2 (z * q) + F (1 - t1) (z * p) (1 - t2) (z * q)) +
    z * z * (1 - z * p) * (F t3 z t4 (z * q) + F (1 - t3) z (1 - t4) (z * q) + (F t4 (z * q) t3 z + F (1 - t4) (z * q) (1 - t3) z))).
Lemma seg_reflected : forall a c z, (a + c < d)%nat -> L (fun r => (1 - z) * ((1 - r * (1 - z)) ^ a * ((1 - r) * (1 - z)) ^ c)) = seg c a z.
Proof.
  intros a c z H. unfold seg.
  rewrite <- (reflect (a + c + 1) (fun q => (1 - z) * ((q * (1 - z)) ^ c * (q * (1 - z) + z) ^ a))); [|lia|].
  - apply quad_ext'. intros r. replace ((1 - r) * (1 - z) + z) with (1 - r * (1 - z)) by ring. ring.
  - apply poly_scal. apply (poly_ext _ (fun q => ((1 - z) * q + 0) ^ c * (((1 - z) * q + z) ^ a * 1))).
    + intros t. rewrite Rplus_0_r, (Rmult_comm t (1 - z)). ring.
    + replace (a + c + 1)%nat with (c + (a + 1))%nat by lia. do 2 apply poly_pow_lin. apply poly_const. lia.
Qed.
Lemma seg_reflected' : forall a c z, (a + c < d)%nat -> L (fun r => (1 - z) * (((1 - r) * (1 - z)) ^ a * (1 - r * (1 - z)) ^ c)) = seg a c z.
Proof. intros a c z H. rewrite <- (seg_reflected c a z) by lia. apply quad_ext'. intros. ring. Qed.
Lemma seg_direct : forall a c z, L (fun r => (1 - z) * ((r * (1 - z)) ^ a * (1 - (1 - r) * (1 - z)) ^ c)) = seg a c z.
Proof. intros a c z. unfold seg. apply quad_ext'. intros r. replace (1 - (1 - r) * (1 - z)) with (r * (1 - z) + z) by ring. reflexivity. Qed.
Lemma quad_rotate : forall (f : R -> R -> R -> R -> R),
  L (fun r => L (fun z => L (fun p => L (fun q => f r z p q)))) = L (fun z => L (fun p => L (fun q => L (fun r => f r z p q)))).
Proof.
  intros f. rewrite quad_swap. apply quad_ext'; intros z. rewrite quad_swap. apply quad_ext'; intros p. apply quad_swap.
Qed.
Lemma edge4_ok : forall D F, (D + 4 <= d)%nat -> P4 D F -> edge4 F = L4 F.
Proof.
  intros D F H P. rewrite <- (L4_reflect D F false false true false) by (assumption || lia). cbn iota.
  transitivity (edge4 (fun a b e f => (fun a b e f => F a b (1 - e) f) a b (1 - e) f)).
  { unfold edge4. cbv zeta beta. apply L4_ext. intros. assert (E : forall u, 1 - (1 - u) = u) by (intros; ring). rewrite !E. reflexivity. }
  assert (P' : P4 D (fun a b e f => F a b (1 - e) f)).
  { apply (P4_subst D F (fun a b e f => a) (fun a b e f => b) (fun a b e f => 1 - e) (fun a b e f => f)); [| | | |exact P].
    - exists 0, 1, 0, 0, 0. intros; ring. - exists 0, 0, 1, 0, 0. intros; ring. - exists 1, 0, 0, (-1), 0. intros; ring. - exists 0, 0, 0, 0, 1. intros; ring. }
  set (G := fun a b e f : R => F a b (1 - e) f) in *. change (edge4 (fun a b e f => G a b (1 - e) f) = L4 G). clearbody G. clear F P. rename G into F. rename P' into P.
  apply (linear4_agree (fun F => edge4 (fun a b e f => F a b (1 - e) f)) L4 D F); [|exact linear4_L4| |exact P].
  - unfold edge4. cbv zeta. split; [|split]; intros.
    + apply L4_ext. intros. rewrite !H0. reflexivity.
    + rewrite <- L4_plus. apply L4_ext. intros. ring.
    + rewrite <- L4_scal. apply L4_ext. intros. ring.
  - intros i j k l Hd. rewrite L4_mono by lia.
    transitivity (L (fun z => L (fun p => L (fun q =>
       z * z * (sig i k z * (z * p) ^ j * (z * q) ^ l + sig i k (z * p) * z ^ j * (z * q) ^ l + sig i k (z * p) * (z * q) ^ j * z ^ l))))).
    + unfold edge4, L4. cbv zeta. rewrite quad_rotate. apply quad_ext'; intros z. apply quad_ext'; intros p. apply quad_ext'; intros q.
      unfold sig. rewrite <- (seg_direct i k z), <- (seg_reflected i k z), <- (seg_direct i k (z * p)), <- (seg_reflected i k (z * p)) by lia.
      transitivity (z * z * ((z * p) ^ j * (z * q) ^ l * (L (fun r => (1 - z) * ((r * (1 - z)) ^ i * (1 - (1 - r) * (1 - z)) ^ k)) + L (fun r => (1 - z) * ((1 - r * (1 - z)) ^ i * ((1 - r) * (1 - z)) ^ k))))
        + z * z * (z ^ j * (z * q) ^ l * (L (fun r => (1 - z * p) * ((r * (1 - z * p)) ^ i * (1 - (1 - r) * (1 - z * p)) ^ k)) + L (fun r => (1 - z * p) * ((1 - r * (1 - z * p)) ^ i * ((1 - r) * (1 - z * p)) ^ k))))
        + z * z * ((z * q) ^ j * z ^ l * (L (fun r => (1 - z * p) * (((1 - r) * (1 - z * p)) ^ i * (1 - r * (1 - z * p)) ^ k)) + L (fun r => (1 - z * p) * ((1 - (1 - r) * (1 - z * p)) ^ i * (r * (1 - z * p)) ^ k))))).
      * rewrite <- !quad_plus, <- !quad_scal, <- !quad_plus. apply quad_ext'; intros r. unfold mono.
        replace (1 - (1 - (1 - r) * (1 - z))) with ((1 - r) * (1 - z)) by ring.
        replace (1 - (1 - (1 - r) * (1 - z * p))) with ((1 - r) * (1 - z * p)) by ring.
        replace (1 - (1 - r * (1 - z * p))) with (r * (1 - z * p)) by ring. ring.
      * rewrite seg_reflected' by lia. 
        rewrite (quad_ext' _ _ (fun r => (1 - z * p) * ((1 - (1 - r) * (1 - z * p)) ^ i * (r * (1 - z * p)) ^ k)) (fun r => (1 - z * p) * ((r * (1 - z * p)) ^ k * (1 - (1 - r) * (1 - z * p)) ^ i))) by (intros; ring).
        rewrite !seg_direct, !seg_reflected by lia. ring.
    + rewrite (cone3 (i + k + 2) (sig i k) j l) by (try apply sig_poly; lia). rewrite sig_total by lia. ring.
Qed.
End Rule.
