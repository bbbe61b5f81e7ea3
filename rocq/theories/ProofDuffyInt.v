(** The quadrature routines of the model in terms of the functionals of ProofDuffy, and integrals over pairs of squares. *)
From Coq Require Import List Arith Lia ZArith Reals Lra QArith Qreals.
From Coquelicot Require Import Coquelicot.
From Verif Require Import RSum ModelBase ModelBernstein ModelTree ModelBall ModelQuad ModelAssembly ModelDuffy SpecQuad SpecInterp SpecDuffy ProofInterp ProofDuffy ProofAssembly PropQuad.
Import ListNotations.
Local Close Scope Q_scope.
Local Open Scope nat_scope.
Local Open Scope R_scope.

(** ** moments of exact rules *)
Lemma exact_moments : forall d x w, exact_rule d x w -> forall j, (j < d)%nat -> quad x w (fun t => t ^ j) = / INR (S j).
Proof.
  intros d x w [L E] j Hj. set (c := fun k => if (k =? j)%nat then 1 else 0).
  assert (P : forall t, poly_eval c d t = t ^ j).
  { intros t. unfold poly_eval. rewrite (rsum_single _ d j Hj); [unfold c; rewrite Nat.eqb_refl; ring|]. intros k _ Hk. unfold c. apply Nat.eqb_neq in Hk. rewrite Hk. ring. }
  rewrite <- (quad_ext' x w _ _ P). apply (E c). unfold integral01. apply (is_RInt_ext (fun t => t ^ j)); [intros t _; symmetry; apply P|]. apply integral_pow.
Qed.
Lemma moments_exact : forall d x w, length x = length w -> (forall j, (j < d)%nat -> quad x w (fun t => t ^ j) = / INR (S j)) -> exact_rule d x w.
Proof.
  intros d x w L M. split; [exact L|]. intros c v H. rewrite (integral_unique _ _ _ H (integral_poly c d)), quad_poly. apply rsum_ext. intros j Hj. rewrite M by exact Hj. reflexivity.
Qed.

(** ** polynomials in four variables *)
Definition cur (G : R * R -> R * R -> R) : fun4 := fun a b e f => G (a, b) (e, f).
Lemma P4_mono_eval : forall D m, (mono_degree m <= D)%nat -> P4 D (mono_eval m).
Proof.
  intros D [c [[[a b] e] f]] H. unfold mono_degree in H. unfold mono_eval. apply (P4_mono (f + (e + (b + a)))); [lia|].
  induction f as [|f IH]; [|eapply P4_x4; [apply IH; lia|intros; simpl; ring]].
  induction e as [|e IH]; [|eapply P4_x3; [apply IH; lia|intros; simpl; ring]].
  induction b as [|b IH]; [|eapply P4_x2; [apply IH; lia|intros; simpl; ring]].
  induction a as [|a IH]; [|eapply P4_x1; [apply IH; lia|intros; simpl; ring]].
  eapply (P4_const _ c). intros. simpl. ring.
Qed.
Lemma P4_poly4 : forall D G, poly4 D G -> P4 D (cur G).
Proof.
  intros D G [l [H E]]. apply (P4_ext D (fun a b e f => fold_right (fun m r => mono_eval m a b e f + r) 0 l)); [|intros; unfold cur; rewrite E; reflexivity].
  clear E G. induction l as [|m l IH]; cbn [fold_right].
  - eapply P4_const. reflexivity.
  - eapply P4_plus; [apply (P4_mono_eval D m); apply H; left; reflexivity|apply IH; intros; apply H; right; assumption|reflexivity].
Qed.

(** ** integrals *)
Lemma integral01_ext : forall f g v, (forall t, 0 <= t <= 1 -> f t = g t) -> integral01 f v -> integral01 g v.
Proof. intros f g v H I. unfold integral01 in *. apply (is_RInt_ext f); [|exact I]. intros t Ht. rewrite Rmin_left, Rmax_right in Ht by lra. apply H. lra. Qed.
Lemma integral01_plus : forall f g u v, integral01 f u -> integral01 g v -> integral01 (fun t => f t + g t) (u + v).
Proof. intros f g u v Hf Hg. apply (is_RInt_plus (V := R_NormedModule)); assumption. Qed.
Lemma integral01_scal : forall c f u, integral01 f u -> integral01 (fun t => c * f t) (c * u).
Proof. intros c f u Hf. apply (is_RInt_scal (V := R_NormedModule)); assumption. Qed.
Lemma integral4_unique : forall G u v, integral4 G u -> integral4 G v -> u = v.
Proof.
  intros G u v [a3 [a2 [a1 [A3 [A2 [A1 A0]]]]]] [b3 [b2 [b1 [B3 [B2 [B1 B0]]]]]].
  assert (E3 : forall s1 s2 t1, 0 <= s1 <= 1 -> 0 <= s2 <= 1 -> 0 <= t1 <= 1 -> a3 s1 s2 t1 = b3 s1 s2 t1) by (intros; eapply integral_unique; [apply A3|apply B3]; assumption).
  assert (E2 : forall s1 s2, 0 <= s1 <= 1 -> 0 <= s2 <= 1 -> a2 s1 s2 = b2 s1 s2).
  { intros s1 s2 H1 H2. eapply integral_unique; [apply A2; assumption|]. apply (integral01_ext (b3 s1 s2)); [intros; symmetry; apply E3; assumption|apply B2; assumption]. }
  assert (E1 : forall s1, 0 <= s1 <= 1 -> a1 s1 = b1 s1).
  { intros s1 H1. eapply integral_unique; [apply A1; assumption|]. apply (integral01_ext (b2 s1)); [intros; symmetry; apply E2; assumption|apply B1; assumption]. }
  eapply integral_unique; [exact A0|]. apply (integral01_ext b1); [intros; symmetry; apply E1; assumption|exact B0].
Qed.
Lemma integral4_ext : forall F G v, (forall s t, F s t = G s t) -> integral4 F v -> integral4 G v.
Proof.
  intros F G v H [a3 [a2 [a1 [A3 [A2 [A1 A0]]]]]]. exists a3, a2, a1. split; [|auto].
  intros. apply (integral01_ext (fun t2 => F (s1, s2) (t1, t2))); auto.
Qed.
Lemma integral4_plus : forall F G u v, integral4 F u -> integral4 G v -> integral4 (fun s t => F s t + G s t) (u + v).
Proof.
  intros F G u v [a3 [a2 [a1 [A3 [A2 [A1 A0]]]]]] [b3 [b2 [b1 [B3 [B2 [B1 B0]]]]]].
  exists (fun s1 s2 t1 => a3 s1 s2 t1 + b3 s1 s2 t1), (fun s1 s2 => a2 s1 s2 + b2 s1 s2), (fun s1 => a1 s1 + b1 s1).
  repeat split; intros; apply integral01_plus; auto.
Qed.
Lemma integral01_pow_scal : forall (g : R -> R) c n, (forall t, g t = c * t ^ n) -> integral01 g (c * / INR (S n)).
Proof. intros g c n H. apply (integral01_ext (fun t => c * t ^ n)); [intros; symmetry; apply H|]. apply integral01_scal. apply integral_pow. Qed.
Lemma integral4_mono : forall c a b e f, integral4 (fun s t => mono_eval (c, (a, b, e, f)) (fst s) (snd s) (fst t) (snd t))
  (c * (/ INR (S a) * / INR (S b) * / INR (S e) * / INR (S f))).
Proof.
  intros c a b e f. unfold mono_eval. cbn [fst snd].
  exists (fun s1 s2 t1 => c * s1 ^ a * s2 ^ b * t1 ^ e * / INR (S f)), (fun s1 s2 => c * s1 ^ a * s2 ^ b * / INR (S f) * / INR (S e)),
    (fun s1 => c * s1 ^ a * / INR (S f) * / INR (S e) * / INR (S b)).
  split; [|split; [|split]]; intros; cbn [fst snd]; try (apply integral01_pow_scal; intros; ring).
  replace (c * (/ INR (S a) * / INR (S b) * / INR (S e) * / INR (S f))) with (c * / INR (S f) * / INR (S e) * / INR (S b) * / INR (S a)) by ring.
  apply integral01_pow_scal. intros. ring.
Qed.
Lemma integral4_zero : integral4 (fun _ _ => 0) 0.
Proof.
  assert (Z : integral01 (fun _ => 0) 0) by (pose proof (integral01_pow_scal (fun _ => 0) 0 0 ltac:(intros; cbv beta; ring)) as Z; rewrite Rmult_0_l in Z; exact Z).
  exists (fun _ _ _ => 0), (fun _ _ => 0), (fun _ => 0). repeat split; intros; exact Z.
Qed.
Lemma L4_integral : forall d x w D G v, (forall j, (j < d)%nat -> quad x w (fun t => t ^ j) = / INR (S j)) -> (D < d)%nat ->
  poly4 D G -> integral4 G v -> L4 x w (cur G) = v.
Proof.
  intros d x w D G v M HD [l [Hl E]] I.
  assert (I' : integral4 (fun s t => fold_right (fun m r => mono_eval m (fst s) (snd s) (fst t) (snd t) + r) 0 l)
     (L4 x w (fun a b e f => fold_right (fun m r => mono_eval m a b e f + r) 0 l))).
  { clear E I. induction l as [|[c [[[a b] e] f]] l IH]; cbn [fold_right].
    - replace (L4 x w (fun _ _ _ _ => 0)) with 0; [apply integral4_zero|]. rewrite (L4_ext x w _ (fun a b e f => 0 * 0)) by (intros; ring). rewrite (L4_scal x w 0 (fun _ _ _ _ => 0)). ring.
    - rewrite (L4_plus x w (mono_eval (c, (a, b, e, f)))). apply integral4_plus; [|apply IH; intros; apply Hl; right; assumption].
      assert (Hd : (a + b + e + f <= D)%nat) by (apply (Hl (c, (a, b, e, f))); left; reflexivity).
      rewrite (L4_ext x w _ (fun a' b' e' f' => c * mono a b e f a' b' e' f')) by (intros; unfold mono_eval, mono; ring).
      rewrite L4_scal, (L4_mono x w d M) by lia. apply integral4_mono. }
  apply (integral4_unique G); [|exact I].
  rewrite (L4_ext x w (cur G) (fun a b e f => fold_right (fun m r => mono_eval m a b e f + r) 0 l)) by (intros; unfold cur; rewrite E; reflexivity).
  apply (integral4_ext _ _ _ (fun s t => eq_sym (E s t))). exact I'.
Qed.

(** ** sums over the tensor product rule *)
Section Tensor.
Variables x w : list R.
Hypothesis len : length x = length w.
Notation Q := (tensor_rule (x, w)).
Lemma tensor_sum : forall f, rsum (fun i => q_w Q i * f (q_x Q i) (q_y Q i)) (q_size Q) = quad x w (fun s => quad x w (fun t => f s t)).
Proof. intros f. rewrite <- (tensor_value x w f len). reflexivity. Qed.
Lemma tensor_sum4 : forall F, rsum (fun i => rsum (fun j => q_w Q i * q_w Q j * F (q_x Q i) (q_y Q i) (q_x Q j) (q_y Q j)) (q_size Q)) (q_size Q) = L4 x w F.
Proof.
  intros F. unfold L4. rewrite <- (tensor_sum (fun a b => quad x w (fun e => quad x w (fun f => F a b e f)))). apply rsum_ext. intros i _.
  rewrite <- (tensor_sum (fun e f => F (q_x Q i) (q_y Q i) e f)), <- rsum_scal. apply rsum_ext. intros. ring.
Qed.
(** two nested loops that add *)
Lemma loops_value : forall (body : nat -> nat -> mat -> mat) a b c,
  (forall i j m, (i < q_size Q)%nat -> (j < q_size Q)%nat -> body i j m a b = m a b + c i j) ->
  for_loop (q_size Q) (fun i m => for_loop (q_size Q) (fun j m => body i j m) m) zero_mat a b = rsum (fun i => rsum (fun j => c i j) (q_size Q)) (q_size Q).
Proof.
  intros body a b c H. rewrite (for_loop_add _ _ (fun m : mat => m a b) (fun i => rsum (fun j => c i j) (q_size Q))); [unfold zero_mat; ring|].
  intros i m Hi. apply (for_loop_add _ _ (fun m : mat => m a b)). intros j m' Hj. apply H; assumption.
Qed.
Variables (K : kern).
Definition entry (e1 e2 : element) (a b : nat) : R * R -> R * R -> R := fun s t => K e1 s e2 t a b.
Lemma integrate1_value : forall e1 e2 a b, integrate1 K e1 e2 Q a b = e_h e1 * e_h e1 * L4 x w (cur (entry e1 e2 a b)).
Proof.
  intros e1 e2 a b. unfold integrate1. cbv zeta.
  rewrite (loops_value (fun i j m => evaluate_integrand K (map2surface e1 (q_xi Q i) (e_h e1 * q_w Q i)) (map2surface e2 (q_xi Q j) (e_h e1 * q_w Q j)) m) a b
    (fun i j => e_h e1 * e_h e1 * (q_w Q i * q_w Q j * cur (entry e1 e2 a b) (q_x Q i) (q_y Q i) (q_x Q j) (q_y Q j)))).
  - rewrite <- tensor_sum4, <- rsum_scal. apply rsum_ext. intros i _. rewrite <- rsum_scal. reflexivity.
  - intros i j m _ _. unfold evaluate_integrand, map2surface, sp_w, sp_elem, sp_xi, cur, entry, q_x, q_y. cbn [fst snd]. rewrite <- !surjective_pairing. ring.
Qed.
Lemma integrate2_value : forall e a b, integrate2 K e Q a b = e_h e * e_h e * identical4 x w (cur (entry e e a b)).
Proof.
  intros e a b. unfold integrate2, identical4. cbv zeta.
  match goal with |- for_loop _ (fun i m => for_loop _ (fun j m => @?body i j m) m) zero_mat a b = _ * _ * L4 x w ?F =>
    rewrite (loops_value body a b (fun i j => e_h e * e_h e * (q_w Q i * q_w Q j * F (q_x Q i) (q_y Q i) (q_x Q j) (q_y Q j)))) end.
  - rewrite <- tensor_sum4, <- rsum_scal. apply rsum_ext. intros i _. rewrite <- rsum_scal. reflexivity.
  - intros i j m _ _. cbn [for_loop nth Nat.mul Nat.add]. unfold evaluate_integrand, map2surface, sp_w, sp_elem, sp_xi, cur, entry. cbn [fst snd nth]. ring.
Qed.
Definition rotated (r1 r2 : nat) (G : R * R -> R * R -> R) : R * R -> R * R -> R :=
  fun s t => G (tau (fst s) (snd s) r1) (tau (fst t) (snd t) r2).
Lemma integrate3_value : forall e1 r1 e2 r2 a b, integrate3 K e1 r1 e2 r2 Q a b = e_h e1 * e_h e1 * edge4 x w (cur (rotated r1 r2 (entry e1 e2 a b))).
Proof.
  intros e1 r1 e2 r2 a b. unfold integrate3, edge4. cbv zeta.
  match goal with |- for_loop _ (fun i m => for_loop _ (fun j m => @?body i j m) m) zero_mat a b = _ * _ * L4 x w ?F =>
    rewrite (loops_value body a b (fun i j => e_h e1 * e_h e1 * (q_w Q i * q_w Q j * F (q_x Q i) (q_y Q i) (q_x Q j) (q_y Q j)))) end.
  - rewrite <- tensor_sum4, <- rsum_scal. apply rsum_ext. intros i _. rewrite <- rsum_scal. reflexivity.
  - intros i j m _ _. unfold evaluate_integrand, map2surface, sp_w, sp_elem, sp_xi, cur, rotated, entry. cbn [fst snd]. ring.
Qed.
Lemma integrate4_value : forall e1 r1 e2 r2 a b, integrate4 K e1 r1 e2 r2 Q a b = e_h e1 * e_h e1 * vertex4 x w (cur (rotated r1 r2 (entry e1 e2 a b))).
Proof.
  intros e1 r1 e2 r2 a b. unfold integrate4, vertex4. cbv zeta.
  match goal with |- for_loop _ (fun i m => for_loop _ (fun j m => @?body i j m) m) zero_mat a b = _ * _ * L4 x w ?F =>
    rewrite (loops_value body a b (fun i j => e_h e1 * e_h e1 * (q_w Q i * q_w Q j * F (q_x Q i) (q_y Q i) (q_x Q j) (q_y Q j)))) end.
  - rewrite <- tensor_sum4, <- rsum_scal. apply rsum_ext. intros i _. rewrite <- rsum_scal. reflexivity.
  - intros i j m _ _. unfold evaluate_integrand, map2surface, sp_w, sp_elem, sp_xi, cur, rotated, entry. cbn [fst snd]. ring.
Qed.
End Tensor.

(** ** rotations do not change the integral *)
Lemma affine_1 : forall c u1 u2 u3 u4, affine4 (fun a b e f => c + u1 * a + u2 * b + u3 * e + u4 * f).
Proof. intros. exists c, u1, u2, u3, u4. reflexivity. Qed.
Lemma tau_affine : forall r, (r = 1 \/ r = 2 \/ r = 3 \/ forall x y, tau x y r = (x, y))%nat.
Proof. intros r. do 4 (destruct r as [|r]; [auto; right; right; right; reflexivity|]). right; right; right. intros. reflexivity. Qed.
Lemma L4_tau1 : forall d x w D F r, (forall j, (j < d)%nat -> quad x w (fun t => t ^ j) = / INR (S j)) -> (D < d)%nat -> P4 D F ->
  P4 D (fun a b e f => F (fst (tau a b r)) (snd (tau a b r)) e f) /\ L4 x w (fun a b e f => F (fst (tau a b r)) (snd (tau a b r)) e f) = L4 x w F.
Proof.
  intros d x w D F r M HD P.
  assert (A1 : affine4 (fun a _ _ _ => a)) by (exists 0, 1, 0, 0, 0; intros; ring).
  assert (A2 : affine4 (fun _ b _ _ => b)) by (exists 0, 0, 1, 0, 0; intros; ring).
  assert (A3 : affine4 (fun _ _ e _ => e)) by (exists 0, 0, 0, 1, 0; intros; ring).
  assert (A4 : affine4 (fun _ _ _ f => f)) by (exists 0, 0, 0, 0, 1; intros; ring).
  assert (B1 : affine4 (fun a _ _ _ => 1 - a)) by (exists 1, (-1), 0, 0, 0; intros; ring).
  assert (B2 : affine4 (fun _ b _ _ => 1 - b)) by (exists 1, 0, (-1), 0, 0; intros; ring).
  assert (S : P4 D (fun a b e f => F b a e f)) by (apply (P4_subst D F (fun _ b _ _ => b) (fun a _ _ _ => a) (fun _ _ e _ => e) (fun _ _ _ f => f)); assumption).
  destruct (tau_affine r) as [->|[->|[->|E]]]; cbn [tau fst snd].
  - split; [apply (P4_subst D F (fun _ b _ _ => 1 - b) (fun a _ _ _ => a) (fun _ _ e _ => e) (fun _ _ _ f => f)); assumption|].
    rewrite <- (L4_swap12 x w F). apply (L4_reflect x w d M D (fun a b e f => F b a e f) false true false false HD S).
  - split; [apply (P4_subst D F (fun a _ _ _ => 1 - a) (fun _ b _ _ => 1 - b) (fun _ _ e _ => e) (fun _ _ _ f => f)); assumption|].
    apply (L4_reflect x w d M D F true true false false HD P).
  - split; [apply (P4_subst D F (fun _ b _ _ => b) (fun a _ _ _ => 1 - a) (fun _ _ e _ => e) (fun _ _ _ f => f)); assumption|].
    rewrite <- (L4_swap12 x w F). apply (L4_reflect x w d M D (fun a b e f => F b a e f) true false false false HD S).
  - split; [eapply P4_ext; [exact P|]; intros; rewrite E; reflexivity|]. apply L4_ext. intros. rewrite E. reflexivity.
Qed.
Lemma L4_tau2 : forall d x w D F r, (forall j, (j < d)%nat -> quad x w (fun t => t ^ j) = / INR (S j)) -> (D < d)%nat -> P4 D F ->
  P4 D (fun a b e f => F a b (fst (tau e f r)) (snd (tau e f r))) /\ L4 x w (fun a b e f => F a b (fst (tau e f r)) (snd (tau e f r))) = L4 x w F.
Proof.
  intros d x w D F r M HD P.
  assert (A1 : affine4 (fun a _ _ _ => a)) by (exists 0, 1, 0, 0, 0; intros; ring).
  assert (A2 : affine4 (fun _ b _ _ => b)) by (exists 0, 0, 1, 0, 0; intros; ring).
  assert (A3 : affine4 (fun _ _ e _ => e)) by (exists 0, 0, 0, 1, 0; intros; ring).
  assert (A4 : affine4 (fun _ _ _ f => f)) by (exists 0, 0, 0, 0, 1; intros; ring).
  assert (B3 : affine4 (fun _ _ e _ => 1 - e)) by (exists 1, 0, 0, (-1), 0; intros; ring).
  assert (B4 : affine4 (fun _ _ _ f => 1 - f)) by (exists 1, 0, 0, 0, (-1); intros; ring).
  assert (S : P4 D (fun a b e f => F a b f e)) by (apply (P4_subst D F (fun a _ _ _ => a) (fun _ b _ _ => b) (fun _ _ _ f => f) (fun _ _ e _ => e)); assumption).
  destruct (tau_affine r) as [->|[->|[->|E]]]; cbn [tau fst snd].
  - split; [apply (P4_subst D F (fun a _ _ _ => a) (fun _ b _ _ => b) (fun _ _ _ f => 1 - f) (fun _ _ e _ => e)); assumption|].
    rewrite <- (L4_swap34 x w F). apply (L4_reflect x w d M D (fun a b e f => F a b f e) false false false true HD S).
  - split; [apply (P4_subst D F (fun a _ _ _ => a) (fun _ b _ _ => b) (fun _ _ e _ => 1 - e) (fun _ _ _ f => 1 - f)); assumption|].
    apply (L4_reflect x w d M D F false false true true HD P).
  - split; [apply (P4_subst D F (fun a _ _ _ => a) (fun _ b _ _ => b) (fun _ _ _ f => f) (fun _ _ e _ => 1 - e)); assumption|].
    rewrite <- (L4_swap34 x w F). apply (L4_reflect x w d M D (fun a b e f => F a b f e) false false true false HD S).
  - split; [eapply P4_ext; [exact P|]; intros; rewrite E; reflexivity|]. apply L4_ext. intros. rewrite E. reflexivity.
Qed.
Lemma L4_rotated : forall d x w D G r1 r2, (forall j, (j < d)%nat -> quad x w (fun t => t ^ j) = / INR (S j)) -> (D < d)%nat -> P4 D (cur G) ->
  P4 D (cur (rotated r1 r2 G)) /\ L4 x w (cur (rotated r1 r2 G)) = L4 x w (cur G).
Proof.
  intros d x w D G r1 r2 M HD P. destruct (L4_tau1 d x w D (cur G) r1 M HD P) as [P1 E1].
  destruct (L4_tau2 d x w D _ r2 M HD P1) as [P2 E2]. split.
  - eapply P4_ext; [exact P2|]. intros. unfold cur, rotated. cbn [fst snd]. rewrite <- !surjective_pairing. reflexivity.
  - rewrite <- E1, <- E2. apply L4_ext. intros. unfold cur, rotated. cbn [fst snd]. rewrite <- !surjective_pairing. reflexivity.
Qed.
