(** Derivatives of Bernstein polynomials, and the quadrature of kernels times products of polynomials. *)
From Coq Require Import Reals Lra Lia Arith Bool List.
From Coquelicot Require Import Coquelicot.
From Verif Require Import RSum SpecBernstein ModelBernstein ProofBernstein ModelBall ModelQuad ModelDuffy ModelOperators SpecQuad SpecInterp SpecDuffy SpecCheb ProofInterp ProofDuffy ProofDuffyInt ProofBezier ProofCheb ProofGaussErr
  SpecOperators PropOperators ProofNearFar PropNearFar PropInterp PropCompare SpecFlat SpecHyper PropQuad.
Local Open Scope R_scope.
Lemma dbern_poly : forall p m, (m <= p)%nat -> polynomial (p + 1) (dbern p m).
Proof.
  intros [|q] m Hm; [exists (fun _ => 0); intros t; cbn; ring|].
  assert (P1 : polynomial (q + 1) (fun x => match m with O => 0 | Datatypes.S j => bern q j x end)) by (destruct m as [|j]; [apply poly_const; lia|apply bern_poly; lia]).
  assert (P2 : polynomial (q + 1) (fun x => if (m <=? q)%nat then bern q m x else 0)) by (destruct (m <=? q)%nat eqn:E; [apply Nat.leb_le in E; apply bern_poly, E|apply poly_const; lia]).
  apply (poly_mono (q + 1)); [lia|].
  apply (poly_ext _ (fun x => INR (Datatypes.S q) * ((match m with O => 0 | Datatypes.S j => bern q j x end) + (-1) * (if (m <=? q)%nat then bern q m x else 0)))).
  - intros x. unfold dbern. ring.
  - apply poly_scal, poly_plus; [exact P1|apply poly_scal, P2].
Qed.
Lemma dbern_bound : forall p m x, (m <= p)%nat -> 0 <= x <= 1 -> Rabs (dbern p m x) <= INR p.
Proof.
  intros [|q] m x Hm Hx; [unfold dbern; rewrite Rabs_R0; cbn; lra|].
  unfold dbern. rewrite Rabs_mult, (Rabs_right (INR _)) by (apply Rle_ge, pos_INR). rewrite <- (Rmult_1_r (INR (Datatypes.S q))) at 2. apply Rmult_le_compat_l; [apply pos_INR|].
  assert (A1 : 0 <= match m with O => 0 | Datatypes.S j => bern q j x end <= 1) by (destruct m as [|j]; [lra|split; [apply bern_nonneg; lra|apply bern_le_1; [lra|lia]]]).
  assert (A2 : 0 <= (if (m <=? q)%nat then bern q m x else 0) <= 1) by (destruct (m <=? q)%nat eqn:E; [apply Nat.leb_le in E; split; [apply bern_nonneg; lra|apply bern_le_1; [lra|exact E]]|lra]).
  apply Rabs_le. lra.
Qed.
Lemma psi_poly : forall p k m, (m <= p)%nat -> polynomial (p + 1) (some_psi p k m).
Proof. intros p [|] m Hm; [apply dbern_poly|apply bern_poly]; exact Hm. Qed.
(** a product of a Bernstein polynomial and a derivative of one *)
Lemma psi_bound : forall p b1 b2 m1 m2 x y, (m1 <= p)%nat -> (m2 <= p)%nat -> 0 <= x <= 1 -> 0 <= y <= 1 -> b1 = negb b2 -> Rabs (some_psi p b1 m1 x * some_psi p b2 m2 y) <= INR p.
Proof.
  assert (B : forall p m x, (m <= p)%nat -> 0 <= x <= 1 -> Rabs (bern p m x) <= 1) by (intros p m x Hm Hx; rewrite Rabs_right by (apply Rle_ge, bern_nonneg; exact Hx); apply bern_le_1; assumption).
  intros p b1 [|] m1 m2 x y H1 H2 Hx Hy ->; cbn [negb some_psi]; rewrite Rabs_mult.
  - rewrite <- (Rmult_1_l (INR p)). apply Rmult_le_compat; [apply Rabs_pos|apply Rabs_pos|apply B; assumption|apply dbern_bound; assumption].
  - rewrite <- (Rmult_1_r (INR p)). apply Rmult_le_compat; [apply Rabs_pos|apply Rabs_pos|apply dbern_bound; assumption|apply B; assumption].
Qed.
Lemma shape_d1_value : forall p q s, (q < (p + 1) * (p + 1))%nat -> shape_d1 p q s = dbern p (q mod (p + 1)) (fst s) * bern p (q / (p + 1)) (snd s).
Proof.
  intros p q s Hq. destruct (split_index p q Hq) as [_ [I1 I2]]. unfold shape_d1, shape_function. apply is_derive_unique.
  rewrite Rmult_comm. apply (is_derive_ext (fun a => bern p (q / (p + 1)) (snd s) * bern p (q mod (p + 1)) a)); [intros; apply Rmult_comm|]. apply is_derive_scal. apply is_derive_Reals, bern_derivable, I2.
Qed.
Lemma shape_d2_value : forall p q s, (q < (p + 1) * (p + 1))%nat -> shape_d2 p q s = bern p (q mod (p + 1)) (fst s) * dbern p (q / (p + 1)) (snd s).
Proof.
  intros p q s Hq. destruct (split_index p q Hq) as [_ [I1 I2]]. unfold shape_d2, shape_function. apply is_derive_unique.
  apply is_derive_scal. apply is_derive_Reals, bern_derivable, I1.
Qed.
(** the quadrature of a kernel times four polynomials *)
Lemma quad_poly : forall dq x w m p K B f1 f2 g1 g2 S, exact_rule dq x w -> positive_rule x w -> (0 < m)%nat -> (m + p <= dq)%nat ->
  polynomial (p + 1) f1 -> polynomial (p + 1) f2 -> polynomial (p + 1) g1 -> polynomial (p + 1) g2 -> kernel_bounded m B K -> lip4 K ->
  (forall a b e f, inside a -> inside b -> inside e -> inside f -> Rabs (f1 a * f2 b * g1 e * g2 f) <= S) ->
  exists v, integral4 (fun s t => K s t * (f1 (fst s) * f2 (snd s) * g1 (fst t) * g2 (snd t))) v /\
    Rabs (L4 x w (fun a b e f => K (a, b) (e, f) * (f1 a * f2 b * g1 e * g2 f)) - v) <= 2 * (S * cheb_error4 m B).
Proof.
  intros dq x w m p K B f1 f2 g1 g2 S HE HP Hm Hd P1 P2 P3 P4 KB LK HS.
  destruct (lip4_integrable (fun s t => K s t * (f1 (fst s) * f2 (snd s) * g1 (fst t) * g2 (snd t)))) as [v Iv].
  - apply lip4_mult; [exact LK|]. apply lip4_mult; [apply lip4_mult; [apply lip4_mult|]|]; apply lip4_fun; eapply poly_lip; eassumption.
  - exists v. split; [exact Iv|]. exact (quad4_error dq x w m p K B f1 f2 g1 g2 S v HE HP Hm Hd P1 P2 P3 P4 KB HS Iv).
Qed.
