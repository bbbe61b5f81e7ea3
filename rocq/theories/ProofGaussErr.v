(** The error of exact positive rules for smooth integrands, against iterated integrals. *)
From Coq Require Import Reals Lra Lia Arith List.
From Coquelicot Require Import Coquelicot.
From Verif Require Import RSum SpecQuad SpecInterp SpecDuffy SpecCheb ModelInterp ProofInterp ProofH2Entry ProofDuffy PropQuad ProofDuffyInt PropCompare ProofCheb ProofPeriodic.
Local Open Scope R_scope.

Lemma poly_integrable : forall d f, polynomial d f -> exists v, integral01 f v.
Proof. intros d f [c Ec]. eexists. apply (integral01_ext (poly_eval c d)); [intros; symmetry; apply Ec|apply integral_poly]. Qed.
Lemma exact_poly : forall d x w f v, exact_rule d x w -> polynomial d f -> integral01 f v -> quad x w f = v.
Proof.
  intros d x w f v [_ E] [c Ec] I. rewrite (ProofDuffy.quad_ext' x w f (poly_eval c d)) by exact Ec. apply E. apply (integral01_ext f); [intros; apply Ec|exact I].
Qed.
Lemma integral01_bound : forall f v e, (forall t, inside t -> Rabs (f t) <= e) -> integral01 f v -> Rabs v <= e.
Proof.
  intros f v e H I. assert (Hc : forall z : R, is_RInt (fun _ => z) 0 1 z).
  { intros z. pose proof (is_RInt_const (V := R_NormedModule) 0 1 z) as Q. refine (eq_ind _ (fun q => is_RInt (fun _ => z) 0 1 q) Q _ _). unfold scal; simpl; unfold mult; simpl; ring. }
  apply Rabs_le. split.
  - apply (is_RInt_le (fun _ => - e) f 0 1); [lra|apply Hc|exact I|]. intros t Ht. specialize (H t Ht). apply Rabs_le_between in H. lra.
  - apply (is_RInt_le f (fun _ => e) 0 1); [lra|exact I|apply Hc|]. intros t Ht. specialize (H t Ht). apply Rabs_le_between in H. lra.
Qed.
Lemma integral01_minus : forall f g u v, integral01 f u -> integral01 g v -> integral01 (fun t => f t - g t) (u - v).
Proof. intros f g u v Hf Hg. apply (is_RInt_minus (V := R_NormedModule)); assumption. Qed.
Lemma integral01_diff : forall f g u v e, (forall t, inside t -> Rabs (f t - g t) <= e) -> integral01 f u -> integral01 g v -> Rabs (u - v) <= e.
Proof. intros f g u v e H If Ig. apply (integral01_bound (fun t => f t - g t)); [exact H|apply integral01_minus; assumption]. Qed.
Lemma integral4_diff : forall F G u v e, (forall s t, in_open_square s -> in_open_square t -> Rabs (F s t - G s t) <= e) -> integral4 F u -> integral4 G v -> Rabs (u - v) <= e.
Proof.
  intros F G u v e H [a3 [a2 [a1 [A3 [A2 [A1 A0]]]]]] [b3 [b2 [b1 [B3 [B2 [B1 B0]]]]]].
  apply (integral01_diff a1 b1 u v e); [|exact A0|exact B0]. intros s1 I1. unfold inside in *.
  apply (integral01_diff (a2 s1) (b2 s1)); [|apply A1; lra|apply B1; lra]. intros s2 I2. unfold inside in *.
  apply (integral01_diff (a3 s1 s2) (b3 s1 s2)); [|apply A2; lra|apply B2; lra]. intros t1 I3. unfold inside in *.
  apply (integral01_diff (fun t2 => F (s1, s2) (t1, t2)) (fun t2 => G (s1, s2) (t1, t2))); [|apply A3; lra|apply B3; lra]. intros t2 I4. unfold inside in *.
  apply H; split; cbn [fst snd]; lra.
Qed.
Lemma integral4_scal : forall c F v, integral4 F v -> integral4 (fun s t => c * F s t) (c * v).
Proof.
  intros c F v [a3 [a2 [a1 [A3 [A2 [A1 A0]]]]]]. exists (fun s1 s2 t1 => c * a3 s1 s2 t1), (fun s1 s2 => c * a2 s1 s2), (fun s1 => c * a1 s1).
  repeat split; intros; apply integral01_scal; auto.
Qed.
Lemma integral01_scal_r : forall c f u, integral01 f u -> integral01 (fun t => f t * c) (u * c).
Proof. intros c f u I. rewrite Rmult_comm. apply (integral01_ext (fun t => c * f t)); [intros; ring|apply integral01_scal, I]. Qed.
Lemma integral4_prod : forall f1 f2 g1 g2 a b c d, integral01 f1 a -> integral01 f2 b -> integral01 g1 c -> integral01 g2 d ->
  integral4 (fun s t => f1 (fst s) * f2 (snd s) * g1 (fst t) * g2 (snd t)) (a * b * c * d).
Proof.
  intros f1 f2 g1 g2 a b c d I1 I2 I3 I4. exists (fun s1 s2 t1 => f1 s1 * f2 s2 * g1 t1 * d), (fun s1 s2 => f1 s1 * f2 s2 * c * d), (fun s1 => f1 s1 * b * c * d). split; [|split; [|split]]; intros; cbn [fst snd].
  - apply integral01_scal, I4.
  - apply integral01_scal_r, integral01_scal, I3.
  - do 2 apply integral01_scal_r. apply integral01_scal, I2.
  - do 3 apply integral01_scal_r. exact I1.
Qed.
Lemma integral4_rsum : forall n (F : nat -> R * R -> R * R -> R) v, (forall i, (i < n)%nat -> integral4 (F i) (v i)) -> integral4 (fun s t => rsum (fun i => F i s t) n) (rsum v n).
Proof.
  induction n as [|n IH]; intros F v H; cbn [rsum]; [apply integral4_zero|]. apply integral4_plus; [apply IH; intros; apply H; lia|apply H; lia].
Qed.
(** one dimension *)
Lemma gauss_error : forall d x w B f v, exact_rule d x w -> positive_rule x w -> (0 < d)%nat -> derivative_bounded d B f -> integral01 f v -> Rabs (quad x w f - v) <= 2 * cheb_error d B.
Proof.
  intros d x w B f v HE HP Hd Df I. set (g := interpolant d (chebychev d) (fun i => f (chebychev d i))).
  assert (Pg : polynomial d g) by (unfold g, interpolant; apply poly_sum; intros i Hi; apply poly_scal, lagrange_poly, Hi).
  destruct (poly_integrable d g Pg) as [u Iu]. pose proof (exact_poly d x w g u HE Pg Iu) as Q.
  assert (E : forall t, inside t -> Rabs (f t - g t) <= cheb_error d B) by (intros t It; apply cheb_interpolation; assumption).
  assert (A1 : Rabs (quad x w f - quad x w g) <= cheb_error d B) by (rewrite <- quad_minus; apply quad_bound; [exact HP|intros; apply E; assumption]).
  assert (A2 : Rabs (u - v) <= cheb_error d B) by (apply (integral01_diff g f); [intros t It; rewrite Rabs_minus_sym; apply E, It|exact Iu|exact I]).
  rewrite Q in A1. replace (quad x w f - v) with ((quad x w f - u) + (u - v)) by ring. eapply Rle_trans; [apply Rabs_triang|]. lra.
Qed.
(** four dimensions *)
Lemma interpolated_poly : forall d x w m p (X : nat -> R) K f1 f2 g1 g2, exact_rule d x w -> (0 < m)%nat -> (m + p <= d)%nat ->
  polynomial (p + 1) f1 -> polynomial (p + 1) f2 -> polynomial (p + 1) g1 -> polynomial (p + 1) g2 ->
  integral4 (fun s t => interpolated m X K s t * (f1 (fst s) * f2 (snd s) * g1 (fst t) * g2 (snd t))) (L4 x w (fun a b e f => interpolated m X K (a, b) (e, f) * (f1 a * f2 b * g1 e * g2 f))).
Proof.
  intros d x w m p X K f1 f2 g1 g2 HE Hm Hd P1 P2 P3 P4.
  assert (Pl : forall i f, (i < m)%nat -> polynomial (p + 1) f -> integral01 (fun t => lagrange m X i t * f t) (quad x w (fun t => lagrange m X i t * f t))).
  { intros i f Hi Pf. assert (Pp : polynomial d (fun t => lagrange m X i t * f t)).
    { apply (poly_mono (m + p)); [exact Hd|]. apply poly_mult; [apply lagrange_poly, Hi|]. replace (S p) with (p + 1)%nat by lia. exact Pf. }
    destruct (poly_integrable d _ Pp) as [v Iv]. rewrite (exact_poly d x w _ v HE Pp Iv). exact Iv. }
  set (T := fun i j i' j' (s t : R * R) => K (X i, X j) (X i', X j') * ((lagrange m X i (fst s) * f1 (fst s)) * (lagrange m X j (snd s) * f2 (snd s)) * (lagrange m X i' (fst t) * g1 (fst t)) * (lagrange m X j' (snd t) * g2 (snd t)))).
  assert (E0 : forall s t, rsum (fun i => rsum (fun j => rsum (fun i' => rsum (fun j' => T i j i' j' s t) m) m) m) m = interpolated m X K s t * (f1 (fst s) * f2 (snd s) * g1 (fst t) * g2 (snd t))).
  { intros s t. unfold interpolated, T. rewrite <- rsum_scal_r. apply rsum_ext; intros i _. rewrite <- rsum_scal_r. apply rsum_ext; intros j _. rewrite <- rsum_scal_r. apply rsum_ext; intros i' _.
    rewrite <- rsum_scal_r. apply rsum_ext; intros j' _. ring. }
  assert (EL : L4 x w (fun a b e f => interpolated m X K (a, b) (e, f) * (f1 a * f2 b * g1 e * g2 f)) =
    rsum (fun i => rsum (fun j => rsum (fun i' => rsum (fun j' => K (X i, X j) (X i', X j') * (quad x w (fun t => lagrange m X i t * f1 t) * quad x w (fun t => lagrange m X j t * f2 t) * quad x w (fun t => lagrange m X i' t * g1 t) * quad x w (fun t => lagrange m X j' t * g2 t))) m) m) m) m).
  { transitivity (L4 x w (fun a b e f => rsum (fun i => rsum (fun j => rsum (fun i' => rsum (fun j' => T i j i' j' (a, b) (e, f)) m) m) m) m)); [apply L4_ext; intros; symmetry; apply (E0 (a, b) (e, f))|].
    assert (LS : forall n (F : nat -> fun4), L4 x w (fun a b e f => rsum (fun c => F c a b e f) n) = rsum (fun c => L4 x w (F c)) n).
    { induction n as [|n IH]; intros F; cbn [rsum]; [|rewrite L4_plus, IH; reflexivity].
      rewrite (L4_ext _ _ _ (fun _ _ _ _ => 0 * 0)) by (intros; ring). rewrite (L4_scal x w 0 (fun _ _ _ _ => 0)). ring. }
    rewrite LS. apply rsum_ext; intros i _. rewrite LS. apply rsum_ext; intros j _. rewrite LS. apply rsum_ext; intros i' _. rewrite LS. apply rsum_ext; intros j' _.
    unfold T. cbn [fst snd]. rewrite L4_scal. f_equal. apply (L4_prod x w (fun t => lagrange m X i t * f1 t) (fun t => lagrange m X j t * f2 t) (fun t => lagrange m X i' t * g1 t) (fun t => lagrange m X j' t * g2 t)). }
  rewrite EL. apply (integral4_ext (fun s t => rsum (fun i => rsum (fun j => rsum (fun i' => rsum (fun j' => T i j i' j' s t) m) m) m) m)); [exact E0|].
  apply integral4_rsum; intros i Hi. apply integral4_rsum; intros j Hj. apply integral4_rsum; intros i' Hi'. apply integral4_rsum; intros j' Hj'. unfold T.
  apply integral4_scal. apply (integral4_prod (fun t => lagrange m X i t * f1 t) (fun t => lagrange m X j t * f2 t) (fun t => lagrange m X i' t * g1 t) (fun t => lagrange m X j' t * g2 t)); apply Pl; assumption.
Qed.
Lemma quad4_error : forall d x w m p K B f1 f2 g1 g2 S v, exact_rule d x w -> positive_rule x w -> (0 < m)%nat -> (m + p <= d)%nat ->
  polynomial (p + 1) f1 -> polynomial (p + 1) f2 -> polynomial (p + 1) g1 -> polynomial (p + 1) g2 -> kernel_bounded m B K ->
  (forall a b e f, inside a -> inside b -> inside e -> inside f -> Rabs (f1 a * f2 b * g1 e * g2 f) <= S) ->
  integral4 (fun s t => K s t * (f1 (fst s) * f2 (snd s) * g1 (fst t) * g2 (snd t))) v ->
  Rabs (L4 x w (fun a b e f => K (a, b) (e, f) * (f1 a * f2 b * g1 e * g2 f)) - v) <= 2 * (S * cheb_error4 m B).
Proof.
  intros d x w m p K B f1 f2 g1 g2 S v HE HP Hm Hd P1 P2 P3 P4 KB HS I.
  set (PK := interpolated m (chebychev m) K). pose proof (interpolated_poly d x w m p (chebychev m) K f1 f2 g1 g2 HE Hm Hd P1 P2 P3 P4) as IP. fold PK in IP.
  set (u := L4 x w (fun a b e f => PK (a, b) (e, f) * (f1 a * f2 b * g1 e * g2 f))) in *.
  assert (E : forall a b e f, inside a -> inside b -> inside e -> inside f -> Rabs (K (a, b) (e, f) * (f1 a * f2 b * g1 e * g2 f) - PK (a, b) (e, f) * (f1 a * f2 b * g1 e * g2 f)) <= S * cheb_error4 m B).
  { intros a b e f Ia Ib Ie If. pose proof (interpolated_error m B K (a, b) (e, f) Hm KB Ia Ib Ie If) as IE. fold PK in IE. specialize (HS a b e f Ia Ib Ie If).
    replace (K (a, b) (e, f) * (f1 a * f2 b * g1 e * g2 f) - PK (a, b) (e, f) * (f1 a * f2 b * g1 e * g2 f)) with (- ((f1 a * f2 b * g1 e * g2 f) * (PK (a, b) (e, f) - K (a, b) (e, f)))) by ring.
    rewrite Rabs_Ropp, Rabs_mult. apply Rmult_le_compat; try apply Rabs_pos; assumption. }
  assert (A1 : Rabs (L4 x w (fun a b e f => K (a, b) (e, f) * (f1 a * f2 b * g1 e * g2 f)) - u) <= S * cheb_error4 m B).
  { unfold u. assert (LM : forall F G, L4 x w F - L4 x w G = L4 x w (fun a b e f => F a b e f - G a b e f)).
    { intros F G. transitivity (L4 x w (fun a b e f => F a b e f + -1 * G a b e f)); [rewrite L4_plus, L4_scal; ring|apply L4_ext; intros; ring]. }
    rewrite LM. apply L4_bound; [exact HP|intros; apply E; assumption]. }
  assert (A2 : Rabs (u - v) <= S * cheb_error4 m B).
  { apply (integral4_diff (fun s t => PK s t * (f1 (fst s) * f2 (snd s) * g1 (fst t) * g2 (snd t))) (fun s t => K s t * (f1 (fst s) * f2 (snd s) * g1 (fst t) * g2 (snd t)))); [|exact IP|exact I].
    intros [s1 s2] [t1 t2] [A1' A2'] [A3' A4']. cbn [fst snd] in *. rewrite Rabs_minus_sym. apply E; assumption. }
  match goal with |- Rabs (?q - v) <= _ => replace (q - v) with ((q - u) + (u - v)) by ring end. eapply Rle_trans; [apply Rabs_triang|]. lra.
Qed.
(** ** functions with iterated integrals: bounded and Lipschitz in the four coordinates *)
Definition gap4 (s t s' t' : R * R) : R := Rabs (fst s - fst s') + Rabs (snd s - snd s') + Rabs (fst t - fst t') + Rabs (snd t - snd t').
Definition lip4 (G : R * R -> R * R -> R) : Prop := exists C L, 0 <= C /\ 0 <= L /\
  (forall s t, in_square s -> in_square t -> Rabs (G s t) <= C) /\
  (forall s t s' t', in_square s -> in_square t -> in_square s' -> in_square t' -> Rabs (G s t - G s' t') <= L * gap4 s t s' t').
Lemma gap4_nonneg : forall s t s' t', 0 <= gap4 s t s' t'.
Proof. intros. unfold gap4. pose proof (Rabs_pos (fst s - fst s')). pose proof (Rabs_pos (snd s - snd s')). pose proof (Rabs_pos (fst t - fst t')). pose proof (Rabs_pos (snd t - snd t')). lra. Qed.
Lemma lip4_mult : forall F G, lip4 F -> lip4 G -> lip4 (fun s t => F s t * G s t).
Proof.
  intros F G [C1 [L1 [HC1 [HL1 [F1 F2]]]]] [C2 [L2 [HC2 [HL2 [G1 G2]]]]]. exists (C1 * C2), (L1 * C2 + C1 * L2). split; [apply Rmult_le_pos; assumption|]. split.
  { pose proof (Rmult_le_pos _ _ HL1 HC2). pose proof (Rmult_le_pos _ _ HC1 HL2). lra. }
  split; [intros; rewrite Rabs_mult; apply Rmult_le_compat; auto using Rabs_pos|].
  intros s t s' t' Is It Is' It'. specialize (F2 s t s' t' Is It Is' It'). specialize (G2 s t s' t' Is It Is' It'). specialize (G1 s t Is It). specialize (F1 s' t' Is' It').
  replace (F s t * G s t - F s' t' * G s' t') with ((F s t - F s' t') * G s t + F s' t' * (G s t - G s' t')) by ring. eapply Rle_trans; [apply Rabs_triang|]. rewrite !Rabs_mult. rewrite Rmult_plus_distr_r. apply Rplus_le_compat.
  - replace (L1 * C2 * gap4 s t s' t') with (L1 * gap4 s t s' t' * C2) by ring. apply Rmult_le_compat; auto using Rabs_pos.
  - rewrite (Rmult_assoc C1). apply Rmult_le_compat; auto using Rabs_pos.
Qed.
Lemma lip4_const : forall c, lip4 (fun _ _ => c).
Proof. intros c. exists (Rabs c), 0. pose proof (Rabs_pos c). split; [assumption|]. split; [lra|]. split; [intros; lra|]. intros. rewrite Rminus_diag_eq, Rabs_R0 by reflexivity. rewrite Rmult_0_l. lra. Qed.
Lemma lip4_ext : forall F G, (forall s t, F s t = G s t) -> lip4 F -> lip4 G.
Proof. intros F G E [C [L [HC [HL [F1 F2]]]]]. exists C, L. split; [exact HC|]. split; [exact HL|]. split; intros; rewrite <- !E; auto. Qed.
Lemma lip4_fun : forall f, (exists C L, 0 <= C /\ 0 <= L /\ (forall u, 0 <= u <= 1 -> Rabs (f u) <= C) /\ (forall u v, 0 <= u <= 1 -> 0 <= v <= 1 -> Rabs (f u - f v) <= L * Rabs (u - v))) ->
  lip4 (fun s _ => f (fst s)) /\ lip4 (fun s _ => f (snd s)) /\ lip4 (fun _ t => f (fst t)) /\ lip4 (fun _ t => f (snd t)).
Proof.
  intros f [C [L [HC [HL [F1 F2]]]]].
  assert (Pr : forall g : R * R -> R * R -> R, (forall s t, in_square s -> in_square t -> 0 <= g s t <= 1) -> (forall s t s' t', Rabs (g s t - g s' t') <= gap4 s t s' t') -> lip4 (fun s t => f (g s t))).
  { intros g G1 G2. exists C, L. split; [exact HC|]. split; [exact HL|]. split; [intros; apply F1, G1; assumption|].
    intros s t s' t' Is It Is' It'. eapply Rle_trans; [apply F2; apply G1; assumption|]. apply Rmult_le_compat_l; [exact HL|apply G2]. }
  assert (Q : forall a b c d : R, 0 <= Rabs a /\ 0 <= Rabs b /\ 0 <= Rabs c /\ 0 <= Rabs d) by (intros; repeat split; apply Rabs_pos).
  split; [|split; [|split]]; apply Pr; try (intros s t [? ?] [? ?]; assumption); intros s t s' t'; unfold gap4; destruct (Q (fst s - fst s') (snd s - snd s') (fst t - fst t') (snd t - snd t')) as [? [? [? ?]]]; lra.
Qed.
Lemma poly_lip : forall d f, polynomial d f -> exists C L, 0 <= C /\ 0 <= L /\ (forall u, 0 <= u <= 1 -> Rabs (f u) <= C) /\ (forall u v, 0 <= u <= 1 -> 0 <= v <= 1 -> Rabs (f u - f v) <= L * Rabs (u - v)).
Proof.
  induction d as [|d IH]; intros f Pf.
  - exists 0, 0. assert (Z : forall t, f t = 0) by (apply poly_0, Pf). split; [lra|]. split; [lra|]. split; intros; rewrite !Z; rewrite ?Rminus_0_r, Rabs_R0; lra.
  - apply poly_S in Pf. destruct Pf as [c [q [Pq E]]]. destruct (IH q Pq) as [C [L [HC [HL [Q1 Q2]]]]]. exists (Rabs c + C), (C + L). pose proof (Rabs_pos c). split; [lra|]. split; [lra|]. split.
    + intros u Hu. rewrite E. eapply Rle_trans; [apply Rabs_triang|]. apply Rplus_le_compat_l. rewrite Rabs_mult, (Rabs_right u) by lra. specialize (Q1 u Hu). pose proof (Rabs_pos (q u)). nra.
    + intros u v Hu Hv. rewrite !E. replace (c + u * q u - (c + v * q v)) with ((u - v) * q u + v * (q u - q v)) by ring. eapply Rle_trans; [apply Rabs_triang|]. rewrite !Rabs_mult, (Rabs_right v) by lra.
      specialize (Q1 u Hu). specialize (Q2 u v Hu Hv). pose proof (Rabs_pos (u - v)). pose proof (Rabs_pos (q u - q v)). rewrite Rmult_plus_distr_r. apply Rplus_le_compat.
      * rewrite Rmult_comm. apply Rmult_le_compat_r; assumption.
      * eapply Rle_trans; [|exact Q2]. rewrite <- (Rmult_1_l (Rabs (q u - q v))) at 2. apply Rmult_le_compat_r; lra.
Qed.
Definition clip (t : R) : R := Rmax 0 (Rmin 1 t).
Lemma clip_range : forall t, 0 <= clip t <= 1.
Proof. intros t. unfold clip, Rmax, Rmin. destruct (Rle_dec 1 t); destruct (Rle_dec 0 _); lra. Qed.
Lemma clip_id : forall t, 0 <= t <= 1 -> clip t = t.
Proof. intros t Ht. unfold clip. rewrite Rmin_right, Rmax_right by lra. reflexivity. Qed.
Lemma clip_lip : forall u v, Rabs (clip u - clip v) <= Rabs (u - v).
Proof. intros u v. unfold clip, Rmax, Rmin. repeat (destruct (Rle_dec _ _)); unfold Rabs; repeat (destruct (Rcase_abs _)); lra. Qed.
Lemma lip_integrable : forall f L, 0 <= L -> (forall u v, 0 <= u <= 1 -> 0 <= v <= 1 -> Rabs (f u - f v) <= L * Rabs (u - v)) -> exists v, integral01 f v.
Proof.
  intros f L HL H. assert (Ex : ex_RInt (fun t => f (clip t)) 0 1).
  { apply (ex_RInt_continuous (V := R_CompleteNormedModule)). intros z _. apply continuity_pt_filterlim.
    intros eps He. exists (eps / (L + 1)). split; [apply Rdiv_lt_0_compat; lra|]. intros x [_ Dx]. unfold dist in *. simpl in *. unfold R_dist in *.
    eapply Rle_lt_trans; [apply H; apply clip_range|]. apply Rle_lt_trans with ((L + 1) * Rabs (x - z)).
    - pose proof (clip_lip x z). pose proof (Rabs_pos (clip x - clip z)). apply Rmult_le_compat; lra.
    - apply Rmult_lt_reg_l with (/ (L + 1)); [apply Rinv_0_lt_compat; lra|]. rewrite <- Rmult_assoc, Rinv_l, Rmult_1_l by lra. rewrite Rmult_comm. exact Dx. }
  destruct Ex as [v Iv]. exists v. apply (integral01_ext (fun t => f (clip t))); [intros t Ht; rewrite clip_id by exact Ht; reflexivity|exact Iv].
Qed.
Lemma lip_integral : forall (F : R -> R -> R) (g : R -> R) L u v, 0 <= L -> 0 <= u <= 1 -> 0 <= v <= 1 -> (forall t, 0 <= t <= 1 -> Rabs (F u t - F v t) <= L * Rabs (u - v)) -> integral01 (F u) (g u) -> integral01 (F v) (g v) ->
  Rabs (g u - g v) <= L * Rabs (u - v).
Proof. intros F g L u v HL Hu Hv H I J. apply (integral01_diff (F u) (F v)); [intros t It; unfold inside in It; apply H; lra|exact I|exact J]. Qed.
Lemma lip4_integrable : forall G, lip4 G -> exists v, integral4 G v.
Proof.
  intros G [C [L [HC [HL [G1 G2]]]]].
  set (g3 := fun s1 s2 t1 => RInt (fun t2 => G (s1, s2) (t1, t2)) 0 1). set (g2 := fun s1 s2 => RInt (g3 s1 s2) 0 1). set (g1 := fun s1 => RInt (g2 s1) 0 1).
  assert (Z : forall a : R, Rabs (a - a) = 0) by (intros a; rewrite Rminus_diag_eq by reflexivity; apply Rabs_R0).
  assert (Sq : forall a b, 0 <= a <= 1 -> 0 <= b <= 1 -> in_square (a, b)) by (intros a b Ha Hb; split; assumption).
  assert (Cor : forall f v, integral01 f v -> integral01 f (RInt f 0 1)) by (intros f v I; rewrite (is_RInt_unique f 0 1 v I); exact I).
  assert (I3 : forall s1 s2 t1, 0 <= s1 <= 1 -> 0 <= s2 <= 1 -> 0 <= t1 <= 1 -> integral01 (fun t2 => G (s1, s2) (t1, t2)) (g3 s1 s2 t1)).
  { intros s1 s2 t1 H1 H2 H3. destruct (lip_integrable (fun t2 => G (s1, s2) (t1, t2)) L HL) as [v I]; [|apply (Cor _ v I)]. intros u v Hu Hv.
    eapply Rle_trans; [apply G2; apply Sq; assumption|]. unfold gap4. cbn [fst snd]. rewrite !Z. apply Rmult_le_compat_l; lra. }
  assert (D3 : forall s1 s2 t1 s1' s2' t1', 0 <= s1 <= 1 -> 0 <= s2 <= 1 -> 0 <= t1 <= 1 -> 0 <= s1' <= 1 -> 0 <= s2' <= 1 -> 0 <= t1' <= 1 ->
    Rabs (g3 s1 s2 t1 - g3 s1' s2' t1') <= L * (Rabs (s1 - s1') + Rabs (s2 - s2') + Rabs (t1 - t1'))).
  { intros s1 s2 t1 s1' s2' t1' H1 H2 H3 H1' H2' H3'. apply (integral01_diff (fun t2 => G (s1, s2) (t1, t2)) (fun t2 => G (s1', s2') (t1', t2))); [|apply I3; assumption|apply I3; assumption].
    intros t It. unfold inside in It. eapply Rle_trans; [apply G2; apply Sq; lra|]. unfold gap4. cbn [fst snd]. rewrite !Z. apply Rmult_le_compat_l; lra. }
  assert (I2 : forall s1 s2, 0 <= s1 <= 1 -> 0 <= s2 <= 1 -> integral01 (g3 s1 s2) (g2 s1 s2)).
  { intros s1 s2 H1 H2. destruct (lip_integrable (g3 s1 s2) L HL) as [v I]; [|apply (Cor _ v I)]. intros u v Hu Hv. eapply Rle_trans; [apply D3; assumption|]. rewrite !Z. apply Rmult_le_compat_l; lra. }
  assert (D2 : forall s1 s2 s1' s2', 0 <= s1 <= 1 -> 0 <= s2 <= 1 -> 0 <= s1' <= 1 -> 0 <= s2' <= 1 -> Rabs (g2 s1 s2 - g2 s1' s2') <= L * (Rabs (s1 - s1') + Rabs (s2 - s2'))).
  { intros s1 s2 s1' s2' H1 H2 H1' H2'. apply (integral01_diff (g3 s1 s2) (g3 s1' s2')); [|apply I2; assumption|apply I2; assumption].
    intros t It. unfold inside in It. eapply Rle_trans; [apply D3; lra|]. rewrite !Z. apply Rmult_le_compat_l; lra. }
  assert (I1 : forall s1, 0 <= s1 <= 1 -> integral01 (g2 s1) (g1 s1)).
  { intros s1 H1. destruct (lip_integrable (g2 s1) L HL) as [v I]; [|apply (Cor _ v I)]. intros u v Hu Hv. eapply Rle_trans; [apply D2; assumption|]. rewrite !Z. apply Rmult_le_compat_l; lra. }
  assert (D1 : forall s1 s1', 0 <= s1 <= 1 -> 0 <= s1' <= 1 -> Rabs (g1 s1 - g1 s1') <= L * Rabs (s1 - s1')).
  { intros s1 s1' H1 H1'. apply (integral01_diff (g2 s1) (g2 s1')); [|apply I1; assumption|apply I1; assumption].
    intros t It. unfold inside in It. eapply Rle_trans; [apply D2; lra|]. rewrite !Z. apply Rmult_le_compat_l; lra. }
  destruct (lip_integrable g1 L HL D1) as [v I0]. exists v, g3, g2, g1. repeat split; assumption.
Qed.
