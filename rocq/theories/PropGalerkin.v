(** C79: the entries of the compressed matrix against the exact integrals of the boundary element method. *)
From Coq Require Import Reals Lra Lia Arith Bool List ZArith QArith Qreals.
From Coquelicot Require Import Coquelicot.
From Verif Require Import RSum SpecBernstein ModelBase ModelBernstein ProofBernstein ModelTree ModelBall ModelBlock ModelH2 ModelInterp ModelH2Init ModelQuad ModelAssembly ModelDuffy SpecTree SpecMesh SpecBall SpecQuad SpecInterp
  ProofTree ProofTreeWF ProofTreeHist ProofTreeGeo ProofTreeLook ProofPoints ProofMoment ProofInterp ProofBall PropTree PropBlock PropTopo PropConform PropBall PropH2 PropAssembly ProofH2Entry PropInterp SpecDuffy ProofDuffy ProofDuffyInt PropCompare ModelOperators SpecOperators ProofOperators PropOperators ProofNearFar PropNearFar
  SpecBlock SpecCheb ProofCheb ProofLegendre PropCheb SpecFlat ProofGegenbauer PropFarLaplace PropFarDouble ProofBezier PropQuad ProofGaussErr.
Local Close Scope Q_scope.
Import ListNotations.
Local Open Scope R_scope.

(** the error of a rule with positive weights that integrates polynomials of degree less than d exactly *)
Theorem C79_gauss_error : forall d xi w B f v, exact_rule d xi w -> positive_rule xi w -> (0 < d)%nat -> derivative_bounded d B f -> integral01 f v ->
  Rabs (quad xi w f - v) <= 4 * B / (4 ^ d * INR (fact d)).
Proof.
  intros d xi w B f v HE HP Hd D I. eapply Rle_trans; [apply (gauss_error d xi w B f v HE HP Hd D I)|]. unfold cheb_error, Rdiv. lra.
Qed.

Lemma node_point : forall X a n s w, node_ok a n -> p_f (surf_point X n s w) = element_point (points_of X) a s.
Proof.
  intros X a n s w K. destruct (nk_llc _ _ K) as [L1 L2]. assert (H2 : 2 ^ pos_level a <> 0) by (apply pow_nonzero; lra).
  unfold element_point, points_of, surf_point. cbn [p_f]. rewrite width, (nk_level _ _ K), (nk_patch _ _ K), (Q2R_llc _ _ _ L1), (Q2R_llc _ _ _ L2). do 3 f_equal. apply f_equal2; field; exact H2.
Qed.
Lemma vsub_tri : forall u v m : vec3, vnorm (vsub u m) <= vnorm (vsub u v) + vnorm (vsub v m).
Proof. intros u v m. rewrite <- !dist_norm. apply dist_tri. Qed.
Lemma norm_diff : forall u v : vec3, Rabs (vnorm u - vnorm v) <= vnorm (vsub u v).
Proof.
  intros u v. assert (T : forall x y : vec3, vnorm x <= vnorm (vsub x y) + vnorm y).
  { intros x y. replace (vnorm x) with (vnorm (vadd (vsub x y) y)); [apply vtriangle|]. f_equal. unfold vadd, vsub, vx, vy, vz. destruct x as [[x1 x2] x3]. cbn [fst snd]. apply f_equal2; [apply f_equal2|]; ring. }
  pose proof (T u v). pose proof (T v u) as T2. rewrite <- dist_norm, dist_sym, dist_norm in T2. apply Rabs_le. lra.
Qed.
(** a vector valued function that is Lipschitz and stays away from the origin *)
Section Lip.
Variables (v : R * R -> R * R -> vec3) (d L : R).
Hypothesis Hd : 0 < d.
Hypothesis HL : 0 <= L.
Hypothesis away : forall s t, in_square s -> in_square t -> d <= vnorm (v s t).
Hypothesis lip : forall s t s' t', in_square s -> in_square t -> in_square s' -> in_square t' -> vnorm (vsub (v s t) (v s' t')) <= L * gap4 s t s' t'.
Lemma inv_lip : lip4 (fun s t => / vnorm (v s t)).
Proof.
  exists (/ d), (L / (d * d)). assert (Id : 0 < / d) by (apply Rinv_0_lt_compat; exact Hd). split; [lra|]. split; [apply Rmult_le_pos; [exact HL|]; apply Rlt_le, Rinv_0_lt_compat; nra|]. split.
  - intros s t Is It. specialize (away s t Is It). rewrite Rabs_right by (apply Rle_ge, Rlt_le, Rinv_0_lt_compat; lra). apply Rinv_le_contravar; assumption.
  - intros s t s' t' Is It Is' It'. pose proof (away s t Is It) as A1. pose proof (away s' t' Is' It') as A2. pose proof (lip s t s' t' Is It Is' It') as Lp.
    set (a := vnorm (v s t)) in *. set (c := vnorm (v s' t')) in *. assert (D : Rabs (c - a) <= L * gap4 s t s' t'). { eapply Rle_trans; [|exact Lp]. rewrite Rabs_minus_sym. apply norm_diff. }
    replace (/ a - / c) with ((c - a) * (/ a * / c)) by (field; lra). rewrite Rabs_mult. unfold Rdiv.
    assert (P1 : 0 < / a <= / d) by (split; [apply Rinv_0_lt_compat; lra|apply Rinv_le_contravar; assumption]). assert (P2 : 0 < / c <= / d) by (split; [apply Rinv_0_lt_compat; lra|apply Rinv_le_contravar; assumption]).
    rewrite (Rabs_right (/ a * / c)) by (apply Rle_ge, Rmult_le_pos; lra). rewrite Rinv_mult. replace (L * (/ d * / d) * gap4 s t s' t') with (L * gap4 s t s' t' * (/ d * / d)) by ring.
    apply Rmult_le_compat; [apply Rabs_pos|apply Rmult_le_pos; lra|exact D|apply Rmult_le_compat; lra].
Qed.
Lemma gap4_le : forall s t s' t', in_square s -> in_square t -> in_square s' -> in_square t' -> gap4 s t s' t' <= 4.
Proof.
  intros s t s' t' [? ?] [? ?] [? ?] [? ?]. unfold gap4. assert (A : forall x y : R, 0 <= x <= 1 -> 0 <= y <= 1 -> Rabs (x - y) <= 1) by (intros; apply Rabs_le; lra).
  pose proof (A (fst s) (fst s')). pose proof (A (snd s) (snd s')). pose proof (A (fst t) (fst t')). pose proof (A (snd t) (snd t')). lra.
Qed.
Lemma dot_lip : forall m, lip4 (fun s t => vdot (v s t) m).
Proof.
  intros m. set (z := (0, 0) : R * R). assert (Z : in_square z) by (split; cbn; lra). exists ((vnorm (v z z) + L * 4) * vnorm m), (L * vnorm m). pose proof (vnorm_nonneg m) as Nm. pose proof (vnorm_nonneg (v z z)).
  split; [apply Rmult_le_pos; lra|]. split; [apply Rmult_le_pos; lra|]. split.
  - intros s t Is It. eapply Rle_trans; [apply cauchy|]. apply Rmult_le_compat_r; [exact Nm|]. pose proof (lip s t z z Is It Z Z) as Lp. pose proof (gap4_le s t z z Is It Z Z) as G. pose proof (norm_diff (v s t) (v z z)) as D.
    apply Rabs_le_between in D. assert (L * gap4 s t z z <= L * 4) by (apply Rmult_le_compat_l; assumption). lra.
  - intros s t s' t' Is It Is' It'. replace (vdot (v s t) m - vdot (v s' t') m) with (vdot (vsub (v s t) (v s' t')) m) by (unfold vdot, vsub, vx, vy, vz; cbn [fst snd]; ring).
    eapply Rle_trans; [apply cauchy|]. replace (L * vnorm m * gap4 s t s' t') with (L * gap4 s t s' t' * vnorm m) by ring. apply Rmult_le_compat_r; [exact Nm|]. apply lip; assumption.
Qed.
End Lip.
Lemma shape_lip : forall p i j, (i < (p + 1) * (p + 1))%nat -> (j < (p + 1) * (p + 1))%nat -> lip4 (fun s t => shape p i s * shape p j t).
Proof.
  intros p i j Hi Hj.
  assert (B : forall m, (m <= p)%nat -> lip4 (fun s _ => bern p m (fst s)) /\ lip4 (fun s _ => bern p m (snd s)) /\ lip4 (fun _ t => bern p m (fst t)) /\ lip4 (fun _ t => bern p m (snd t))) by (intros m Hm; apply lip4_fun, (poly_lip (p + 1)), bern_poly, Hm).
  assert (Q : forall q, (q < (p + 1) * (p + 1))%nat -> (q mod (p + 1) <= p /\ q / (p + 1) <= p)%nat) by (intros q Hq; pose proof (Nat.mod_upper_bound q (p + 1) ltac:(lia)); assert (q / (p + 1) < p + 1)%nat by (apply Nat.div_lt_upper_bound; lia); lia).
  destruct (Q i Hi) as [I1 I2], (Q j Hj) as [J1 J2]. unfold shape. apply lip4_mult; apply lip4_mult; apply B; assumption.
Qed.
Lemma pair_lip : forall X O U V, flat_surface X O U V -> forall n1 n2 d L, 0 < d -> 0 <= L -> side_ok U V n1 L -> side_ok U V n2 L ->
  let v := fun s s' => vsub (p_f (surf_point X n1 s 0)) (p_f (surf_point X n2 s' 0)) in
  (forall s s', in_square s -> in_square s' -> d <= vnorm (v s s')) -> lip4 (fun s s' => / vnorm (v s s')) /\ forall m, lip4 (fun s s' => vdot (v s s') m).
Proof.
  intros X O U V FX n1 n2 d L Hd HL K1 K2 v Aw.
  assert (Lp : forall s u s' u', in_square s -> in_square u -> in_square s' -> in_square u' -> vnorm (vsub (v s u) (v s' u')) <= L * gap4 s u s' u').
  { intros s u s' u' _ _ _ _. unfold v. rewrite !(flat_point X O U V FX). cbn [p_f]. set (h1 := Q2R (get_h n1)) in *. set (h2 := Q2R (get_h n2)) in *. unfold side_ok in K1, K2. fold h1 in K1. fold h2 in K2. destruct K1 as [K11 K12], K2 as [K21 K22].
    match goal with |- vnorm ?z <= _ => replace z with (vadd (vadd (vscal (h1 * (fst s - fst s')) (U (n_patch n1))) (vscal (h1 * (snd s - snd s')) (V (n_patch n1)))) (vadd (vscal (- h2 * (fst u - fst u')) (U (n_patch n2))) (vscal (- h2 * (snd u - snd u')) (V (n_patch n2))))) end.
    2: { unfold vsub, vadd, vscal, vx, vy, vz. cbn [fst snd]. apply f_equal2; [apply f_equal2|]; ring. }
    eapply Rle_trans; [apply vtriangle|]. eapply Rle_trans; [apply Rplus_le_compat; apply vtriangle|]. rewrite !vnorm_scal, !Rabs_mult, Rabs_Ropp. unfold gap4.
    assert (G : forall h q z, Rabs h * q <= L -> Rabs h * Rabs z * q <= L * Rabs z) by (intros h q z Hq; replace (Rabs h * Rabs z * q) with (Rabs h * q * Rabs z) by ring; apply Rmult_le_compat_r; [apply Rabs_pos|exact Hq]).
    pose proof (G h1 _ (fst s - fst s') K11). pose proof (G h1 _ (snd s - snd s') K12). pose proof (G h2 _ (fst u - fst u') K21). pose proof (G h2 _ (snd u - snd u') K22). lra. }
  split; [apply (inv_lip v d L Hd HL Aw Lp)|]. intros m. apply (dot_lip v L HL Lp).
Qed.
Section Pair.
Context {Pt : Type} (close : Pt -> Pt -> bool) (corners : list (list Pt)) (M : nat) (t : tree) (X : surface) (O U V : nat -> vec3)
  (P : list (option vec3)) (b : balls) (mid : addr -> vec3) (rad : addr -> option R).
Hypothesis FS : far_setting close corners M t X O U V P b mid rad.
Lemma element_facts : forall a c e n, t_store t a = Some c -> t_store t e = Some n -> is_leaf t e -> under a e ->
  exists x, b a = Some x /\ 0 <= snd x /\ (forall s, in_square s -> in_ball (p_f (surf_point X n s 0)) x) /\ side_ok U V n (2 * snd x).
Proof.
  intros a c e n Ea Ee Le Ue.
  destruct (C15_balls_enclose_surface_corners Pt close corners _ t (points_of X) (fs_ne _ _ _ _ _ _ _ _ _ _ _ _ FS) (fs_geometry _ _ _ _ _ _ _ _ _ _ _ _ FS) (fs_mesh _ _ _ _ _ _ _ _ _ _ _ _ FS) (fs_fits _ _ _ _ _ _ _ _ _ _ _ _ FS)) as [P' [b' [EP [Eb B]]]].
  rewrite (fs_points _ _ _ _ _ _ _ _ _ _ _ _ FS) in EP. apply some_eq in EP. subst P'. rewrite (fs_balls _ _ _ _ _ _ _ _ _ _ _ _ FS) in Eb. apply some_eq in Eb. subst b'.
  destruct (reachable_wf t (fs_reach _ _ _ _ _ _ _ _ _ _ _ _ FS)) as [[l W] _]. pose proof (wf_node t l W _ n Ee) as K. assert (Ne : e <> []) by (eapply wf_nonroot; [eassumption|congruence]).
  assert (Ex : exists_node t a) by (unfold exists_node; congruence).
  destruct (B a e 0%nat Ex Le Ue ltac:(lia)) as [x [Bx Ix]]. exists x. split; [exact Bx|]. split; [destruct x as [m r]; unfold in_ball in Ix; cbn [fst snd] in *; eapply Rle_trans; [apply dist_pos|exact Ix]|].
  apply (cluster_ball X O U V (fs_flat _ _ _ _ _ _ _ _ _ _ _ _ FS) e n x K Ne). intros k Hk. destruct (B a e k Ex Le Ue Hk) as [y [By Iy]]. rewrite Bx in By. apply some_eq in By. subst y. exact Iy.
Qed.
(** a far-field block: the distance of the points of two elements below its clusters, and functions of their difference *)
Lemma block_pair : forall o eta mincl n xi w ja jm H B a1 a2 n1 n2 c1 c2, h2_init o t (near_of mid rad eta) mincl n xi w ja jm = Some H ->
  In B (leaves (h_blocks H)) -> b_cc B = LowRank -> t_store t (b_c1 B) = Some c1 -> t_store t (b_c2 B) = Some c2 -> 0 < eta ->
  t_store t a1 = Some n1 -> t_store t a2 = Some n2 -> is_leaf t a1 -> is_leaf t a2 -> under (b_c1 B) a1 -> under (b_c2 B) a2 ->
  exists x1 x2, b (b_c1 B) = Some x1 /\ b (b_c2 B) = Some x2 /\ let d := dist3 (fst x1) (fst x2) - snd x1 - snd x2 in 0 < d /\
    let v := fun s s' => vsub (p_f (surf_point X n1 s 0)) (p_f (surf_point X n2 s' 0)) in
    (forall s s', in_square s -> in_square s' -> d <= vnorm (v s s')) /\
    (forall m phi D, line_property m phi (2 * eta * d) d D -> kernel_bounded m D (fun s s' => phi (v s s'))) /\
    lip4 (fun s s' => / vnorm (v s s')) /\ forall m, lip4 (fun s s' => vdot (v s s') m).
Proof.
  intros o eta mincl n xi w ja jm H B a1 a2 n1 n2 c1 c2 EH HB Hlr Ec1 Ec2 He S1 S2 L1 L2 U1 U2. pose proof (fs_reach close corners M t X O U V P b mid rad FS) as Re.
  destruct (h2_init_facts _ _ _ _ _ _ _ _ _ _ EH) as [_ [_ [Eb _]]]. destruct (reachable_wf t Re) as [[l W] HP].
  destruct (block_tree_ok t l (near_of mid rad eta) mincl W HP) as [bt' [E' H']]. rewrite Eb in E'. apply some_eq in E'. subst bt'.
  destruct (H' B HB) as [_ [_ [_ [Cc _]]]]. rewrite Hlr in Cc. unfold compare_cluster in Cc.
  destruct (near_of mid rad eta (b_c1 B) (b_c2 B)) eqn:En; [destruct (_ <=? _)%Z in Cc; discriminate|].
  destruct (element_facts _ _ a1 n1 Ec1 S1 L1 U1) as [x1 [B1 [R1 [In1 Sd1]]]]. destruct (element_facts _ _ a2 n2 Ec2 S2 L2 U2) as [x2 [B2 [R2 [In2 Sd2]]]].
  destruct (near_false close corners M t X O U V P b mid rad FS eta _ _ x1 x2 B1 B2 R1 R2 En) as [A1 A2]. exists x1, x2. split; [exact B1|]. split; [exact B2|]. cbv zeta. set (d := dist3 (fst x1) (fst x2) - snd x1 - snd x2) in *.
  assert (Hd : 0 < d) by (unfold d; lra). split; [exact Hd|]. pose proof (Rmax_l (snd x1) (snd x2)). pose proof (Rmax_r (snd x1) (snd x2)).
  pose proof (fs_flat _ _ _ _ _ _ _ _ _ _ _ _ FS) as FX.
  assert (K1 : side_ok U V n1 (2 * eta * d)) by (split; destruct Sd1; lra). assert (K2 : side_ok U V n2 (2 * eta * d)) by (split; destruct Sd2; lra).
  set (v := fun s s' => vsub (p_f (surf_point X n1 s 0)) (p_f (surf_point X n2 s' 0))).
  assert (Aw : forall s s', in_square s -> in_square s' -> d <= vnorm (v s s')).
  { intros s s' Is Is'. unfold v, d. destruct x1 as [m1 r1], x2 as [m2 r2]. cbn [fst snd] in *. apply balls_apart; [apply In1, Is|apply In2, Is']. }
  split; [exact Aw|]. split.
  { intros m phi D LP. apply (flat_line X O U V FX m n1 n2 d (2 * eta * d)); [exact K1|exact K2| |exact LP]. intros s s' Is Is'. apply Aw; apply open_closed; assumption. }
  apply (pair_lip X O U V FX n1 n2 d (2 * eta * d) Hd); try assumption. apply Rmult_le_pos; lra.
Qed.
(** the quadrature of integrate1 against the integral, for a function of the difference of the points *)
Lemma quadrature_pair : forall op ss dq m xi w E1 E2 i j (K : R * R -> R * R -> R) B, ss_M ss = M -> e_h E1 = ss_h ss -> exact_rule dq xi w -> positive_rule xi w -> (0 < m)%nat -> (m + ss_p ss <= dq)%nat ->
  (i < ss_n2 ss)%nat -> (j < ss_n2 ss)%nat -> kernel_bounded m B K -> lip4 K ->
  (forall s s', in_square s -> in_square s' -> op_kern op ss X E1 s E2 s' i j = K s s' * (shape (ss_p ss) i s * shape (ss_p ss) j s')) ->
  exists v, integral4 (fun s s' => K s s' * (shape (ss_p ss) i s * shape (ss_p ss) j s')) v /\
    Rabs (integrate1 (op_kern op ss X) E1 E2 (tensor_rule (xi, w)) i j - ss_h ss * ss_h ss * v) <= ss_h ss * ss_h ss * (2 * cheb_error4 m B).
Proof.
  intros op ss dq m xi w E1 E2 i j K B HM Eh HE HP Hm Hd Hi Hj KB LK HK.
  destruct (lip4_integrable _ (lip4_mult _ _ LK (shape_lip (ss_p ss) i j Hi Hj))) as [v Iv]. exists v. split; [exact Iv|].
  assert (HL : length xi = length w) by apply HP.
  rewrite integrate1_value by exact HL. rewrite Eh.
  assert (EL : L4 xi w (cur (entry (op_kern op ss X) E1 E2 i j)) = L4 xi w (fun a bb e f => K (a, bb) (e, f) * (bern (ss_p ss) (i mod (ss_p ss + 1)) a * bern (ss_p ss) (i / (ss_p ss + 1)) bb * bern (ss_p ss) (j mod (ss_p ss + 1)) e * bern (ss_p ss) (j / (ss_p ss + 1)) f))).
  { apply L4_in; [exact HL|]. intros a bb e f Ha Hb He Hf. unfold cur, entry.
    assert (Q : forall z, In z xi -> 0 <= z <= 1). { intros z Hz. apply (In_nth _ _ 0) in Hz. destruct Hz as [k [Hk <-]]. destruct HP as [[Hl Hx] _]. specialize (Hx k ltac:(lia)). lra. }
    rewrite HK by (split; cbn [fst snd]; auto). unfold shape. cbn [fst snd]. ring. }
  rewrite EL. rewrite <- Rmult_minus_distr_l, Rabs_mult. pose proof (h_pos ss) as Hh. assert (0 <= ss_h ss * ss_h ss) by nra. rewrite (Rabs_right (ss_h ss * ss_h ss)) by lra. apply Rmult_le_compat_l; [assumption|].
  destruct (split_index _ i Hi) as [_ [I1 I2]]. destruct (split_index _ j Hj) as [_ [J1 J2]].
  rewrite <- (Rmult_1_l (cheb_error4 m B)).
  apply (quad4_error dq xi w m (ss_p ss) K B (bern (ss_p ss) (i mod (ss_p ss + 1))) (bern (ss_p ss) (i / (ss_p ss + 1))) (bern (ss_p ss) (j mod (ss_p ss + 1))) (bern (ss_p ss) (j / (ss_p ss + 1))) 1 v HE HP Hm Hd); try (apply bern_poly; assumption); [exact KB| |].
  - assert (Uq : forall q u, (q <= ss_p ss)%nat -> inside u -> 0 <= bern (ss_p ss) q u <= 1) by (intros q u Hq [Q1 Q2]; split; [apply bern_nonneg; lra|apply bern_le_1; [lra|assumption]]).
    intros a bb e f Ia Ib Ie If. pose proof (Uq _ a I2 Ia) as Z1. pose proof (Uq _ bb I1 Ib) as Z2. pose proof (Uq _ e J2 Ie) as Z3. pose proof (Uq _ f J1 If) as Z4.
    assert (T : forall x y, 0 <= x <= 1 -> 0 <= y <= 1 -> 0 <= x * y <= 1) by (intros; split; nra).
    pose proof (T _ _ (T _ _ (T _ _ Z1 Z2) Z3) Z4). rewrite Rabs_right; lra.
  - apply (integral4_ext (fun s s' => K s s' * (shape (ss_p ss) i s * shape (ss_p ss) j s'))); [|exact Iv]. intros s s'. unfold shape. ring.
Qed.
End Pair.
Lemma inverse_line : forall n c d L, 0 < d -> line_property n (fun v => c * / vnorm v) L d (Rabs c * line_bound n L d).
Proof. intros n c d L Hd a b Hb Hq. apply (bounded_scal n _ (fun t => / vnorm (vadd a (vscal t b)))). apply line_bounded; assumption. Qed.
Lemma two_errors : forall A I h2 v e1 e2, Rabs (A - I) <= e1 -> Rabs (I - h2 * v) <= e2 -> Rabs (A - h2 * v) <= e1 + e2.
Proof. intros A I h2 v e1 e2 H1 H2. replace (A - h2 * v) with ((A - I) + (I - h2 * v)) by ring. eapply Rle_trans; [apply Rabs_triang|]. lra. Qed.

(** ** the single layer operator: an entry in a far-field block against h^2 times the integral of the kernel times the two shape functions *)
Theorem C79_single_layer : forall (Pt : Type) (close : Pt -> Pt -> bool) corners M t X O U V P b mid rad, far_setting close corners M t X O U V P b mid rad ->
  forall ss form eta mincl n xi w ja jm H A dq m, 0 < eta -> (0 <= mincl)%Z -> (0 < n)%nat -> ss_M ss = M -> positive_rule xi w ->
  exact_rule dq xi w -> (0 < m)%nat -> (m + ss_p ss <= dq)%nat ->
  h2_init (op_linop laplace_sl ss X form) t (near_of mid rad eta) mincl n xi w ja jm = Some H -> described_by H (length corners) M A ->
  forall B a1 a2 E1 E2 c1 c2 i j, In B (leaves (h_blocks H)) -> b_cc B = LowRank ->
  t_store t a1 = Some (e_node E1) -> t_store t a2 = Some (e_node E2) -> is_leaf t a1 -> is_leaf t a2 ->
  t_store t (b_c1 B) = Some c1 -> t_store t (b_c2 B) = Some c2 -> under (b_c1 B) a1 -> under (b_c2 B) a2 -> (i < ss_n2 ss)%nat -> (j < ss_n2 ss)%nat ->
  let N := (length corners * 4 ^ M)%nat in
  exists v m1 r1 m2 r2,
  integral4 (fun s s' => single_layer_integrand (element_point (points_of X) a1 s) (element_point (points_of X) a2 s') *
    (area U V (pos_patch a1) * area U V (pos_patch a2)) * (shape (ss_p ss) i s * shape (ss_p ss) j s')) v /\
  b (b_c1 B) = Some (m1, r1) /\ b (b_c2 B) = Some (m2, r2) /\ let d := dist3 m1 m2 - r1 - r2 in 0 < d /\
  Rabs (A (row_of (ss_n2 ss) N 0 i (e_node E1)) (row_of (ss_n2 ss) N 0 j (e_node E2)) - ss_h ss * ss_h ss * v)
  <= ss_h ss * ss_h ss * (area U V (pos_patch a1) * area U V (pos_patch a2) / (4 * PI)) * (2 / d) * (growth n * (eta / 2) ^ n + 2 * (growth m * (eta / 2) ^ m)).
Proof.
  intros Pt close corners M t X O U V P b mid rad FS ss form eta mincl n xi w ja jm H A dq m He H0 Hn HM HR HE Hm Hdq EH DA B a1 a2 E1 E2 c1 c2 i j HB Hlr S1 S2 L1 L2 Ec1 Ec2 U1 U2 Hi Hj N.
  destruct (C78_single_layer Pt close corners M t X O U V P b mid rad FS ss form eta mincl n xi w ja jm H A He H0 Hn HM HR EH DA B a1 a2 E1 E2 c1 c2 i j HB Hlr S1 S2 L1 L2 Ec1 Ec2 U1 U2 Hi Hj) as [m1 [r1 [m2 [r2 [B1 [B2 [Hd F]]]]]]]. fold N in F.
  destruct (block_pair close corners M t X O U V P b mid rad FS _ eta mincl n xi w ja jm H B a1 a2 (e_node E1) (e_node E2) c1 c2 EH HB Hlr Ec1 Ec2 He S1 S2 L1 L2 U1 U2) as [x1 [x2 [B1' [B2' [_ [Aw [KB [LI LD]]]]]]]].
  rewrite B1 in B1'. rewrite B2 in B2'. apply some_eq in B1'. apply some_eq in B2'. subst x1 x2. cbn [fst snd] in *. set (d := dist3 m1 m2 - r1 - r2) in *.
  pose proof (fs_flat _ _ _ _ _ _ _ _ _ _ _ _ FS) as FX. pose proof (fs_area _ _ _ _ _ _ _ _ _ _ _ _ FS) as FA. pose proof (fs_four _ _ _ _ _ _ _ _ _ _ _ _ FS) as H4. pose proof (fs_tree _ _ _ _ _ _ _ _ _ _ _ _ FS) as Et.
  destruct (level_patch close corners M t a1 (e_node E1) (b_c1 B) c1 H4 Et S1 L1 Ec1 U1) as [V1 _]. assert (Eh : e_h E1 = ss_h ss) by (unfold e_h, ss_h; rewrite width, V1, HM; reflexivity).
  destruct (reachable_wf t (fs_reach _ _ _ _ _ _ _ _ _ _ _ _ FS)) as [[l W] _]. pose proof (wf_node t l W _ _ S1) as K1. pose proof (wf_node t l W _ _ S2) as K2.
  pose proof (nk_patch _ _ K1) as P1. pose proof (nk_patch _ _ K2) as P2. pose proof PI_RGT_0 as Pp.
  set (k := area U V (pos_patch a1) * area U V (pos_patch a2)). assert (Hk : 0 <= k) by (apply Rmult_le_pos; apply vnorm_nonneg).
  set (c := k * / (4 * PI)). assert (Hc : 0 <= c) by (apply Rmult_le_pos; [exact Hk|apply Rlt_le, Rinv_0_lt_compat; lra]).
  pose proof (KB m _ _ (inverse_line m c d (2 * eta * d) Hd)) as KBm.
  destruct (quadrature_pair M X laplace_sl ss dq m xi w E1 E2 i j _ _ HM Eh HE HR Hm Hdq Hi Hj KBm (lip4_mult _ _ (lip4_const c) LI)) as [v [Iv Q]].
  { intros s s' Is Is'. unfold op_kern. pose proof (C60_near_far Ci laplace_sl ss (surf_point X (e_node E1) s 1) (surf_point X (e_node E2) s' 1) zero_matrix 0 0 i j (some_psi (ss_p ss)) (or_introl eq_refl) (some_psi_ok _) ltac:(intro Z; injection Z; lra)
      (eq_ind_r (fun z => z <> 0) (FA _) (flat_kappa X O U V FX _ _ _)) (eq_ind_r (fun z => z <> 0) (FA _) (flat_kappa X O U V FX _ _ _)) ltac:(cbn; lia) ltac:(cbn; lia) Hi Hj) as NF.
    rewrite !Nat.mul_0_l, !Nat.add_0_l in NF. rewrite NF. unfold zero_matrix. cbn [op_nF laplace_sl rsum op_kinds plain_kinds op_fmm Nat.add Nat.mul]. rewrite !component_plain by apply some_psi_ok. unfold laplace_sl_fmm. rewrite !(flat_kappa X O U V FX), kernel_inverse, P1, P2.
    rewrite !(flat_point X O U V FX). cbn [p_w p_s p_f]. unfold c, k. ring. }
  exists v, m1, r1, m2, r2. split; [|split; [exact B1|split; [exact B2|]]].
  - refine (integral4_ext _ _ _ _ Iv). intros s s'. cbv beta. rewrite (node_point X a1 _ s 0 K1), (node_point X a2 _ s' 0 K2). unfold single_layer_integrand, c. rewrite (Rinv_mult (4 * PI)). fold k.
 ring.
  - cbv zeta. fold d. split; [exact Hd|]. eapply Rle_trans; [exact (two_errors _ _ _ _ _ _ F Q)|]. rewrite P1, P2. fold k. rewrite error4_line by exact Hd. rewrite (Rabs_right c) by lra. unfold c, growth. cbv zeta. apply Req_le. field. lra.
Qed.
Lemma cube_lip : forall (v : R * R -> R * R -> vec3) m c, lip4 (fun s t => / vnorm (v s t)) -> lip4 (fun s t => vdot (v s t) m) -> lip4 (fun s t => c * (vdot (v s t) m * / vnorm (v s t) ^ 3)).
Proof.
  intros v m c LI LD. apply (lip4_ext (fun s t => c * (vdot (v s t) m * (/ vnorm (v s t) * (/ vnorm (v s t) * / vnorm (v s t)))))).
  - intros s t. do 2 f_equal. rewrite <- !Rinv_mult. f_equal. ring.
  - apply (lip4_mult _ _ (lip4_const c)). apply (lip4_mult _ _ LD). apply (lip4_mult _ _ LI). apply (lip4_mult _ _ LI LI).
Qed.
(** ** the double layer operators *)
Theorem C79_double_layer : forall (Pt : Type) (close : Pt -> Pt -> bool) corners M t X O U V P b mid rad, far_setting close corners M t X O U V P b mid rad ->
  forall ss form eta mincl n xi w ja jm H A dq m, 0 < eta -> (0 <= mincl)%Z -> (0 < n)%nat -> ss_M ss = M -> positive_rule xi w ->
  exact_rule dq xi w -> (0 < m)%nat -> (m + ss_p ss <= dq)%nat ->
  h2_init (op_linop laplace_dl ss X form) t (near_of mid rad eta) mincl n xi w ja jm = Some H -> described_by H (length corners) M A ->
  forall B a1 a2 E1 E2 c1 c2 i j, In B (leaves (h_blocks H)) -> b_cc B = LowRank ->
  t_store t a1 = Some (e_node E1) -> t_store t a2 = Some (e_node E2) -> is_leaf t a1 -> is_leaf t a2 ->
  t_store t (b_c1 B) = Some c1 -> t_store t (b_c2 B) = Some c2 -> under (b_c1 B) a1 -> under (b_c2 B) a2 -> (i < ss_n2 ss)%nat -> (j < ss_n2 ss)%nat ->
  let N := (length corners * 4 ^ M)%nat in
  exists v m1 r1 m2 r2,
  integral4 (fun s s' => double_layer_integrand (element_point (points_of X) a1 s) (element_point (points_of X) a2 s') (unit_normal U V (pos_patch a2)) *
    (area U V (pos_patch a1) * area U V (pos_patch a2)) * (shape (ss_p ss) i s * shape (ss_p ss) j s')) v /\
  b (b_c1 B) = Some (m1, r1) /\ b (b_c2 B) = Some (m2, r2) /\ let d := dist3 m1 m2 - r1 - r2 in 0 < d /\
  Rabs (A (row_of (ss_n2 ss) N 0 i (e_node E1)) (row_of (ss_n2 ss) N 0 j (e_node E2)) - ss_h ss * ss_h ss * v)
  <= ss_h ss * ss_h ss * (area U V (pos_patch a1) * area U V (pos_patch a2) / (4 * PI)) * (2 / d ^ 2) * ((INR n + 1) ^ 2 * growth n * (eta / 2) ^ n + 2 * ((INR m + 1) ^ 2 * growth m * (eta / 2) ^ m)).
Proof.
  intros Pt close corners M t X O U V P b mid rad FS ss form eta mincl n xi w ja jm H A dq m He H0 Hn HM HR HE Hm Hdq EH DA B a1 a2 E1 E2 c1 c2 i j HB Hlr S1 S2 L1 L2 Ec1 Ec2 U1 U2 Hi Hj N.
  destruct (C78_double_layer Pt close corners M t X O U V P b mid rad FS ss form eta mincl n xi w ja jm H A He H0 Hn HM HR EH DA B a1 a2 E1 E2 c1 c2 i j HB Hlr S1 S2 L1 L2 Ec1 Ec2 U1 U2 Hi Hj) as [m1 [r1 [m2 [r2 [B1 [B2 [Hd F]]]]]]]. fold N in F.
  destruct (block_pair close corners M t X O U V P b mid rad FS _ eta mincl n xi w ja jm H B a1 a2 (e_node E1) (e_node E2) c1 c2 EH HB Hlr Ec1 Ec2 He S1 S2 L1 L2 U1 U2) as [x1 [x2 [B1' [B2' [_ [Aw [KB [LI LD]]]]]]]].
  rewrite B1 in B1'. rewrite B2 in B2'. apply some_eq in B1'. apply some_eq in B2'. subst x1 x2. cbn [fst snd] in *. set (d := dist3 m1 m2 - r1 - r2) in *.
  pose proof (fs_flat _ _ _ _ _ _ _ _ _ _ _ _ FS) as FX. pose proof (fs_area _ _ _ _ _ _ _ _ _ _ _ _ FS) as FA. pose proof (fs_four _ _ _ _ _ _ _ _ _ _ _ _ FS) as H4. pose proof (fs_tree _ _ _ _ _ _ _ _ _ _ _ _ FS) as Et.
  destruct (level_patch close corners M t a1 (e_node E1) (b_c1 B) c1 H4 Et S1 L1 Ec1 U1) as [V1 _]. assert (Eh : e_h E1 = ss_h ss) by (unfold e_h, ss_h; rewrite width, V1, HM; reflexivity).
  destruct (reachable_wf t (fs_reach _ _ _ _ _ _ _ _ _ _ _ _ FS)) as [[l W] _]. pose proof (wf_node t l W _ _ S1) as K1. pose proof (wf_node t l W _ _ S2) as K2.
  pose proof (nk_patch _ _ K1) as P1. pose proof (nk_patch _ _ K2) as P2. pose proof PI_RGT_0 as Pp.
  set (k := area U V (pos_patch a1) * area U V (pos_patch a2)). assert (Hk : 0 <= k) by (apply Rmult_le_pos; apply vnorm_nonneg).
  set (c := / (4 * PI) * area U V (pos_patch a1)). set (mm := vcross (U (pos_patch a2)) (V (pos_patch a2))).
  assert (Ak : Rabs c * vnorm mm = k / (4 * PI)).
  { unfold c. rewrite Rabs_mult, (Rabs_right (area _ _ _)) by apply Rle_ge, vnorm_nonneg. rewrite Rabs_right by (apply Rle_ge, Rlt_le, Rinv_0_lt_compat; lra). change (vnorm mm) with (area U V (pos_patch a2)). unfold k. field. lra. }
  pose proof (KB m _ _ (cube_line m mm c d (2 * eta * d) Hd)) as KBm.
  destruct (quadrature_pair M X laplace_dl ss dq m xi w E1 E2 i j _ _ HM Eh HE HR Hm Hdq Hi Hj KBm (cube_lip _ mm c LI (LD mm))) as [v [Iv Q]].
  { intros s s' Is Is'. unfold op_kern. pose proof (C60_near_far Ci laplace_dl ss (surf_point X (e_node E1) s 1) (surf_point X (e_node E2) s' 1) zero_matrix 0 0 i j (some_psi (ss_p ss)) (or_intror (or_introl eq_refl)) (some_psi_ok _) ltac:(intro Z; injection Z; lra)
      (eq_ind_r (fun z => z <> 0) (FA _) (flat_kappa X O U V FX _ _ _)) (eq_ind_r (fun z => z <> 0) (FA _) (flat_kappa X O U V FX _ _ _)) ltac:(cbn; lia) ltac:(cbn; lia) Hi Hj) as NF.
    rewrite !Nat.mul_0_l, !Nat.add_0_l in NF. rewrite NF. unfold zero_matrix. cbn [op_nF laplace_dl rsum op_kinds plain_kinds op_fmm Nat.add Nat.mul]. rewrite !component_plain by apply some_psi_ok. unfold laplace_dl_fmm. rewrite dl_kernel_cube, !(flat_kappa X O U V FX), (flat_n X O U V FX), P1, P2.
    rewrite !(flat_point X O U V FX). cbn [p_w p_s p_f]. unfold c, mm. ring. }
  exists v, m1, r1, m2, r2. split; [|split; [exact B1|split; [exact B2|]]].
  - refine (integral4_ext _ _ _ _ Iv). intros s s'. cbv beta. rewrite (node_point X a1 _ s 0 K1), (node_point X a2 _ s' 0 K2). unfold double_layer_integrand, unit_normal, c, mm, k, Rdiv. rewrite (Rinv_mult (4 * PI)). 
    match goal with |- context [/ vnorm ?z ^ 3] => set (q := / vnorm z ^ 3) end. set (g1 := element_point (points_of X) a1 s). set (g2 := element_point (points_of X) a2 s'). pose proof (FA (pos_patch a2)) as Nz.
    unfold vdot, vsub, vscal, vx, vy, vz. cbn [fst snd]. set (cr := vcross (U (pos_patch a2)) (V (pos_patch a2))). field. repeat split; lra.
  - cbv zeta. fold d. split; [exact Hd|]. eapply Rle_trans; [exact (two_errors _ _ _ _ _ _ F Q)|]. rewrite P1, P2. fold k. rewrite error4_cube by exact Hd. rewrite Ak. unfold growth. cbv zeta. apply Req_le. field. split; lra.
Qed.
Theorem C79_adjoint_double_layer : forall (Pt : Type) (close : Pt -> Pt -> bool) corners M t X O U V P b mid rad, far_setting close corners M t X O U V P b mid rad ->
  forall ss form eta mincl n xi w ja jm H A dq m, 0 < eta -> (0 <= mincl)%Z -> (0 < n)%nat -> ss_M ss = M -> positive_rule xi w ->
  exact_rule dq xi w -> (0 < m)%nat -> (m + ss_p ss <= dq)%nat ->
  h2_init (op_linop laplace_adl ss X form) t (near_of mid rad eta) mincl n xi w ja jm = Some H -> described_by H (length corners) M A ->
  forall B a1 a2 E1 E2 c1 c2 i j, In B (leaves (h_blocks H)) -> b_cc B = LowRank ->
  t_store t a1 = Some (e_node E1) -> t_store t a2 = Some (e_node E2) -> is_leaf t a1 -> is_leaf t a2 ->
  t_store t (b_c1 B) = Some c1 -> t_store t (b_c2 B) = Some c2 -> under (b_c1 B) a1 -> under (b_c2 B) a2 -> (i < ss_n2 ss)%nat -> (j < ss_n2 ss)%nat ->
  let N := (length corners * 4 ^ M)%nat in
  exists v m1 r1 m2 r2,
  integral4 (fun s s' => adjoint_layer_integrand (element_point (points_of X) a1 s) (element_point (points_of X) a2 s') (unit_normal U V (pos_patch a1)) *
    (area U V (pos_patch a1) * area U V (pos_patch a2)) * (shape (ss_p ss) i s * shape (ss_p ss) j s')) v /\
  b (b_c1 B) = Some (m1, r1) /\ b (b_c2 B) = Some (m2, r2) /\ let d := dist3 m1 m2 - r1 - r2 in 0 < d /\
  Rabs (A (row_of (ss_n2 ss) N 0 i (e_node E1)) (row_of (ss_n2 ss) N 0 j (e_node E2)) - ss_h ss * ss_h ss * v)
  <= ss_h ss * ss_h ss * (area U V (pos_patch a1) * area U V (pos_patch a2) / (4 * PI)) * (2 / d ^ 2) * ((INR n + 1) ^ 2 * growth n * (eta / 2) ^ n + 2 * ((INR m + 1) ^ 2 * growth m * (eta / 2) ^ m)).
Proof.
  intros Pt close corners M t X O U V P b mid rad FS ss form eta mincl n xi w ja jm H A dq m He H0 Hn HM HR HE Hm Hdq EH DA B a1 a2 E1 E2 c1 c2 i j HB Hlr S1 S2 L1 L2 Ec1 Ec2 U1 U2 Hi Hj N.
  destruct (C78_adjoint_double_layer Pt close corners M t X O U V P b mid rad FS ss form eta mincl n xi w ja jm H A He H0 Hn HM HR EH DA B a1 a2 E1 E2 c1 c2 i j HB Hlr S1 S2 L1 L2 Ec1 Ec2 U1 U2 Hi Hj) as [m1 [r1 [m2 [r2 [B1 [B2 [Hd F]]]]]]]. fold N in F.
  destruct (block_pair close corners M t X O U V P b mid rad FS _ eta mincl n xi w ja jm H B a1 a2 (e_node E1) (e_node E2) c1 c2 EH HB Hlr Ec1 Ec2 He S1 S2 L1 L2 U1 U2) as [x1 [x2 [B1' [B2' [_ [Aw [KB [LI LD]]]]]]]].
  rewrite B1 in B1'. rewrite B2 in B2'. apply some_eq in B1'. apply some_eq in B2'. subst x1 x2. cbn [fst snd] in *. set (d := dist3 m1 m2 - r1 - r2) in *.
  pose proof (fs_flat _ _ _ _ _ _ _ _ _ _ _ _ FS) as FX. pose proof (fs_area _ _ _ _ _ _ _ _ _ _ _ _ FS) as FA. pose proof (fs_four _ _ _ _ _ _ _ _ _ _ _ _ FS) as H4. pose proof (fs_tree _ _ _ _ _ _ _ _ _ _ _ _ FS) as Et.
  destruct (level_patch close corners M t a1 (e_node E1) (b_c1 B) c1 H4 Et S1 L1 Ec1 U1) as [V1 _]. assert (Eh : e_h E1 = ss_h ss) by (unfold e_h, ss_h; rewrite width, V1, HM; reflexivity).
  destruct (reachable_wf t (fs_reach _ _ _ _ _ _ _ _ _ _ _ _ FS)) as [[l W] _]. pose proof (wf_node t l W _ _ S1) as K1. pose proof (wf_node t l W _ _ S2) as K2.
  pose proof (nk_patch _ _ K1) as P1. pose proof (nk_patch _ _ K2) as P2. pose proof PI_RGT_0 as Pp.
  set (k := area U V (pos_patch a1) * area U V (pos_patch a2)). assert (Hk : 0 <= k) by (apply Rmult_le_pos; apply vnorm_nonneg).
  set (c := - / (4 * PI) * area U V (pos_patch a2)). set (mm := vcross (U (pos_patch a1)) (V (pos_patch a1))).
  assert (Ak : Rabs c * vnorm mm = k / (4 * PI)).
  { unfold c. rewrite Rabs_mult, (Rabs_right (area _ _ _)) by apply Rle_ge, vnorm_nonneg. rewrite Rabs_Ropp. rewrite Rabs_right by (apply Rle_ge, Rlt_le, Rinv_0_lt_compat; lra). change (vnorm mm) with (area U V (pos_patch a1)). unfold k. field. lra. }
  pose proof (KB m _ _ (cube_line m mm c d (2 * eta * d) Hd)) as KBm.
  destruct (quadrature_pair M X laplace_adl ss dq m xi w E1 E2 i j _ _ HM Eh HE HR Hm Hdq Hi Hj KBm (cube_lip _ mm c LI (LD mm))) as [v [Iv Q]].
  { intros s s' Is Is'. unfold op_kern. pose proof (C60_near_far Ci laplace_adl ss (surf_point X (e_node E1) s 1) (surf_point X (e_node E2) s' 1) zero_matrix 0 0 i j (some_psi (ss_p ss)) (or_intror (or_intror (or_introl eq_refl))) (some_psi_ok _) ltac:(intro Z; injection Z; lra)
      (eq_ind_r (fun z => z <> 0) (FA _) (flat_kappa X O U V FX _ _ _)) (eq_ind_r (fun z => z <> 0) (FA _) (flat_kappa X O U V FX _ _ _)) ltac:(cbn; lia) ltac:(cbn; lia) Hi Hj) as NF.
    rewrite !Nat.mul_0_l, !Nat.add_0_l in NF. rewrite NF. unfold zero_matrix. cbn [op_nF laplace_adl rsum op_kinds plain_kinds op_fmm Nat.add Nat.mul]. rewrite !component_plain by apply some_psi_ok. unfold laplace_adl_fmm. rewrite adl_kernel_cube, !(flat_kappa X O U V FX), (flat_n X O U V FX), P1, P2.
    rewrite !(flat_point X O U V FX). cbn [p_w p_s p_f]. unfold c, mm. ring. }
  exists v, m1, r1, m2, r2. split; [|split; [exact B1|split; [exact B2|]]].
  - refine (integral4_ext _ _ _ _ Iv). intros s s'. cbv beta. rewrite (node_point X a1 _ s 0 K1), (node_point X a2 _ s' 0 K2). unfold adjoint_layer_integrand, unit_normal, c, mm, k, Rdiv. rewrite (Rinv_mult (4 * PI)). 
    match goal with |- context [/ vnorm ?z ^ 3] => set (q := / vnorm z ^ 3) end. set (g1 := element_point (points_of X) a1 s). set (g2 := element_point (points_of X) a2 s'). pose proof (FA (pos_patch a1)) as Nz.
    unfold vdot, vsub, vscal, vx, vy, vz. cbn [fst snd]. set (cr := vcross (U (pos_patch a1)) (V (pos_patch a1))). field. repeat split; lra.
  - cbv zeta. fold d. split; [exact Hd|]. eapply Rle_trans; [exact (two_errors _ _ _ _ _ _ F Q)|]. rewrite P1, P2. fold k. rewrite error4_cube by exact Hd. rewrite Ak. unfold growth. cbv zeta. apply Req_le. field. split; lra.
Qed.
Lemma line_error4 : forall m c L d, 0 < d -> cheb_error4 m (c * line_bound m L d) = growth m * (2 * c / d * (L / (4 * d)) ^ m).
Proof. intros m c L d Hd. unfold cheb_error4, growth. cbv zeta. rewrite cheb_line by exact Hd. reflexivity. Qed.
Lemma cube_error4 : forall m c L d, 0 < d -> cheb_error4 m (c * cube_bound m L d) = growth m * (2 * c * (INR m + 1) ^ 2 / d ^ 2 * (L / (4 * d)) ^ m).
Proof.
  intros m c L d Hd. unfold cheb_error4, growth. cbv zeta. f_equal. unfold cheb_error, cube_bound. pose proof (INR_fact_lt_0 m) as Fp. assert (P4 : 0 < 4 ^ m) by (apply pow_lt; lra). assert (Pd : 0 < d ^ m) by (apply pow_lt, Hd).
  replace ((L / (4 * d)) ^ m) with (L ^ m / (4 ^ m * d ^ m)) by (unfold Rdiv; rewrite Rpow_mult_distr, pow_inv, Rpow_mult_distr; reflexivity).
  rewrite pow_add. set (e := L ^ m). set (p4 := 4 ^ m) in *. set (dn := d ^ m) in *. set (fn := INR (fact m)) in *. cbn [pow]. field. repeat split; lra.
Qed.
(** ** disjoint elements of a flat surface: the regular quadrature of a pair converges exponentially to the integral as the degree of
    the rule grows, if the sides L of the elements are shorter than four times their distance d *)
Theorem C79_disjoint_elements : forall X O U V ss dq m xi w E1 E2 i j L d, flat_surface X O U V -> (forall p, area U V p <> 0) ->
  n_level (e_node E1) = ss_M ss -> exact_rule dq xi w -> positive_rule xi w -> (0 < m)%nat -> (m + ss_p ss <= dq)%nat -> (i < ss_n2 ss)%nat -> (j < ss_n2 ss)%nat -> 0 < d -> 0 <= L ->
  let p1 := n_patch (e_node E1) in let p2 := n_patch (e_node E2) in
  let x := fun s => p_f (surf_point X (e_node E1) s 0) in let y := fun s => p_f (surf_point X (e_node E2) s 0) in
  side_ok U V (e_node E1) L -> side_ok U V (e_node E2) L -> (forall s s', in_square s -> in_square s' -> d <= vnorm (vsub (x s) (y s'))) ->
  let rate := growth m * (L / (4 * d)) ^ m in
  (exists v, integral4 (fun s s' => single_layer_integrand (x s) (y s') * (area U V p1 * area U V p2) * (shape (ss_p ss) i s * shape (ss_p ss) j s')) v /\
    Rabs (integrate1 (op_kern laplace_sl ss X) E1 E2 (tensor_rule (xi, w)) i j - ss_h ss * ss_h ss * v) <= ss_h ss * ss_h ss * (area U V p1 * area U V p2 / (4 * PI)) * (4 / d) * rate) /\
  (exists v, integral4 (fun s s' => double_layer_integrand (x s) (y s') (unit_normal U V p2) * (area U V p1 * area U V p2) * (shape (ss_p ss) i s * shape (ss_p ss) j s')) v /\
    Rabs (integrate1 (op_kern laplace_dl ss X) E1 E2 (tensor_rule (xi, w)) i j - ss_h ss * ss_h ss * v) <= ss_h ss * ss_h ss * (area U V p1 * area U V p2 / (4 * PI)) * (4 * (INR m + 1) ^ 2 / d ^ 2) * rate) /\
  (exists v, integral4 (fun s s' => adjoint_layer_integrand (x s) (y s') (unit_normal U V p1) * (area U V p1 * area U V p2) * (shape (ss_p ss) i s * shape (ss_p ss) j s')) v /\
    Rabs (integrate1 (op_kern laplace_adl ss X) E1 E2 (tensor_rule (xi, w)) i j - ss_h ss * ss_h ss * v) <= ss_h ss * ss_h ss * (area U V p1 * area U V p2 / (4 * PI)) * (4 * (INR m + 1) ^ 2 / d ^ 2) * rate).
Proof.
  intros X O U V ss dq m xi w E1 E2 i j L d FX FA HM HE HR Hm Hdq Hi Hj Hd HL p1 p2 x y K1 K2 Aw rate.
  assert (Eh : e_h E1 = ss_h ss) by (unfold e_h, ss_h; rewrite width, HM; reflexivity).
  destruct (pair_lip X O U V FX (e_node E1) (e_node E2) d L Hd HL K1 K2 Aw) as [LI LD]. fold x y in LI, LD. pose proof PI_RGT_0 as Pp.
  assert (KB : forall phi D, line_property m phi L d D -> kernel_bounded m D (fun s s' => phi (vsub (x s) (y s')))).
  { intros phi D LP. apply (flat_line X O U V FX m (e_node E1) (e_node E2) d L); [exact K1|exact K2| |exact LP]. intros s s' Is Is'. apply Aw; apply open_closed; assumption. }
  assert (NF : forall op s s', In op real_operators -> op_nF op = 1%nat -> op_vd op = 1%nat -> op_kinds op 0%nat 0%nat = (false, false) ->
    op_kern op ss X E1 s E2 s' i j = op_fmm op (surf_point X (e_node E1) s 1) (surf_point X (e_node E2) s' 1) 0%nat 0%nat * (shape (ss_p ss) i s * shape (ss_p ss) j s')).
  { intros op s s' Ho O1 O2 O3. unfold op_kern.
    pose proof (C60_real op ss (surf_point X (e_node E1) s 1) (surf_point X (e_node E2) s' 1) zero_matrix 0 0 i j (some_psi (ss_p ss)) Ho (some_psi_ok _)
      (eq_ind_r (fun z => z <> 0) (FA _) (flat_kappa X O U V FX _ _ _)) (eq_ind_r (fun z => z <> 0) (FA _) (flat_kappa X O U V FX _ _ _)) ltac:(lia) ltac:(lia) Hi Hj) as Q.
    rewrite !Nat.mul_0_l, !Nat.add_0_l in Q. rewrite Q, O1. unfold zero_matrix. cbn [rsum Nat.add Nat.mul]. rewrite O3, !component_plain by apply some_psi_ok. cbn [p_w p_s surf_point]. ring. }
  set (k := area U V p1 * area U V p2). assert (Hk : 0 <= k) by (apply Rmult_le_pos; apply vnorm_nonneg).
  assert (Ip : 0 < / (4 * PI)) by (apply Rinv_0_lt_compat; lra). split; [|split].
  - set (c := k * / (4 * PI)). assert (Hc : 0 <= c) by (apply Rmult_le_pos; lra).
    destruct (quadrature_pair (ss_M ss) X laplace_sl ss dq m xi w E1 E2 i j _ _ eq_refl Eh HE HR Hm Hdq Hi Hj (KB _ _ (inverse_line m c d L Hd)) (lip4_mult _ _ (lip4_const c) LI)) as [v [Iv Q]].
    { intros s s' Is Is'. rewrite (NF laplace_sl) by (cbn; tauto || reflexivity). cbn [op_fmm laplace_sl]. unfold laplace_sl_fmm. rewrite !(flat_kappa X O U V FX), kernel_inverse. unfold x, y, c, k, p1, p2. rewrite !(flat_point X O U V FX). cbn [p_f]. ring. }
    exists v. split.
    + refine (integral4_ext _ _ _ _ Iv). intros s s'. cbv beta. unfold single_layer_integrand, c. rewrite (Rinv_mult (4 * PI)). ring.
    + eapply Rle_trans; [exact Q|]. rewrite line_error4 by exact Hd. rewrite (Rabs_right c) by lra. unfold rate, c. apply Req_le. field. lra.
  - set (c := / (4 * PI) * area U V p1). set (mm := vcross (U p2) (V p2)).
    assert (Ak : Rabs c * vnorm mm = k / (4 * PI)).
    { unfold c. rewrite Rabs_mult, (Rabs_right (area _ _ _)) by apply Rle_ge, vnorm_nonneg. rewrite Rabs_right by lra. change (vnorm mm) with (area U V p2). unfold k. field. lra. }
    destruct (quadrature_pair (ss_M ss) X laplace_dl ss dq m xi w E1 E2 i j _ _ eq_refl Eh HE HR Hm Hdq Hi Hj (KB _ _ (cube_line m mm c d L Hd)) (cube_lip _ mm c LI (LD mm))) as [v [Iv Q]].
    { intros s s' Is Is'. rewrite (NF laplace_dl) by (cbn; tauto || reflexivity). cbn [op_fmm laplace_dl]. unfold laplace_dl_fmm. rewrite dl_kernel_cube, !(flat_kappa X O U V FX), (flat_n X O U V FX). unfold x, y, c, mm, p1, p2. rewrite !(flat_point X O U V FX). cbn [p_f]. ring. }
    exists v. split.
    + refine (integral4_ext _ _ _ _ Iv). intros s s'. cbv beta. unfold double_layer_integrand, unit_normal, c, mm, k, Rdiv. rewrite (Rinv_mult (4 * PI)).
      match goal with |- context [/ vnorm ?z ^ 3] => set (q := / vnorm z ^ 3) end. pose proof (FA p2) as Nz. unfold vdot, vsub, vscal, vx, vy, vz. cbn [fst snd]. set (cr := vcross (U p2) (V p2)). field. repeat split; lra.
    + eapply Rle_trans; [exact Q|]. rewrite cube_error4 by exact Hd. rewrite Ak. unfold rate. apply Req_le. field. split; lra.
  - set (c := - / (4 * PI) * area U V p2). set (mm := vcross (U p1) (V p1)).
    assert (Ak : Rabs c * vnorm mm = k / (4 * PI)).
    { unfold c. rewrite Rabs_mult, (Rabs_right (area _ _ _)) by apply Rle_ge, vnorm_nonneg. rewrite Rabs_Ropp, Rabs_right by lra. change (vnorm mm) with (area U V p1). unfold k. field. lra. }
    destruct (quadrature_pair (ss_M ss) X laplace_adl ss dq m xi w E1 E2 i j _ _ eq_refl Eh HE HR Hm Hdq Hi Hj (KB _ _ (cube_line m mm c d L Hd)) (cube_lip _ mm c LI (LD mm))) as [v [Iv Q]].
    { intros s s' Is Is'. rewrite (NF laplace_adl) by (cbn; tauto || reflexivity). cbn [op_fmm laplace_adl]. unfold laplace_adl_fmm. rewrite adl_kernel_cube, !(flat_kappa X O U V FX), (flat_n X O U V FX). unfold x, y, c, mm, p1, p2. rewrite !(flat_point X O U V FX). cbn [p_f]. ring. }
    exists v. split.
    + refine (integral4_ext _ _ _ _ Iv). intros s s'. cbv beta. unfold adjoint_layer_integrand, unit_normal, c, mm, k, Rdiv. rewrite (Rinv_mult (4 * PI)).
      match goal with |- context [/ vnorm ?z ^ 3] => set (q := / vnorm z ^ 3) end. pose proof (FA p1) as Nz. unfold vdot, vsub, vscal, vx, vy, vz. cbn [fst snd]. set (cr := vcross (U p1) (V p1)). field. repeat split; lra.
    + eapply Rle_trans; [exact Q|]. rewrite cube_error4 by exact Hd. rewrite Ak. unfold rate. apply Req_le. field. split; lra.
Qed.
(** two unit squares at distance 1000 *)
Definition sheet_node (p : nat) : node := mkNode p 0 p (0%Q, 0%Q) [4 * p; 4 * p + 1; 4 * p + 2; 4 * p + 3]%nat [None; None; None; None] None None false.
Definition sheet_element (p : nat) : element := {| e_addr := [p]; e_node := sheet_node p; e_mid := (1 / 2, 1 / 2, 1000 * INR p); e_rad := 1 |}.
Example C79_disjoint_example : flat_surface far_sheets far_O far_U far_V /\ (forall p, area far_U far_V p <> 0) /\ n_level (e_node (sheet_element 0)) = 0%nat /\
  side_ok far_U far_V (e_node (sheet_element 0)) 1 /\ side_ok far_U far_V (e_node (sheet_element 1)) 1 /\
  forall s s', in_square s -> in_square s' -> 1000 <= vnorm (vsub (p_f (surf_point far_sheets (e_node (sheet_element 0)) s 0)) (p_f (surf_point far_sheets (e_node (sheet_element 1)) s' 0))).
Proof.
  split; [intros p st; reflexivity|]. split; [|split; [reflexivity|]].
  - intros p. unfold area, far_U, far_V, vnorm, vdot, vcross, vx, vy, vz. cbn [fst snd]. match goal with |- sqrt ?z <> _ => replace z with 1 by ring end. rewrite sqrt_1. lra.
  - assert (Sd : forall p, side_ok far_U far_V (sheet_node p) 1).
    { intros p. unfold side_ok. rewrite width. cbn [n_level sheet_node pow]. rewrite Rdiv_1, Rabs_R1, !Rmult_1_l. unfold far_U, far_V, vnorm, vdot, vx, vy, vz. cbn [fst snd].
      split; (match goal with |- sqrt ?z <= _ => replace z with 1 by ring end; rewrite sqrt_1; lra). }
    split; [apply Sd|]. split; [apply Sd|]. intros s s' _ _. unfold surf_point, far_sheets, far_O, far_U, far_V. cbn [p_f fst snd n_patch sheet_element sheet_node e_node INR].
    apply Rle_trans with (sqrt (1000 * 1000)); [rewrite sqrt_square; lra|]. unfold vnorm. apply sqrt_le_1_alt. unfold vdot, vsub, vadd, vscal, vx, vy, vz. cbn [fst snd].
    match goal with |- _ <= ?a * ?a + ?b * ?b + ?c * ?c => pose proof (Rle_0_sqr a) as A1; pose proof (Rle_0_sqr b) as A2; replace (c * c) with (1000 * 1000) by ring end. unfold Rsqr in *. lra.
Qed.

(** the setting of C78_example meets the hypotheses: bilinear elements, the midpoint rule (exact for degree 1) and m = 1 *)
Example C79_example : exact_rule 2 [/ 2] [1] /\ positive_rule [/ 2] [1] /\ (0 < 1)%nat /\ (1 + ss_p (mkSS 1 0 zero_arr zero_arr zero_arr zero_arr) <= 2)%nat /\
  exists t P b mid rad, far_setting Nat.eqb far_corners 0 t far_sheets far_O far_U far_V P b mid rad /\
  exists H A B E1 E2 c1 c2, h2_init (op_linop laplace_sl (mkSS 1 0 zero_arr zero_arr zero_arr zero_arr) far_sheets (fun _ _ _ _ => 0)) t (near_of mid rad 1) 0 4 [/ 2] [1] zero_arr zero_mat = Some H /\
    described_by H 2 0 A /\ positive_rule [/ 2] [1] /\ In B (leaves (h_blocks H)) /\ b_cc B = LowRank /\
    t_store t [0%nat] = Some (e_node E1) /\ t_store t [1%nat] = Some (e_node E2) /\ is_leaf t [0%nat] /\ is_leaf t [1%nat] /\
    t_store t (b_c1 B) = Some c1 /\ t_store t (b_c2 B) = Some c2 /\ under (b_c1 B) [0%nat] /\ under (b_c2 B) [1%nat].
Proof.
  assert (HP : positive_rule [/ 2] [1]).
  { split; [split; [reflexivity|]|split; [|cbn; lra]]; intros [|k] Hk; cbn in *; try lra; lia. }
  split; [|split; [exact HP|split; [lia|split; [cbn; lia|exact C78_example]]]].
  split; [reflexivity|]. intros c v Iv. unfold quad, poly_eval. cbn [rsum length nth pow].
  rewrite <- (is_RInt_unique _ _ _ _ Iv), (is_RInt_unique _ _ _ _ (integral_poly c 2)). cbn [rsum INR]. field.
Qed.

(* BEGIN ASSUMPTIONS *)
Print Assumptions C79_gauss_error.
Print Assumptions C79_single_layer.
Print Assumptions C79_double_layer.
Print Assumptions C79_adjoint_double_layer.
Print Assumptions C79_disjoint_elements.
