(** C89: the hypersingular operator: its bilinear form, the quadrature of it, and the compressed matrix. *)
From Coq Require Import Reals Lra Lia Arith Bool List ZArith QArith Qreals.
From Coquelicot Require Import Coquelicot.
From Verif Require Import RSum SpecBernstein ModelBase ModelBernstein ModelTree ModelBall ModelBlock ModelH2 ModelInterp ModelH2Init ModelQuad ModelAssembly ModelDuffy ModelOperators ModelPipeline
  SpecTree SpecMesh SpecBall SpecBlock SpecInterp SpecDuffy SpecCheb SpecFlat SpecQuad SpecOperators SpecHyper ProofTree ProofTreeWF ProofTreeHist ProofTreeGeo ProofTreeLook ProofBall ProofOperators ProofDuffy ProofDuffyInt ProofPipeline
  ProofBernstein PropTree PropBlock PropTopo PropBall PropH2 PropAssembly PropInterp PropDuffy PropQuad PropCompare PropConform PropFarLaplace PropNearFar PropFarDouble PropGalerkin PropCompressed PropPipeline PropMotion ProofMotion ProofNearFar ProofGaussErr ProofCheb PropOperators ProofHyper PropWhole.
Import ListNotations.
Local Close Scope Q_scope.
Local Open Scope R_scope.

(** the surface curl of the specification: if g is the gradient of a function on the patch (g . u and g . v are the derivatives along
    the two tangents, per unit of the coordinates of the patch), it is the vector product of the unit normal and g *)
Theorem C89_curl : forall (u v g : vec3) h p q s, 0 < h -> vnorm (vcross u v) <> 0 ->
  vdot g u = shape_d1 p q s / h -> vdot g v = shape_d2 p q s / h ->
  tangential_curl u v h p q s = vcross (vscal (/ vnorm (vcross u v)) (vcross u v)) g.
Proof.
  intros u v g h p q s Hh Ha E1 E2. unfold tangential_curl. set (a := vnorm (vcross u v)) in *. clearbody a.
  replace (shape_d1 p q s) with (h * vdot g u) by (rewrite E1; field; lra). replace (shape_d2 p q s) with (h * vdot g v) by (rewrite E2; field; lra).
  rewrite Rinv_mult. destruct u as [[u1 u2] u3], v as [[v1 v2] v3], g as [[g1 g2] g3]. unfold vcross, vsub, vscal, vdot, vx, vy, vz. cbn [fst snd].
  apply f_equal2; [apply f_equal2|]; field; lra.
Qed.
Lemma dot_bound : forall (x y : vec3) g, vnorm x <= g -> vnorm y <= g -> Rabs (vdot x y) <= g * g.
Proof. intros x y g Hx Hy. eapply Rle_trans; [apply cauchy|]. pose proof (vnorm_nonneg x). pose proof (vnorm_nonneg y). apply Rmult_le_compat; assumption. Qed.
(** ** disjoint elements of a flat surface: the regular quadrature of a pair converges exponentially to the integral of the kernel
    times the product of the surface curls; g bounds the length of the tangents of the two patches *)
Theorem C89_disjoint_elements : forall X O U V ss dq m xi w E1 E2 i j L d g, flat_surface X O U V -> (forall p, area U V p <> 0) ->
  n_level (e_node E1) = ss_M ss -> exact_rule dq xi w -> positive_rule xi w -> (0 < m)%nat -> (m + ss_p ss <= dq)%nat -> (i < ss_n2 ss)%nat -> (j < ss_n2 ss)%nat -> 0 < d -> 0 <= L ->
  let p1 := n_patch (e_node E1) in let p2 := n_patch (e_node E2) in
  let x := fun s => p_f (surf_point X (e_node E1) s 0) in let y := fun s => p_f (surf_point X (e_node E2) s 0) in
  side_ok U V (e_node E1) L -> side_ok U V (e_node E2) L -> (forall s s', in_square s -> in_square s' -> d <= vnorm (vsub (x s) (y s'))) ->
  vnorm (U p1) <= g -> vnorm (V p1) <= g -> vnorm (U p2) <= g -> vnorm (V p2) <= g ->
  exists v, integral4 (fun s s' => hypersingular_integrand (x s) (y s') (tangential_curl (U p1) (V p1) (ss_h ss) (ss_p ss) i s) (tangential_curl (U p2) (V p2) (ss_h ss) (ss_p ss) j s') *
      (area U V p1 * area U V p2)) v /\
    Rabs (integrate1 (op_kern laplace_hs ss X) E1 E2 (tensor_rule (xi, w)) i j - ss_h ss * ss_h ss * v) <= INR (ss_p ss) ^ 2 * (g * g / PI) * (4 / d) * (growth m * (L / (4 * d)) ^ m).
Proof.
  intros X O U V ss dq m xi w E1 E2 i j L d g FX FA HM HE HR Hm Hdq Hi Hj Hd HL p1 p2 x y K1 K2 Aw GU1 GV1 GU2 GV2.
  assert (Eh : e_h E1 = ss_h ss) by (unfold e_h, ss_h; rewrite width, HM; reflexivity). pose proof (h_pos ss) as Hh.
  destruct (pair_lip X O U V FX (e_node E1) (e_node E2) d L Hd HL K1 K2 Aw) as [LI _]. fold x y in LI. pose proof PI_RGT_0 as Pp.
  assert (KB0 : forall phi D, line_property m phi L d D -> kernel_bounded m D (fun s s' => phi (vsub (x s) (y s')))).
  { intros phi D LP. apply (flat_line X O U V FX m (e_node E1) (e_node E2) d L); [exact K1|exact K2| |exact LP]. intros s s' Is Is'. apply Aw; apply open_closed; assumption. }
  pose proof (fun c => KB0 _ _ (inverse_line m c d L Hd)) as KB. clear KB0.
  destruct (split_index _ i Hi) as [_ [I1 I2]]. destruct (split_index _ j Hj) as [_ [J1 J2]]. set (p := ss_p ss) in *. set (h := ss_h ss) in *.
  set (im := (i mod (p + 1))%nat) in *. set (id := (i / (p + 1))%nat) in *. set (jm := (j mod (p + 1))%nat) in *. set (jd := (j / (p + 1))%nat) in *.
  (* one of the four terms *)
  set (rate := growth m * (L / (4 * d)) ^ m).
  assert (T : forall b b' (z : vec3) (z' : vec3) sg, vnorm z <= g -> vnorm z' <= g -> Rabs sg = 1 -> let c := sg * vdot z z' / (4 * PI * (h * h)) in
    exists v, integral4 (fun s t => c * / vnorm (vsub (x s) (y t)) * (some_psi p b im (fst s) * some_psi p (negb b) id (snd s) * some_psi p b' jm (fst t) * some_psi p (negb b') jd (snd t))) v /\
      Rabs (L4 xi w (fun a b0 e f => c * / vnorm (vsub (x (a, b0)) (y (e, f))) * (some_psi p b im a * some_psi p (negb b) id b0 * some_psi p b' jm e * some_psi p (negb b') jd f)) - v) <= INR p ^ 2 * (g * g / (4 * PI * (h * h))) * (4 / d) * rate).
  { intros b b' z z' sg Hz Hz' Hsg c.
    assert (Cc : Rabs c <= g * g / (4 * PI * (h * h))).
    { unfold c, Rdiv. rewrite Rabs_mult, Rabs_mult, Hsg, Rmult_1_l. assert (Iq : 0 < / (4 * PI * (h * h))) by (apply Rinv_0_lt_compat; apply Rmult_lt_0_compat; [lra|apply Rmult_lt_0_compat; lra]).
      rewrite (Rabs_right (/ _)) by lra. apply Rmult_le_compat_r; [lra|]. apply dot_bound; assumption. }
    destruct (quad_poly dq xi w m p _ _ (some_psi p b im) (some_psi p (negb b) id) (some_psi p b' jm) (some_psi p (negb b') jd) (INR p * INR p) HE HR Hm Hdq (psi_poly _ _ _ I2) (psi_poly _ _ _ I1) (psi_poly _ _ _ J2) (psi_poly _ _ _ J1)
      (KB c) (lip4_mult _ _ (lip4_const c) LI)) as [v [Iv Q]].
    { intros a b0 e f Ia Ib Ie If. unfold inside in *. rewrite Rmult_assoc, Rabs_mult. apply Rmult_le_compat; [apply Rabs_pos|apply Rabs_pos| |].
      - apply psi_bound; try assumption; try lra. rewrite negb_involutive. reflexivity.
      - apply psi_bound; try assumption; try lra. rewrite negb_involutive. reflexivity. }
    exists v. split; [exact Iv|]. eapply Rle_trans; [exact Q|]. rewrite line_error4 by exact Hd. fold rate.
    assert (R0 : 0 <= growth m * (L / (4 * d)) ^ m). { apply Rmult_le_pos; [apply (growth_nonneg m Hm)|apply pow_le; apply Rmult_le_pos; [exact HL|apply Rlt_le, Rinv_0_lt_compat; lra]]. }
    fold rate in R0. replace (growth m * (2 * Rabs c / d * (L / (4 * d)) ^ m)) with (Rabs c * (2 / d) * rate) by (unfold rate, Rdiv; ring).
    replace (2 * (INR p * INR p * (Rabs c * (2 / d) * rate))) with (INR p ^ 2 * Rabs c * (4 / d) * rate) by (unfold Rdiv; ring).
    apply Rmult_le_compat_r; [exact R0|]. apply Rmult_le_compat_r; [apply Rmult_le_pos; [lra|apply Rlt_le, Rinv_0_lt_compat, Hd]|]. apply Rmult_le_compat_l; [apply pow2_ge_0|exact Cc]. }
  assert (R1 : Rabs 1 = 1) by apply Rabs_R1. assert (R2 : Rabs (-1) = 1) by (rewrite Rabs_left; lra).
  destruct (T true true _ _ 1 GV1 GV2 R1) as [v1 [Q1 D1]]. destruct (T true false _ _ (-1) GV1 GU2 R2) as [v2 [Q2 D2]].
  destruct (T false true _ _ (-1) GU1 GV2 R2) as [v3 [Q3 D3]]. destruct (T false false _ _ 1 GU1 GU2 R1) as [v4 [Q4 D4]]. clear T KB LI.
  pose proof (FA p1) as A1. pose proof (FA p2) as A2.
  exists (v1 + v2 + v3 + v4). split.
  - refine (integral4_ext _ _ _ _ (integral4_plus _ _ _ _ (integral4_plus _ _ _ _ (integral4_plus _ _ _ _ Q1 Q2) Q3) Q4)). intros s t. unfold hypersingular_integrand, single_layer_integrand, tangential_curl.
    rewrite !shape_d1_value, !shape_d2_value by assumption. fold im id jm jd. cbn [some_psi negb]. fold (area U V p1). fold (area U V p2).
    rewrite (Rinv_mult (4 * PI)). set (iv := / vnorm (vsub (x s) (y t))). unfold area in *. set (a1 := vnorm _) in *. set (a2 := vnorm (vcross (U p2) _)) in *.
    set (b1 := dbern p im (fst s)). set (b2 := bern p id (snd s)). set (b3 := bern p im (fst s)). set (b4 := dbern p id (snd s)). set (b5 := dbern p jm (fst t)). set (b6 := bern p jd (snd t)). set (b7 := bern p jm (fst t)). set (b8 := dbern p jd (snd t)).
    clearbody iv a1 a2 b1 b2 b3 b4 b5 b6 b7 b8. unfold vdot, vscal, vsub, vx, vy, vz. cbn [fst snd]. field. repeat split; lra.
  - assert (HL' : length xi = length w) by apply HR. rewrite integrate1_value by exact HL'. rewrite Eh. fold h.
    assert (EL : L4 xi w (cur (entry (op_kern laplace_hs ss X) E1 E2 i j)) = L4 xi w (fun a b0 e f => 
        1 * vdot (V p1) (V p2) / (4 * PI * (h * h)) * / vnorm (vsub (x (a, b0)) (y (e, f))) * (some_psi p true im a * some_psi p (negb true) id b0 * some_psi p true jm e * some_psi p (negb true) jd f) +
        -1 * vdot (V p1) (U p2) / (4 * PI * (h * h)) * / vnorm (vsub (x (a, b0)) (y (e, f))) * (some_psi p true im a * some_psi p (negb true) id b0 * some_psi p false jm e * some_psi p (negb false) jd f) +
        -1 * vdot (U p1) (V p2) / (4 * PI * (h * h)) * / vnorm (vsub (x (a, b0)) (y (e, f))) * (some_psi p false im a * some_psi p (negb false) id b0 * some_psi p true jm e * some_psi p (negb true) jd f) +
        1 * vdot (U p1) (U p2) / (4 * PI * (h * h)) * / vnorm (vsub (x (a, b0)) (y (e, f))) * (some_psi p false im a * some_psi p (negb false) id b0 * some_psi p false jm e * some_psi p (negb false) jd f))).
    { apply L4_ext. intros a b0 e f. unfold cur, entry, op_kern.
      pose proof (C60_real laplace_hs ss (surf_point X (e_node E1) (a, b0) 1) (surf_point X (e_node E2) (e, f) 1) zero_matrix 0 0 i j (some_psi p) (or_intror (or_intror (or_intror (or_introl eq_refl)))) (some_psi_ok _)
        (eq_ind_r (fun z => z <> 0) (FA _) (flat_kappa X O U V FX _ _ _)) (eq_ind_r (fun z => z <> 0) (FA _) (flat_kappa X O U V FX _ _ _)) ltac:(cbn; lia) ltac:(cbn; lia) Hi Hj) as Z.
      rewrite !Nat.mul_0_l, !Nat.add_0_l in Z. rewrite Z. cbn [op_nF op_vd op_kinds op_fmm laplace_hs rsum curl_kinds Nat.add Nat.mul]. unfold laplace_hs_fmm, updm, zero_matrix, component. cbn [Nat.eqb andb fst snd p_s p_w surf_point].
      fold p h im id jm jd. cbn [negb]. rewrite !kernel_inverse. unfold x, y. rewrite !(flat_point X O U V FX). cbn [p_f p_dx p_dy p_s p_w fst snd]. fold p1 p2.
      match goal with |- context [/ vnorm ?z] => set (iv := / vnorm z) end. clearbody iv.
      generalize (some_psi p true im a), (some_psi p false id b0), (some_psi p true jm e), (some_psi p false jd f), (some_psi p false im a), (some_psi p true id b0), (some_psi p false jm e), (some_psi p true jd f).
      generalize (vdot (V p1) (V p2)), (vdot (V p1) (U p2)), (vdot (U p1) (V p2)), (vdot (U p1) (U p2)). intros. field. split; lra. }
    rewrite EL, !L4_plus. set (l1 := L4 _ _ _) in *. set (l2 := L4 xi w (fun a b0 e f => -1 * vdot (V p1) (U p2) / _ * _ * _)) in *. set (l3 := L4 xi w (fun a b0 e f => -1 * vdot (U p1) (V p2) / _ * _ * _)) in *. set (l4 := L4 xi w (fun a b0 e f => 1 * vdot (U p1) (U p2) / _ * _ * _)) in *.
    set (e0 := INR p ^ 2 * (g * g / (4 * PI * (h * h))) * (4 / d) * rate) in *.
    replace (h * h * (l1 + l2 + l3 + l4) - h * h * (v1 + v2 + v3 + v4)) with (h * h * ((l1 - v1) + (l2 - v2) + (l3 - v3) + (l4 - v4))) by ring.
    rewrite Rabs_mult, (Rabs_right (h * h)) by (apply Rle_ge, Rle_0_sqr).
    apply Rle_trans with (h * h * (4 * e0)).
    + apply Rmult_le_compat_l; [apply Rle_0_sqr|]. eapply Rle_trans; [apply Rabs_triang|]. pose proof (Rabs_triang (l1 - v1 + (l2 - v2)) (l3 - v3)). pose proof (Rabs_triang (l1 - v1) (l2 - v2)). lra.
    + unfold e0. apply Req_le. field. repeat split; lra.
Qed.
(** the tangents of all patches are at most g long *)
Definition tangents_below (U V : nat -> vec3) (P : nat) (g : R) : Prop := forall q, (q < P)%nat -> vnorm (U q) <= g /\ vnorm (V q) <= g.
(** ** far-field entries of the compressed matrix: against the quadrature of the exact kernel, and against the integral *)
Theorem C89_far_entry : forall (Pt : Type) (close : Pt -> Pt -> bool) corners M t X O U V P b mid rad, far_setting close corners M t X O U V P b mid rad ->
  forall ss form eta mincl n xi w ja jm H A g, 0 < eta -> (0 <= mincl)%Z -> (0 < n)%nat -> ss_M ss = M -> positive_rule xi w -> tangents_below U V (length corners) g ->
  h2_init (op_linop laplace_hs ss X form) t (near_of mid rad eta) mincl n xi w ja jm = Some H -> described_by H (length corners) M A ->
  forall B a1 a2 E1 E2 c1 c2 i j, In B (leaves (h_blocks H)) -> b_cc B = LowRank ->
  t_store t a1 = Some (e_node E1) -> t_store t a2 = Some (e_node E2) -> is_leaf t a1 -> is_leaf t a2 ->
  t_store t (b_c1 B) = Some c1 -> t_store t (b_c2 B) = Some c2 -> under (b_c1 B) a1 -> under (b_c2 B) a2 -> (i < ss_n2 ss)%nat -> (j < ss_n2 ss)%nat ->
  let N := (length corners * 4 ^ M)%nat in
  exists m1 r1 m2 r2, b (b_c1 B) = Some (m1, r1) /\ b (b_c2 B) = Some (m2, r2) /\ let d := dist3 m1 m2 - r1 - r2 in 0 < d /\
  Rabs (A (row_of (ss_n2 ss) N 0 i (e_node E1)) (row_of (ss_n2 ss) N 0 j (e_node E2)) - integrate1 (op_kern laplace_hs ss X) E1 E2 (tensor_rule (xi, w)) i j)
  <= INR (ss_p ss) ^ 2 * (g * g / PI) * (2 / d) * (growth n * (eta / 2) ^ n).
Proof.
  intros Pt close corners M t X O U V P b mid rad FS ss form eta mincl n xi w ja jm H A g He H0 Hn HM HR Hg EH DA B a1 a2 E1 E2 c1 c2 i j HB Hlr S1 S2 L1 L2 Ec1 Ec2 U1 U2 Hi Hj N.
  pose proof (h_pos ss) as Hh. pose proof PI_RGT_0 as Pp.
  destruct (Hg _ (patch_bound Pt close corners M t X O U V P b mid rad FS _ _ Ec1)) as [G1 G2]. destruct (Hg _ (patch_bound Pt close corners M t X O U V P b mid rad FS _ _ Ec2)) as [G3 G4].
  destruct (C78_hypersingular Pt close corners M t X O U V P b mid rad FS ss form eta mincl n xi w ja jm H A He H0 Hn HM HR EH DA B a1 a2 E1 E2 c1 c2 i j HB Hlr S1 S2 L1 L2 Ec1 Ec2 U1 U2 Hi Hj
    (g * g) (INR (ss_p ss) / ss_h ss) (some_psi (ss_p ss)) (some_psi_ok _)) as [m1 [r1 [m2 [r2 [B1 [B2 [Hd F]]]]]]].
  - intros x y Hx Hy. destruct Hx as [<-|[<-|[]]], Hy as [<-|[<-|[]]]; apply dot_bound; assumption.
  - intros c C q s Hc HC Hq [[A1 A2] [A3 A4]]. destruct (split_index _ q Hq) as [_ [I1 I2]]. assert (Ip : 0 < / ss_h ss) by (apply Rinv_0_lt_compat, Hh).
    unfold component, Rdiv. cbn [op_kinds laplace_hs]. destruct C as [|C]; cbn [curl_kinds fst snd]; rewrite ?Rmult_1_r, ?Rmult_1_l, Rabs_mult, (Rabs_right (/ _)) by lra;
      (apply Rmult_le_compat_r; [lra|]); apply psi_bound; try assumption; try lra; reflexivity.
  - exists m1, r1, m2, r2. split; [exact B1|]. split; [exact B2|]. cbv zeta in F |- *. split; [exact Hd|]. eapply Rle_trans; [exact F|]. unfold growth. cbv zeta. apply Req_le. field. repeat split; lra.
Qed.
Theorem C89_galerkin : forall (Pt : Type) (close : Pt -> Pt -> bool) corners M t X O U V P b mid rad, far_setting close corners M t X O U V P b mid rad ->
  forall ss form eta mincl n xi w ja jm H A dq m g, 0 < eta -> (0 <= mincl)%Z -> (0 < n)%nat -> ss_M ss = M -> positive_rule xi w ->
  exact_rule dq xi w -> (0 < m)%nat -> (m + ss_p ss <= dq)%nat -> tangents_below U V (length corners) g ->
  h2_init (op_linop laplace_hs ss X form) t (near_of mid rad eta) mincl n xi w ja jm = Some H -> described_by H (length corners) M A ->
  forall B a1 a2 E1 E2 c1 c2 i j, In B (leaves (h_blocks H)) -> b_cc B = LowRank ->
  t_store t a1 = Some (e_node E1) -> t_store t a2 = Some (e_node E2) -> is_leaf t a1 -> is_leaf t a2 ->
  t_store t (b_c1 B) = Some c1 -> t_store t (b_c2 B) = Some c2 -> under (b_c1 B) a1 -> under (b_c2 B) a2 -> (i < ss_n2 ss)%nat -> (j < ss_n2 ss)%nat ->
  let N := (length corners * 4 ^ M)%nat in let p1 := pos_patch a1 in let p2 := pos_patch a2 in
  exists v m1 r1 m2 r2,
  integral4 (fun s s' => hypersingular_integrand (element_point (points_of X) a1 s) (element_point (points_of X) a2 s')
      (tangential_curl (U p1) (V p1) (ss_h ss) (ss_p ss) i s) (tangential_curl (U p2) (V p2) (ss_h ss) (ss_p ss) j s') * (area U V p1 * area U V p2)) v /\
  b (b_c1 B) = Some (m1, r1) /\ b (b_c2 B) = Some (m2, r2) /\ let d := dist3 m1 m2 - r1 - r2 in 0 < d /\
  Rabs (A (row_of (ss_n2 ss) N 0 i (e_node E1)) (row_of (ss_n2 ss) N 0 j (e_node E2)) - ss_h ss * ss_h ss * v)
  <= INR (ss_p ss) ^ 2 * (g * g / PI) * (2 / d) * (growth n * (eta / 2) ^ n + 2 * (growth m * (eta / 2) ^ m)).
Proof.
  intros Pt close corners M t X O U V P b mid rad FS ss form eta mincl n xi w ja jm H A dq m g He H0 Hn HM HR HE Hm Hdq Hg EH DA B a1 a2 E1 E2 c1 c2 i j HB Hlr S1 S2 L1 L2 Ec1 Ec2 U1 U2 Hi Hj N p1 p2.
  destruct (C89_far_entry Pt close corners M t X O U V P b mid rad FS ss form eta mincl n xi w ja jm H A g He H0 Hn HM HR Hg EH DA B a1 a2 E1 E2 c1 c2 i j HB Hlr S1 S2 L1 L2 Ec1 Ec2 U1 U2 Hi Hj) as [m1 [r1 [m2 [r2 [B1 [B2 [Hd F]]]]]]]. fold N in F.
  destruct (h2_init_facts _ _ _ _ _ _ _ _ _ _ EH) as [_ [_ [Eb _]]].
  destruct (far_pair close corners M t X O U V P b mid rad FS eta mincl (h_blocks H) B a1 a2 (e_node E1) (e_node E2) Eb HB Hlr He S1 S2 L1 L2 U1 U2) as [x1 [x2 [B1' [B2' [_ [K1 [K2 Aw]]]]]]].
  rewrite B1 in B1'. rewrite B2 in B2'. apply some_eq in B1'. apply some_eq in B2'. subst x1 x2. cbn [fst snd] in *. set (d := dist3 m1 m2 - r1 - r2) in *.
  pose proof (fs_flat _ _ _ _ _ _ _ _ _ _ _ _ FS) as FX. pose proof (fs_area _ _ _ _ _ _ _ _ _ _ _ _ FS) as FA. pose proof (fs_four _ _ _ _ _ _ _ _ _ _ _ _ FS) as H4. pose proof (fs_tree _ _ _ _ _ _ _ _ _ _ _ _ FS) as Et.
  destruct (level_patch close corners M t a1 (e_node E1) (b_c1 B) c1 H4 Et S1 L1 Ec1 U1) as [V1 _].
  destruct (Hg _ (patch_bound Pt close corners M t X O U V P b mid rad FS _ _ S1)) as [G1 G2]. destruct (Hg _ (patch_bound Pt close corners M t X O U V P b mid rad FS _ _ S2)) as [G3 G4].
  destruct (reachable_wf t (fs_reach _ _ _ _ _ _ _ _ _ _ _ _ FS)) as [[l W] _]. pose proof (wf_node t l W _ _ S1) as N1. pose proof (wf_node t l W _ _ S2) as N2.
  pose proof (nk_patch _ _ N1) as P1. pose proof (nk_patch _ _ N2) as P2.
  assert (HL : 0 <= 2 * eta * d) by (apply Rmult_le_pos; lra).
  destruct (C89_disjoint_elements X O U V ss dq m xi w E1 E2 i j (2 * eta * d) d g FX FA (eq_trans V1 (eq_sym HM)) HE HR Hm Hdq Hi Hj Hd HL K1 K2 Aw G1 G2 G3 G4) as [v [Iv Q]].
  exists v, m1, r1, m2, r2. split; [|split; [exact B1|split; [exact B2|]]].
  - refine (integral4_ext _ _ _ _ Iv). intros s s'. cbv beta. rewrite (node_point X a1 _ s 0 N1), (node_point X a2 _ s' 0 N2), P1, P2. reflexivity.
  - cbv zeta. fold d. split; [exact Hd|]. eapply Rle_trans; [exact (two_errors _ _ _ _ _ _ F Q)|]. replace (2 * eta * d / (4 * d)) with (eta / 2) by (field; lra).
    apply Req_le. field. pose proof PI_RGT_0. split; lra.
Qed.
(** ** every entry of the compressed matrix *)
Theorem C89_entries : forall (Pt : Type) (close : Pt -> Pt -> bool) corners M t X O U V P b mid rad, far_setting close corners M t X O U V P b mid rad ->
  forall ss form eta mincl n xi w ja jm H A els m g d0 delta, 0 < eta -> (0 <= mincl)%Z -> (0 < n)%nat -> ss_M ss = M -> positive_rule xi w ->
  h2_init (op_linop laplace_hs ss X form) t (near_of mid rad eta) mincl n xi w ja jm = Some H -> described_by H (length corners) M A ->
  mesh_elements t els -> assembled 1 (ss_n2 ss) (t_elements t) form els m ->
  tangents_below U V (length corners) g -> far_distance b (h_blocks H) d0 ->
  far_quadrature t X laplace_hs ss form xi w (h_blocks H) delta -> 0 <= delta ->
  forall i j, (i < ss_n2 ss * t_elements t)%nat -> (j < ss_n2 ss * t_elements t)%nat ->
  Rabs (A i j - m i j) <= INR (ss_p ss) ^ 2 * (g * g / PI) * (2 / d0) * (growth n * (eta / 2) ^ n) + delta.
Proof.
  intros Pt close corners M t X O U V P b mid rad FS ss form eta mincl n xi w ja jm H A els m g d0 delta He H0 Hn HM HR EH DA Me Am Hg [D0 Hd0] HQ Hdel i j Hi Hj.
  pose proof PI_RGT_0 as Pp. assert (Rn : 0 <= growth n * (eta / 2) ^ n) by (apply Rmult_le_pos; [apply (growth_nonneg n Hn)|apply pow_le; lra]).
  assert (K0 : 0 <= INR (ss_p ss) ^ 2 * (g * g / PI)) by (apply Rmult_le_pos; [apply pow2_ge_0|apply Rmult_le_pos; [apply Rle_0_sqr|apply Rlt_le, Rinv_0_lt_compat; lra]]).
  apply (C85_entries Pt close corners M t (op_linop laplace_hs ss X form) (near_of mid rad eta) mincl n xi w ja jm H A els m); try assumption.
  - apply (fs_ne _ _ _ _ _ _ _ _ _ _ _ _ FS). - apply (fs_four _ _ _ _ _ _ _ _ _ _ _ _ FS). - apply (fs_tree _ _ _ _ _ _ _ _ _ _ _ _ FS).
  - apply (root_near close corners M t X O U V P b mid rad FS). - cbn [o_nF op_linop op_nF laplace_hs]. lia. - cbn [o_vd op_linop op_vd laplace_hs]. lia.
  - apply Rplus_le_le_0_compat; [|exact Hdel]. apply Rmult_le_pos; [|exact Rn]. apply Rmult_le_pos; [exact K0|]. apply Rmult_le_pos; [lra|apply Rlt_le, Rinv_0_lt_compat, D0].
  - intros B a1 a2 e1 e2 c1 c2 rc cc q1 q2 HB Hl S1 S2 L1 L2 Ec1 Ec2 U1 U2 Hrc Hcc Hq1 Hq2. cbn [o_vd op_linop o_p o_form op_vd laplace_hs] in Hrc, Hcc, Hq1, Hq2 |- *.
    assert (rc = 0%nat) by lia. assert (cc = 0%nat) by lia. subst rc cc. rewrite !Nat.mul_0_l, !Nat.add_0_l.
    set (E1 := Build_element a1 e1 (0, 0, 0) 0). set (E2 := Build_element a2 e2 (0, 0, 0) 0).
    destruct (C89_far_entry Pt close corners M t X O U V P b mid rad FS ss form eta mincl n xi w ja jm H A g He H0 Hn HM HR Hg EH DA B a1 a2 E1 E2 c1 c2 q1 q2 HB Hl S1 S2 L1 L2 Ec1 Ec2 U1 U2 Hq1 Hq2) as [m1 [r1 [m2 [r2 [B1 [B2 [Hd F]]]]]]]. cbn [e_node E1 E2] in F.
    pose proof (HQ B a1 a2 E1 E2 q1 q2 HB Hl S1 S2 L1 L2 U1 U2 Hq1 Hq2) as Q. cbn [e_node E1 E2] in Q. pose proof (Hd0 B m1 r1 m2 r2 HB Hl B1 B2) as Dd. set (d := dist3 m1 m2 - r1 - r2) in *.
    fold (ss_n2 ss). set (x := A _ _) in *. set (y := integrate1 _ _ _ _ _ _) in *. set (z := form _ _ _ _) in *.
    replace (x - z) with ((x - y) + (y - z)) by ring. eapply Rle_trans; [apply Rabs_triang|]. apply Rplus_le_compat; [|rewrite Rabs_minus_sym; exact Q].
    eapply Rle_trans; [exact F|]. apply Rmult_le_compat_r; [exact Rn|]. apply Rmult_le_compat_l; [exact K0|]. apply Rmult_le_compat_l; [lra|]. apply Rinv_le_contravar; lra.
  - cbn [o_vd op_linop o_p op_vd laplace_hs]. rewrite Nat.mul_1_l. exact Hi.
  - cbn [o_vd op_linop o_p op_vd laplace_hs]. rewrite Nat.mul_1_l. exact Hj.
Qed.
(** ** convergence of the compressed matrix with the number of interpolation points; c and q depend on the mesh, eta and the degree only *)
Lemma tangents_exist : forall U V P, exists g, 0 <= g /\ tangents_below U V P g.
Proof.
  intros U V P. induction P as [|P [g [G0 Hg]]]; [exists 0; split; [lra|intros q Hq; lia]|]. exists (Rmax g (Rmax (vnorm (U P)) (vnorm (V P)))). split; [eapply Rle_trans; [exact G0|apply Rmax_l]|].
  intros q Hq. destruct (Nat.eq_dec q P) as [->|Ne].
  - split; (eapply Rle_trans; [|apply Rmax_r]); [apply Rmax_l|apply Rmax_r].
  - destruct (Hg q ltac:(lia)). split; (eapply Rle_trans; [|apply Rmax_l]); assumption.
Qed.
Lemma growth_exponential : forall r, 0 <= r < 1 -> exists c q, 0 <= c /\ 0 <= q < 1 /\ forall n, (0 < n)%nat -> growth n * r ^ n <= c * q ^ n /\ growth n * (INR n + 1) ^ 2 * r ^ n <= c * q ^ n.
Proof.
  intros r Hr. destruct (exponential r Hr) as [c [q [Hc [Hq E]]]]. exists c, q. split; [exact Hc|]. split; [exact Hq|]. intros n Hn. pose proof (E n Hn) as En. split; [|exact En].
  eapply Rle_trans; [|exact En]. apply Rmult_le_compat_r; [apply pow_le; lra|]. rewrite <- (Rmult_1_r (growth n)) at 1. apply Rmult_le_compat_l; [apply (growth_nonneg n Hn)|].
  pose proof (pos_INR n). replace 1 with (1 ^ 2) at 1 by ring. apply pow_incr. lra.
Qed.
Theorem C89_converges : forall (Pt : Type) (close : Pt -> Pt -> bool) corners M t X O U V P b mid rad, far_setting close corners M t X O U V P b mid rad ->
  forall ss form eta mincl els m, 0 < eta < 2 -> (0 <= mincl)%Z -> ss_M ss = M ->
  mesh_elements t els -> assembled 1 (ss_n2 ss) (t_elements t) form els m ->
  exists c q, 0 <= c /\ 0 <= q < 1 /\ forall n xi w ja jm H A delta, (0 < n)%nat -> positive_rule xi w -> 0 <= delta ->
    h2_init (op_linop laplace_hs ss X form) t (near_of mid rad eta) mincl n xi w ja jm = Some H -> described_by H (length corners) M A ->
    far_quadrature t X laplace_hs ss form xi w (h_blocks H) delta ->
    forall i j, (i < ss_n2 ss * t_elements t)%nat -> (j < ss_n2 ss * t_elements t)%nat -> Rabs (A i j - m i j) <= c * q ^ n + delta.
Proof.
  intros Pt close corners M t X O U V P b mid rad FS ss form eta mincl els m He H0 HM Me Am.
  destruct (reachable_wf t (fs_reach close corners M t X O U V P b mid rad FS)) as [[l Wt] HP].
  destruct (block_tree_ok t l (near_of mid rad eta) mincl Wt HP) as [bt [Eb _]].
  destruct (C85_distance Pt close corners M t X O U V P b mid rad FS eta mincl bt (proj1 He) Eb) as [d0 Hd0].
  destruct (tangents_exist U V (length corners)) as [g [G0 Hg]]. destruct (growth_exponential (eta / 2) ltac:(lra)) as [c [q [Hc [Hq HE]]]].
  pose proof (proj1 Hd0) as D0. pose proof PI_RGT_0 as Pp.
  set (f := INR (ss_p ss) ^ 2 * (g * g / PI) * (2 / d0)).
  assert (Hf : 0 <= f). { unfold f. apply Rmult_le_pos; [apply Rmult_le_pos; [apply pow2_ge_0|apply Rmult_le_pos; [apply Rle_0_sqr|apply Rlt_le, Rinv_0_lt_compat; lra]]|]. apply Rmult_le_pos; [lra|apply Rlt_le, Rinv_0_lt_compat, D0]. }
  exists (f * c), q. split; [apply Rmult_le_pos; assumption|]. split; [exact Hq|].
  intros n xi w ja jm H A delta Hn HR Hdel EH DA HQ i j Hi Hj.
  destruct (h2_init_facts _ _ _ _ _ _ _ _ _ _ EH) as [_ [_ [T3 _]]]. rewrite Eb in T3. apply some_eq in T3. rewrite T3 in Hd0.
  eapply Rle_trans; [apply (C89_entries Pt close corners M t X O U V P b mid rad FS ss form eta mincl n xi w ja jm H A els m g d0 delta); try assumption; apply He|].
  apply Rplus_le_compat_r. fold f. rewrite Rmult_assoc. apply Rmult_le_compat_l; [exact Hf|]. apply HE, Hn.
Qed.
(** ** the whole computation: the full and the compressed matrix of the same geometry *)
(** what a rule of degree m + p contributes at distance d *)
Definition curl_error (eta d : R) (m : nat) : R := 4 / d * (growth m * (eta / 2) ^ m).
Lemma curl_error_le : forall eta d0 d m, 0 < eta -> (0 < m)%nat -> 0 < d0 -> d0 <= d -> 0 <= curl_error eta d m <= curl_error eta d0 m.
Proof.
  intros eta d0 d m He Hm H0 Hd. pose proof (growth_nonneg m Hm) as HG. change (0 <= growth m) in HG. assert (Pn : 0 <= (eta / 2) ^ m) by (apply pow_le; lra).
  assert (G : 0 <= growth m * (eta / 2) ^ m) by (apply Rmult_le_pos; assumption). assert (I1 : 0 < / d) by (apply Rinv_0_lt_compat; lra). assert (J1 : / d <= / d0) by (apply Rinv_le_contravar; lra).
  unfold curl_error, Rdiv. split; [apply Rmult_le_pos; lra|]. apply Rmult_le_compat_r; lra.
Qed.
Section HyperRules.
Context {Pt : Type} (close : Pt -> Pt -> bool) (corners : list (list Pt)) (M : nat) (t : tree) (X : surface) (O U V : nat -> vec3)
  (P : list (option vec3)) (b : balls) (mid : addr -> vec3) (rad : addr -> option R).
Hypothesis FS : far_setting close corners M t X O U V P b mid rad.
Lemma hyper_rules : forall ss eta mincl bt B a1 a2 E1 E2 i j d0 g dq m xi w dq' m' xi' w', ss_M ss = M ->
  block_tree t (near_of mid rad eta) mincl = Some bt -> In B (leaves bt) -> b_cc B = LowRank -> 0 < eta ->
  t_store t a1 = Some (e_node E1) -> t_store t a2 = Some (e_node E2) -> is_leaf t a1 -> is_leaf t a2 -> under (b_c1 B) a1 -> under (b_c2 B) a2 -> (i < ss_n2 ss)%nat -> (j < ss_n2 ss)%nat ->
  far_distance b bt d0 -> tangents_below U V (length corners) g ->
  exact_rule dq xi w -> positive_rule xi w -> (0 < m)%nat -> (m + ss_p ss <= dq)%nat -> exact_rule dq' xi' w' -> positive_rule xi' w' -> (0 < m')%nat -> (m' + ss_p ss <= dq')%nat ->
  Rabs (integrate1 (op_kern laplace_hs ss X) E1 E2 (tensor_rule (xi, w)) i j - integrate1 (op_kern laplace_hs ss X) E1 E2 (tensor_rule (xi', w')) i j) <=
  INR (ss_p ss) ^ 2 * (g * g / PI) * (curl_error eta d0 m + curl_error eta d0 m').
Proof.
  intros ss eta mincl bt B a1 a2 E1 E2 i j d0 g dq m xi w dq' m' xi' w' HM Eb HB Hlr He S1 S2 L1 L2 U1 U2 Hi Hj Hd0 Hg HE HR Hm Hdq HE' HR' Hm' Hdq'.
  destruct (far_pair close corners M t X O U V P b mid rad FS eta mincl bt B a1 a2 (e_node E1) (e_node E2) Eb HB Hlr He S1 S2 L1 L2 U1 U2) as [[m1 r1] [[m2 r2] [B1 [B2 [Hd [K1 [K2 Aw]]]]]]]. cbn [fst snd] in *. set (d := dist3 m1 m2 - r1 - r2) in *.
  destruct Hd0 as [D0 Hd0]. pose proof (Hd0 B m1 r1 m2 r2 HB Hlr B1 B2) as Dd. fold d in Dd.
  destruct (lowrank_clusters Pt close corners M t X O U V P b mid rad FS eta mincl bt B Eb HB Hlr) as [c1 [c2 [Ec1 Ec2]]].
  pose proof (fs_four _ _ _ _ _ _ _ _ _ _ _ _ FS) as H4. pose proof (fs_tree _ _ _ _ _ _ _ _ _ _ _ _ FS) as Et.
  destruct (level_patch close corners M t a1 (e_node E1) (b_c1 B) c1 H4 Et S1 L1 Ec1 U1) as [V1 _].
  assert (Lv : n_level (e_node E1) = ss_M ss) by congruence. assert (HL : 0 <= 2 * eta * d) by (apply Rmult_le_pos; lra).
  pose proof (fs_flat _ _ _ _ _ _ _ _ _ _ _ _ FS) as FX. pose proof (fs_area _ _ _ _ _ _ _ _ _ _ _ _ FS) as FA.
  destruct (Hg _ (patch_bound Pt close corners M t X O U V P b mid rad FS _ _ S1)) as [G1 G2]. destruct (Hg _ (patch_bound Pt close corners M t X O U V P b mid rad FS _ _ S2)) as [G3 G4].
  destruct (C89_disjoint_elements X O U V ss dq m xi w E1 E2 i j (2 * eta * d) d g FX FA Lv HE HR Hm Hdq Hi Hj Hd HL K1 K2 Aw G1 G2 G3 G4) as [v [Iv Q]].
  destruct (C89_disjoint_elements X O U V ss dq' m' xi' w' E1 E2 i j (2 * eta * d) d g FX FA Lv HE' HR' Hm' Hdq' Hi Hj Hd HL K1 K2 Aw G1 G2 G3 G4) as [v' [Iv' Q']].
  rewrite (integral4_unique _ _ _ Iv' Iv) in Q'. replace (2 * eta * d / (4 * d)) with (eta / 2) in * by (field; lra).
  pose proof PI_RGT_0 as Pp. set (k := INR (ss_p ss) ^ 2 * (g * g / PI)) in *.
  assert (K0 : 0 <= k) by (apply Rmult_le_pos; [apply pow2_ge_0|apply Rmult_le_pos; [apply Rle_0_sqr|apply Rlt_le, Rinv_0_lt_compat; lra]]).
  rewrite (Rmult_assoc k) in Q, Q'. fold (curl_error eta d m) in Q. fold (curl_error eta d m') in Q'.
  destruct (curl_error_le eta d0 d m He Hm D0 Dd) as [_ Z1]. destruct (curl_error_le eta d0 d m' He Hm' D0 Dd) as [_ Z2].
  assert (Y1 : k * curl_error eta d m <= k * curl_error eta d0 m) by (apply Rmult_le_compat_l; assumption). assert (Y2 : k * curl_error eta d m' <= k * curl_error eta d0 m') by (apply Rmult_le_compat_l; assumption).
  set (x := integrate1 _ E1 E2 (tensor_rule (xi, w)) i j) in *. set (y := integrate1 _ E1 E2 (tensor_rule (xi', w')) i j) in *. set (z := ss_h ss * ss_h ss * v) in *.
  replace (x - y) with ((x - z) - (y - z)) by ring. eapply Rle_trans; [apply Rabs_triang|]. rewrite Rabs_Ropp. rewrite Rmult_plus_distr_l. lra.
Qed.
End HyperRules.
Section HyperConverge.
Variables (X : surface) (O U V : nat -> vec3) (P M : nat) (g : mesh).
Hypothesis HX : surface_mesh X P.
Hypothesis Eg : init_mesh X P M = Some g.
Hypothesis FX : flat_surface X O U V.
Hypothesis FA : forall p, area U V p <> 0.
Lemma mesh_hyper_quadrature : forall ss order rules eta mincl bt d0 tg m xi w dq' m', let p := Z.of_nat (ss_p ss) in ss_M ss = M ->
  block_tree (g_tree g) (near_of (mid_of (g_balls g)) (rad_of (g_balls g)) eta) mincl = Some bt -> 0 < eta ->
  far_distance (g_balls g) bt d0 -> tangents_below U V P tg -> forms_quadrature (g_elements g) p order M rules ->
  (0 < m)%nat -> (m + ss_p ss <= 2 * (Z.to_nat (farfield_degree p order) + 1))%nat ->
  exact_rule dq' xi w -> positive_rule xi w -> (0 < m')%nat -> (m' + ss_p ss <= dq')%nat ->
  far_quadrature (g_tree g) X laplace_hs ss (op_form laplace_hs ss X order (fun d => tensor_rule (rules d)) (g_elements g)) xi w bt
    (INR (ss_p ss) ^ 2 * (tg * tg / PI) * (curl_error eta d0 m + curl_error eta d0 m')).
Proof.
  intros ss order rules eta mincl bt d0 tg m xi w dq' m' p HM Eb He Hd0 Hg [Hr Hq] Hm Hdq HE' HR' Hm' Hdq' B a1 a2 E1 E2 i j HB Hl S1 S2 L1 L2 U1 U2 Hi Hj.
  pose proof (mesh_setting X P M g O U V HX Eg FX FA) as FS. destruct (corners_facts X P (proj1 HX)) as [Hc [H4 Lc]].
  destruct (leaf_element X P M g HX Eg a1 L1) as [F1 [I1 [A1 [T1 B1]]]]. destruct (leaf_element X P M g HX Eg a2 L2) as [F2 [I2 [A2 [T2 B2]]]].
  assert (N1 : e_node E1 = e_node F1) by congruence. assert (N2 : e_node E2 = e_node F2) by congruence. rewrite (integrate1_node laplace_hs ss X E1 E2 F1 F2) by assumption. rewrite N1, N2.
  destruct (far_elements X P M g HX Eg eta mincl bt B a1 a2 F1 F2 He Eb HB Hl I1 I2 A1 A2 L1 L2 B1 B2 T1 T2 U1 U2) as [C0 _].
  pose proof (C88_entries X P M g laplace_hs ss order rules F1 F2 (proj1 HX) Eg I1 I2 Hr) as Q. cbv zeta in Q. fold p in Q. rewrite C0 in Q.
  destruct (Hq F1 F2 I1 I2) as [Hd [GP GE]]. rewrite (Q Hd). clear Q.
  set (deg := Z.max (nearfield_degree p order (snd (compare_elements F1 F2)) M) (farfield_degree p order)) in *.
  assert (Dle : (Z.to_nat (farfield_degree p order) <= Z.to_nat deg)%nat) by (assert (farfield_degree p order <= deg)%Z by (unfold deg; lia); clearbody deg; lia).
  destruct (rules deg) as [x0 w0]. cbn [fst snd] in GP, GE.
  apply (hyper_rules close_points (corners_of X P) M (g_tree g) X O U V (g_points g) (g_balls g) (mid_of (g_balls g)) (rad_of (g_balls g)) FS ss eta mincl bt B a1 a2 F1 F2 i j d0 tg (2 * (Z.to_nat deg + 1)) m x0 w0 dq' m' xi w); try assumption.
  - rewrite Lc. exact Hg.
  - lia.
Qed.
End HyperConverge.
(** the product with the compressed matrix differs from that with the full matrix by a term that decreases exponentially with the
    number n of interpolation points per direction, and by the quadrature error of the far-field entries of the full matrix itself *)
Theorem C89_compressed_converges : forall X O U V P M g ss order rules eta mincl T nd m tg, surface_mesh X P -> init_mesh X P M = Some g ->
  flat_surface X O U V -> (forall p, area U V p <> 0) -> tangents_below U V P tg -> 0 < eta < 2 -> (0 <= mincl)%Z -> ss_M ss = M ->
  let p := Z.of_nat (ss_p ss) in let GS := fun d => tensor_rule (rules d) in let D := (ss_n2 ss * t_elements (g_tree g))%nat in
  forms_quadrature (g_elements g) p order M rules -> (0 < m)%nat -> (m + ss_p ss <= 2 * (Z.to_nat (farfield_degree p order) + 1))%nat ->
  exists bt d0 c q, block_tree (g_tree g) (near_of (mid_of (g_balls g)) (rad_of (g_balls g)) eta) mincl = Some bt /\ far_distance (g_balls g) bt d0 /\
  0 <= c /\ 0 <= q < 1 /\ let E := INR (ss_p ss) ^ 2 * (tg * tg / PI) * curl_error eta d0 m in
  forall n xi w ja jm H F alpha rhs res res', (0 < n)%nat -> positive_rule xi w -> exact_rule (n + ss_p ss) xi w ->
  compressed_operator laplace_hs ss X P M order GS eta mincl n xi w ja jm = Some H -> full_operator laplace_hs ss X P M order GS T F ->
  h2_product H D nd T alpha rhs res res' -> forall u,
  Rabs (res' u - (res u + alpha * rsum (fun v => F u v * rhs v) nd)) <=
  Rabs alpha * ((c * q ^ n + E) * norm1 D (fun r => T r u) * norm1 D (fun r => rsum (fun v => T r v * rhs v) nd)).
Proof.
  intros X O U V P M g ss order rules eta mincl T nd m tg HX Eg FX FA Hg He H0 HM p GS D HQ Hm Hdq.
  pose proof (mesh_setting X P M g O U V HX Eg FX FA) as FS. destruct (corners_facts X P (proj1 HX)) as [Hc [H4 Lc]].
  destruct (C88_mesh X P M g (proj1 HX) Eg) as [Et [_ [_ [_ [Me _]]]]]. set (form := op_form laplace_hs ss X order GS (g_elements g)).
  destruct (C33_assembly_exists 1 (ss_n2 ss) (t_elements (g_tree g)) form (map e_node (g_elements g))) as [A0 Am].
  destruct (reachable_wf (g_tree g) (mesh_reach X P M g HX Eg)) as [[l W] HPt].
  destruct (block_tree_ok (g_tree g) l (near_of (mid_of (g_balls g)) (rad_of (g_balls g)) eta) mincl W HPt) as [bt [Eb _]].
  destruct (C85_distance vec3 close_points (corners_of X P) M (g_tree g) X O U V (g_points g) (g_balls g) (mid_of (g_balls g)) (rad_of (g_balls g)) FS eta mincl bt (proj1 He) Eb) as [d0 Hd0].
  destruct (growth_exponential (eta / 2) ltac:(lra)) as [c [q [Hc' [Hq HE]]]].
  pose proof PI_RGT_0 as Pp. pose proof (proj1 Hd0) as D0. assert (D1 : 0 < / d0) by (apply Rinv_0_lt_compat, D0).
  set (f := INR (ss_p ss) ^ 2 * (tg * tg / PI)). set (E := f * curl_error eta d0 m).
  assert (Hf : 0 <= f) by (apply Rmult_le_pos; [apply pow2_ge_0|apply Rmult_le_pos; [apply Rle_0_sqr|apply Rlt_le, Rinv_0_lt_compat; lra]]).
  assert (HE0 : 0 <= E) by (apply Rmult_le_pos; [exact Hf|apply (curl_error_le eta d0 d0 m); lra || assumption]).
  exists bt, d0, (f * (6 / d0) * c), q. split; [exact Eb|]. split; [exact Hd0|]. split; [apply Rmult_le_pos; [apply Rmult_le_pos; [exact Hf|unfold Rdiv; lra]|exact Hc']|]. split; [exact Hq|].
  intros E' n xi w ja jm H F alpha rhs res res' Hn HR HX' EC EF HP u. change E' with E. clear E'.
  assert (EH : h2_init (op_linop laplace_hs ss X form) (g_tree g) (near_of (mid_of (g_balls g)) (rad_of (g_balls g)) eta) mincl n xi w ja jm = Some H) by (unfold compressed_operator in EC; rewrite Eg in EC; exact EC).
  destruct (h2_init_facts _ _ _ _ _ _ _ _ _ _ EH) as [T1 [T2 [T3 [T4 [T5 [T6 T7]]]]]].
  assert (SU : h2_of_mesh H P M).
  { rewrite <- Lc. apply (C54_setup vec3 close_points (corners_of X P) M (g_tree g) (op_linop laplace_hs ss X form) (near_of (mid_of (g_balls g)) (rad_of (g_balls g)) eta) mincl n xi w ja jm H Hc H4 Et); try assumption.
    - apply (mesh_root_near X P M g HX Eg).
    - cbn; lia.
    - cbn; lia. }
  destruct (C29_matrix_exists H P M SU) as [A DA].
  set (delta := f * (curl_error eta d0 m + curl_error eta d0 n)).
  assert (Eq : h_blocks H = bt) by congruence.
  assert (FQ : far_quadrature (g_tree g) X laplace_hs ss form xi w (h_blocks H) delta).
  { rewrite Eq. exact (mesh_hyper_quadrature X O U V P M g HX Eg FX FA ss order rules eta mincl bt d0 tg m xi w (n + ss_p ss) n HM Eb (proj1 He) Hd0 Hg HQ Hm Hdq HX' HR Hn (le_n _)). }
  assert (Rn : 0 <= curl_error eta d0 n) by (apply (curl_error_le eta d0 d0 n); lra || assumption).
  assert (Hdel : 0 <= delta) by (unfold delta; rewrite Rmult_plus_distr_l; fold E; assert (0 <= f * curl_error eta d0 n) by (apply Rmult_le_pos; assumption); lra).
  assert (DA' : described_by H (length (corners_of X P)) M A) by (rewrite Lc; exact DA).
  assert (Hg' : tangents_below U V (length (corners_of X P)) tg) by (rewrite Lc; exact Hg).
  assert (Hd0' : far_distance (g_balls g) (h_blocks H) d0) by (rewrite Eq; exact Hd0).
  assert (Vd1 : assembled 1 (ss_n2 ss) (t_elements (g_tree g)) form (map e_node (g_elements g)) A0) by exact Am.
  pose proof (C89_entries vec3 close_points (corners_of X P) M (g_tree g) X O U V (g_points g) (g_balls g) (mid_of (g_balls g)) (rad_of (g_balls g)) FS ss form eta mincl n xi w ja jm H A (map e_node (g_elements g)) A0 tg d0 delta (proj1 He) H0 Hn HM HR EH DA' Me Am Hg' Hd0' FQ Hdel) as Ent.
  fold f in Ent.
  assert (Bd : f * (2 / d0) * (growth n * (eta / 2) ^ n) + delta <= f * (6 / d0) * c * q ^ n + E).
  { unfold delta. rewrite Rmult_plus_distr_l. fold E. unfold curl_error.
    replace (f * (2 / d0) * (growth n * (eta / 2) ^ n) + (E + f * (4 / d0 * (growth n * (eta / 2) ^ n)))) with (f * (6 / d0) * (growth n * (eta / 2) ^ n) + E) by (field; lra).
    apply Rplus_le_compat_r. rewrite Rmult_assoc. rewrite (Rmult_assoc (f * (6 / d0))). rewrite <- Rmult_assoc. apply Rmult_le_compat_l; [apply Rmult_le_pos; [exact Hf|apply Rmult_le_pos; lra]|]. apply HE, Hn. }
  assert (Dim : (h_vd H * comp_size H P M)%nat = D).
  { unfold comp_size. rewrite T7, T4. cbn [o_vd o_p op_linop op_vd laplace_hs]. destruct (C88_mesh X P M g (proj1 HX) Eg) as [_ [_ [_ [_ [_ [_ [Lt _]]]]]]]. unfold D. rewrite Lt. unfold ss_n2. lia. }
  rewrite <- Dim in HP. pose proof (C85_product H P M A nd T alpha rhs res res' A0 (f * (6 / d0) * c * q ^ n + E) SU DA) as PR. cbv zeta in PR. rewrite Dim in PR, HP.
  assert (Ent' : forall i j, (i < D)%nat -> (j < D)%nat -> Rabs (A i j - A0 i j) <= f * (6 / d0) * c * q ^ n + E) by (intros i j Hi Hj; eapply Rle_trans; [apply Ent; assumption|exact Bd]).
  specialize (PR Ent' HP u).
  assert (EF0 : full_operator laplace_hs ss X P M order GS T (projected D T A0)).
  { exists g, A0. split; [exact Eg|]. split; [exact Am|]. cbn [op_vd laplace_hs]. unfold D. rewrite Nat.mul_1_l. reflexivity. }
  assert (Ef : rsum (fun v => F u v * rhs v) nd = rsum (fun v => projected D T A0 u v * rhs v) nd).
  { apply rsum_ext. intros v Hv. rewrite (C88_full_unique laplace_hs ss X P M order GS T F (projected D T A0) (proj1 HX) EF EF0). reflexivity. }
  rewrite Ef, projected_product. exact PR.
Qed.
(** ** a concrete case: two sheets far from each other, bilinear shape functions (the degree 1 and the order 1 of the operator) *)
Lemma flat_degree1 : forall d, (nearfield_degree 1 1 d 0 <= 0)%Z.
Proof.
  intros d. unfold nearfield_degree.
  assert (T : forall x, x <= 0 -> (trunc x <= 0)%Z).
  { intros x Hx. unfold trunc. destruct (Rle_dec 0 x) as [Hz|Hz].
    - assert (x = 0) by lra. subst x. assert (Int_part 0 = 0%Z); [|lia]. destruct (base_Int_part 0) as [A1 A2]. assert (-1 < IZR (Int_part 0)) by lra. apply lt_IZR in H. assert (IZR (Int_part 0) <= IZR 0) by lra. apply le_IZR in H0. lia.
    - destruct (base_Int_part (- x)) as [A1 A2]. assert (IZR (Int_part (- x)) > -1) by lra. apply Rgt_lt in H. apply (lt_IZR (-1)) in H. lia. }
  apply T. pose proof (C39_denominator d 0) as [Dn L2]. unfold nearfield_numerator. cbn [INR]. rewrite !Rmult_0_r, !Rmult_0_l, Rminus_0_l.
  assert (Ld : 0 <= distance_log d 0).
  { unfold distance_log. cbn [INR pow]. destruct (Rlt_dec (d * 1) 1) as [Hd|Hd]; [rewrite Rmult_0_l, Ropp_0; lra|]. destruct (Req_dec d 1) as [->|Ne]; [rewrite ln_1; lra|apply Rlt_le; rewrite <- ln_1; apply ln_increasing; lra]. }
  match goal with |- context [IZR ?z * distance_log d 0] => change (IZR z) with 2 end. set (dl := distance_log d 0) in *. set (dn := nearfield_denominator d 0) in *.
  assert (I0 : 0 < / dn) by (apply Rinv_0_lt_compat; lra). assert (Y : 0 <= dl * / dn) by (apply Rmult_le_pos; lra). replace (1 / 2 * - (2 * dl) / dn) with (- (dl * / dn)) by (field; lra). lra.
Qed.
Example C89_example : let rules := fun _ : Z => (gauss3_x, gauss3_w) in let GS := fun d => tensor_rule (rules d) in let ss := mkSS 1 0 zero_arr zero_arr zero_arr zero_arr in
  surface_mesh far_sheets 2 /\ flat_surface far_sheets far_O far_U far_V /\ (forall p, area far_U far_V p <> 0) /\ tangents_below far_U far_V 2 1 /\ exists g, init_mesh far_sheets 2 0 = Some g /\
  forms_quadrature (g_elements g) (Z.of_nat (ss_p ss)) 1 0 rules /\ (3 + ss_p ss <= 2 * (Z.to_nat (farfield_degree (Z.of_nat (ss_p ss)) 1) + 1))%nat /\
  positive_rule gauss3_x gauss3_w /\ exact_rule (5 + ss_p ss) gauss3_x gauss3_w /\
  exists H B, compressed_operator laplace_hs ss far_sheets 2 0 1 GS 1 0 5 gauss3_x gauss3_w zero_arr zero_mat = Some H /\ In B (leaves (h_blocks H)) /\ b_cc B = LowRank /\
  (forall T rhs nd, exists F res', full_operator laplace_hs ss far_sheets 2 0 1 GS T F /\ h2_product H (ss_n2 ss * t_elements (g_tree g)) nd T 1 rhs zero_arr res').
Proof.
  intros rules GS ss. destruct far_fits as [MO FI].
  assert (SM : surface_mesh far_sheets 2) by (split; [lia|]; rewrite sheet_numbers; split; assumption). split; [exact SM|].
  destruct C79_disjoint_example as [FX [FA _]]. split; [exact FX|]. split; [exact FA|].
  split. { intros q Hq. unfold far_U, far_V, vnorm, vdot, vx, vy, vz. cbn [fst snd]. split; (match goal with |- sqrt ?z <= 1 => replace z with 1 by ring end); rewrite sqrt_1; lra. }
  destruct C87_example as [_ [g [Eg [_ EC]]]]. exists g. split; [exact Eg|].
  assert (PR : positive_rule gauss3_x gauss3_w) by apply singular_example.
  assert (X4 : exact_rule 4 gauss3_x gauss3_w).
  { destruct gauss3_exact as [Lx Ex]. split; [exact Lx|]. intros c v I. specialize (Ex (fun k => if (k <? 4)%nat then c k else 0) v).
    assert (Pe : forall x, poly_eval (fun k => if (k <? 4)%nat then c k else 0) 6 x = poly_eval c 4 x) by (intros x; unfold poly_eval; cbn; ring).
    rewrite <- Ex by (apply (integral01_ext (poly_eval c 4)); [intros; symmetry; apply Pe|exact I]). unfold quad. apply rsum_ext. intros k _. rewrite Pe. reflexivity. }
  split.
  { split; [intros d; cbn; lia|]. intros E1 E2 I1 I2 deg. assert (deg = 1%Z) by (unfold deg; pose proof (flat_degree1 (snd (compare_elements E1 E2))); cbn in *; lia). split; [lia|]. rewrite H. split; [exact PR|exact X4]. }
  split; [cbn; lia|]. split; [exact PR|]. split; [exact gauss3_exact|].
  destruct (C88_compressed_exists far_sheets 2 0 g Ci laplace_hs ss 1 GS 1 0 5 gauss3_x gauss3_w zero_arr zero_mat SM Eg ltac:(cbn; tauto) ltac:(lia) ltac:(lia)) as [H [EH [SU [Vd [Cs _]]]]].
  destruct (EC laplace_hs ss 1%Z GS) as [H' [B [EH' [HB Cc]]]]. exists H, B. split; [exact EH|].
  assert (Eq : h_blocks H = h_blocks H').
  { unfold compressed_operator in EH, EH'. rewrite Eg in EH, EH'. cbn [bind] in EH, EH'. destruct (h2_init_facts _ _ _ _ _ _ _ _ _ _ EH) as [_ [_ [T3 _]]]. destruct (h2_init_facts _ _ _ _ _ _ _ _ _ _ EH') as [_ [_ [T3' _]]]. congruence. }
  rewrite Eq. split; [exact HB|]. split; [exact Cc|]. intros T rhs nd.
  destruct (C88_full_exists laplace_hs ss far_sheets 2 0 1 GS T SM) as [F EF].
  destruct (C28_execution_exists H (ss_n2 ss * t_elements (g_tree g)) nd T 1 rhs zero_arr) as [res' HP]. exists F, res'. split; [exact EF|exact HP].
Qed.

(* BEGIN ASSUMPTIONS *)
Print Assumptions C89_curl.
Print Assumptions C89_disjoint_elements.
Print Assumptions C89_far_entry.
Print Assumptions C89_galerkin.
Print Assumptions C89_entries.
Print Assumptions C89_converges.
Print Assumptions C89_compressed_converges.
