(** C78: the accuracy of the compressed far field of the Laplace double layer operators. *)
From Coq Require Import Reals Lra Lia Arith Bool List ZArith QArith Qreals.
From Coquelicot Require Import Coquelicot.
From Verif Require Import RSum SpecBernstein ModelBase ModelBernstein ProofBernstein ModelTree ModelBall ModelBlock ModelH2 ModelInterp ModelH2Init ModelQuad ModelAssembly ModelDuffy SpecTree SpecMesh SpecBall SpecQuad SpecInterp
  ProofTree ProofTreeWF ProofTreeHist ProofTreeGeo ProofTreeLook ProofPoints ProofMoment ProofInterp ProofBall PropTree PropBlock PropTopo PropConform PropBall PropH2 PropAssembly ProofH2Entry PropInterp SpecDuffy ProofDuffy ProofDuffyInt PropCompare ModelOperators SpecOperators ProofOperators PropOperators ProofNearFar PropNearFar
  SpecBlock SpecCheb ProofCheb ProofLegendre PropCheb SpecFlat ProofGegenbauer PropFarLaplace.
Local Close Scope Q_scope.
Import ListNotations.
Local Open Scope R_scope.

(** a function of the difference of two points with bounded derivatives along lines that stay away from the origin *)
Definition line_property (n : nat) (phi : vec3 -> R) (L d B : R) : Prop :=
  forall a b : vec3, vnorm b <= L -> (forall t, inside t -> d <= vnorm (vadd a (vscal t b))) -> derivative_bounded n B (fun t => phi (vadd a (vscal t b))).
Lemma flat_line : forall X O U V, flat_surface X O U V -> forall n c1 c2 d L phi B, side_ok U V c1 L -> side_ok U V c2 L ->
  (forall s s', in_open_square s -> in_open_square s' -> d <= vnorm (vsub (p_f (surf_point X c1 s 0)) (p_f (surf_point X c2 s' 0)))) -> line_property n phi L d B ->
  kernel_bounded n B (fun s s' => phi (vsub (p_f (surf_point X c1 s 0)) (p_f (surf_point X c2 s' 0)))).
Proof.
  intros X O U V FX n c1 c2 d L phi B [A1 A2] [B1 B2] Hdist LP.
  set (h1 := Q2R (get_h c1)) in *. set (h2 := Q2R (get_h c2)) in *. rewrite <- vnorm_scal in A1, A2.
  assert (B1' : vnorm (vscal (- h2) (U (n_patch c2))) <= L) by (rewrite vnorm_scal, Rabs_Ropp; exact B1).
  assert (B2' : vnorm (vscal (- h2) (V (n_patch c2))) <= L) by (rewrite vnorm_scal, Rabs_Ropp; exact B2).
  assert (G : forall (f : R -> vec3) a b, vnorm b <= L -> (forall t, f t = vadd a (vscal t b)) -> (forall t, inside t -> d <= vnorm (f t)) -> derivative_bounded n B (fun t => phi (f t))).
  { intros f a b Hb Ef Hf. refine (bounded_weaken _ _ _ _ _ (Rle_refl _) _ (LP a b Hb _)); [intros t; rewrite Ef; reflexivity|]. intros t It. rewrite <- Ef. apply Hf, It. }
  split; [|split; [|split]]; intros b c e Ib Ic Ie.
  - apply (G (fun a => vsub (p_f (surf_point X c1 (a, b) 0)) (p_f (surf_point X c2 (c, e) 0))) (vsub (p_f (surf_point X c1 (0, b) 0)) (p_f (surf_point X c2 (c, e) 0))) _ A1).
    + intros a. rewrite !(flat_point X O U V FX). cbn [p_f fst snd]. fold h1 h2. unfold vsub, vadd, vscal, vx, vy, vz. cbn [fst snd]. apply f_equal2; [apply f_equal2|]; ring.
    + intros a Ia. apply Hdist; split; assumption.
  - apply (G (fun a => vsub (p_f (surf_point X c1 (b, a) 0)) (p_f (surf_point X c2 (c, e) 0))) (vsub (p_f (surf_point X c1 (b, 0) 0)) (p_f (surf_point X c2 (c, e) 0))) _ A2).
    + intros a. rewrite !(flat_point X O U V FX). cbn [p_f fst snd]. fold h1 h2. unfold vsub, vadd, vscal, vx, vy, vz. cbn [fst snd]. apply f_equal2; [apply f_equal2|]; ring.
    + intros a Ia. apply Hdist; split; assumption.
  - apply (G (fun a => vsub (p_f (surf_point X c1 (b, c) 0)) (p_f (surf_point X c2 (a, e) 0))) (vsub (p_f (surf_point X c1 (b, c) 0)) (p_f (surf_point X c2 (0, e) 0))) _ B1').
    + intros a. rewrite !(flat_point X O U V FX). cbn [p_f fst snd]. fold h1 h2. unfold vsub, vadd, vscal, vx, vy, vz. cbn [fst snd]. apply f_equal2; [apply f_equal2|]; ring.
    + intros a Ia. apply Hdist; split; assumption.
  - apply (G (fun a => vsub (p_f (surf_point X c1 (b, c) 0)) (p_f (surf_point X c2 (e, a) 0))) (vsub (p_f (surf_point X c1 (b, c) 0)) (p_f (surf_point X c2 (e, 0) 0))) _ B2').
    + intros a. rewrite !(flat_point X O U V FX). cbn [p_f fst snd]. fold h1 h2. unfold vsub, vadd, vscal, vx, vy, vz. cbn [fst snd]. apply f_equal2; [apply f_equal2|]; ring.
    + intros a Ia. apply Hdist; split; assumption.
Qed.
(** the component of a vector in the direction m over the cube of its length *)
Definition cube_bound (n : nat) (s d : R) : R := INR (fact n) * s ^ n * (INR n + 1) ^ 2 / d ^ (n + 2).
Lemma cauchy : forall a b : vec3, Rabs (vdot a b) <= vnorm a * vnorm b.
Proof.
  intros a b. unfold vnorm. rewrite <- sqrt_mult by apply vdot_nonneg. rewrite <- sqrt_Rsqr_abs. apply sqrt_le_1_alt. unfold Rsqr, vdot, vx, vy, vz. destruct a as [[a1 a2] a3], b as [[b1 b2] b3]. cbn [fst snd].
  pose proof (Rle_0_sqr (a1 * b2 - a2 * b1)). pose proof (Rle_0_sqr (a1 * b3 - a3 * b1)). pose proof (Rle_0_sqr (a2 * b3 - a3 * b2)). unfold Rsqr in *. nra.
Qed.
Lemma cube_line : forall n m c d L, 0 < d -> line_property n (fun v => c * (vdot v m * / vnorm v ^ 3)) L d (Rabs c * vnorm m * cube_bound n L d).
Proof.
  intros n m c d L Hd a b Hb Hq. rewrite Rmult_assoc. apply bounded_scal.
  assert (Q : forall t, vnorm (vadd a (vscal t b)) = sqrt (qq (vdot a a) (vdot a b) (vdot b b) t)).
  { intros t. unfold vnorm. f_equal. unfold qq, vdot, vadd, vscal, vx, vy, vz. cbn [fst snd]. ring. }
  assert (CS : vdot a b ^ 2 <= vdot a a * vdot b b).
  { unfold vdot, vx, vy, vz. destruct a as [[a1 a2] a3], b as [[b1 b2] b3]. cbn [fst snd].
    pose proof (Rle_0_sqr (a1 * b2 - a2 * b1)). pose proof (Rle_0_sqr (a1 * b3 - a3 * b1)). pose proof (Rle_0_sqr (a2 * b3 - a3 * b2)). unfold Rsqr in *. nra. }
  pose proof (vdot_nonneg b) as Be.
  assert (Ln : forall t, vdot (vadd a (vscal t b)) m = vdot a m + vdot b m * t) by (intros t; unfold vdot, vadd, vscal, vx, vy, vz; cbn [fst snd]; ring).
  pose proof (cube_bounded (vdot a a) (vdot a b) (vdot b b) CS Be (vdot a m) (vdot b m) (vnorm m) n d Hd (vnorm_nonneg m) (fun t It => eq_ind _ (fun z => d <= z) (Hq t It) _ (Q t))) as CB.
  refine (bounded_weaken _ _ _ _ _ _ _ (CB _ _)).
  - apply Rmult_le_compat_l; [apply vnorm_nonneg|]. unfold cube_bound, Rdiv. apply Rmult_le_compat_r; [apply Rlt_le, Rinv_0_lt_compat, pow_lt, Hd|]. apply Rmult_le_compat_r; [apply pow_le; pose proof (pos_INR n); lra|]. apply Rmult_le_compat_l; [apply pos_INR|].
    fold (vnorm b). apply pow_incr. split; [apply vnorm_nonneg|exact Hb].
  - intros t. rewrite <- Q, <- Ln. reflexivity.
  - intros t It. rewrite <- Q, <- Ln, Rmult_comm. rewrite Rmult_comm, (Rmult_comm (vnorm m)). apply cauchy.
  - fold (vnorm b). rewrite Rmult_comm. apply cauchy.
Qed.
Lemma dl_kernel_cube : forall x y m, laplace_dl_kernel x y m = / (4 * PI) * (vdot (vsub x y) m * / vnorm (vsub x y) ^ 3).
Proof. intros x y m. unfold laplace_dl_kernel. cbv zeta. unfold Rdiv. cbn [pow]. rewrite Rmult_1_r, !Rinv_mult. ring. Qed.
Lemma adl_kernel_cube : forall x y m, laplace_adl_kernel x m y = - / (4 * PI) * (vdot (vsub x y) m * / vnorm (vsub x y) ^ 3).
Proof.
  intros x y m. unfold laplace_adl_kernel. cbv zeta. replace (vdot (vscal (-1) (vsub x y)) m) with (- vdot (vsub x y) m) by (unfold vdot, vscal, vx, vy, vz; cbn [fst snd]; ring).
  unfold Rdiv. cbn [pow]. rewrite Rmult_1_r, !Rinv_mult. ring.
Qed.
Lemma error4_cube : forall n c eta d, 0 < d -> cheb_error4 n (c * cube_bound n (2 * eta * d) d) = (1 + (2 * INR n - 1) + (2 * INR n - 1) ^ 2 + (2 * INR n - 1) ^ 3) * (2 * c * (INR n + 1) ^ 2 / d ^ 2 * (eta / 2) ^ n).
Proof.
  intros n c eta d Hd. unfold cheb_error4. cbv zeta. f_equal. unfold cheb_error, cube_bound. pose proof (INR_fact_lt_0 n) as Fp. assert (P4 : 0 < 4 ^ n) by (apply pow_lt; lra). assert (Pd : 0 < d ^ n) by (apply pow_lt, Hd).
  assert (P2 : 0 < 2 ^ n) by (apply pow_lt; lra). replace (4 ^ n) with (2 ^ n * 2 ^ n) by (rewrite <- Rpow_mult_distr; f_equal; ring).
  replace ((eta / 2) ^ n) with (eta ^ n * / 2 ^ n) by (unfold Rdiv; rewrite Rpow_mult_distr, pow_inv; reflexivity). rewrite !Rpow_mult_distr, pow_add. set (e := eta ^ n). set (p2 := 2 ^ n) in *. set (dn := d ^ n) in *. set (fn := INR (fact n)) in *. cbn [pow]. field. repeat split; lra.
Qed.
Section Far.
Context {Pt : Type} (close : Pt -> Pt -> bool) (corners : list (list Pt)) (M : nat) (t : tree) (X : surface) (O U V : nat -> vec3)
  (P : list (option vec3)) (b : balls) (mid : addr -> vec3) (rad : addr -> option R).
Hypothesis FS : far_setting close corners M t X O U V P b mid rad.
Lemma block_lines : forall o eta mincl n xi w ja jm H B c1 c2, h2_init o t (near_of mid rad eta) mincl n xi w ja jm = Some H ->
  In B (leaves (h_blocks H)) -> b_cc B = LowRank -> t_store t (b_c1 B) = Some c1 -> t_store t (b_c2 B) = Some c2 -> 0 < eta ->
  exists x1 x2, b (b_c1 B) = Some x1 /\ b (b_c2 B) = Some x2 /\ let d := dist3 (fst x1) (fst x2) - snd x1 - snd x2 in 0 < d /\
    forall m phi D, line_property m phi (2 * eta * d) d D -> kernel_bounded m D (fun s s' => phi (vsub (p_f (surf_point X c1 s 0)) (p_f (surf_point X c2 s' 0)))).
Proof.
  intros o eta mincl n xi w ja jm H B c1 c2 EH HB Hlr Ec1 Ec2 He. pose proof (fs_reach close corners M t X O U V P b mid rad FS) as Re.
  destruct (h2_init_facts _ _ _ _ _ _ _ _ _ _ EH) as [_ [_ [Eb _]]]. destruct (reachable_wf t Re) as [[l W] HP].
  destruct (block_tree_ok t l (near_of mid rad eta) mincl W HP) as [bt' [E' H']]. rewrite Eb in E'. apply some_eq in E'. subst bt'.
  destruct (H' B HB) as [_ [_ [_ [Cc _]]]]. rewrite Hlr in Cc. unfold compare_cluster in Cc.
  destruct (near_of mid rad eta (b_c1 B) (b_c2 B)) eqn:En; [destruct (_ <=? _)%Z in Cc; discriminate|].
  destruct (cluster_facts close corners M t X O U V P b mid rad FS _ _ Ec1) as [x1 [B1 [R1 [In1 Sd1]]]]. destruct (cluster_facts close corners M t X O U V P b mid rad FS _ _ Ec2) as [x2 [B2 [R2 [In2 Sd2]]]].
  destruct (near_false close corners M t X O U V P b mid rad FS eta _ _ x1 x2 B1 B2 R1 R2 En) as [A1 A2]. exists x1, x2. split; [exact B1|]. split; [exact B2|]. cbv zeta. set (d := dist3 (fst x1) (fst x2) - snd x1 - snd x2) in *.
  assert (Hd : 0 < d) by (unfold d; lra). split; [exact Hd|]. intros m phi D LP. pose proof (Rmax_l (snd x1) (snd x2)). pose proof (Rmax_r (snd x1) (snd x2)).
  apply (flat_line X O U V (fs_flat _ _ _ _ _ _ _ _ _ _ _ _ FS) m c1 c2 d (2 * eta * d)); [split; destruct Sd1; lra|split; destruct Sd2; lra| |exact LP].
  intros s s' Is Is'. destruct x1 as [m1 r1], x2 as [m2 r2]. cbn [fst snd] in *. apply balls_apart; [apply In1, open_closed, Is|apply In2, open_closed, Is'].
Qed.
End Far.
Lemma flat_n : forall X O U V, flat_surface X O U V -> forall n s w, p_n (surf_point X n s w) = vcross (U (n_patch n)) (V (n_patch n)).
Proof. intros X O U V FX n s w. rewrite (flat_point X O U V FX). reflexivity. Qed.
(** ** the double layer operators: the kernel decays like 1 / d^2 *)
Theorem C78_double_layer : forall (Pt : Type) (close : Pt -> Pt -> bool) corners M t X O U V P b mid rad, far_setting close corners M t X O U V P b mid rad ->
  forall ss form eta mincl n xi w ja jm H A, 0 < eta -> (0 <= mincl)%Z -> (0 < n)%nat -> ss_M ss = M -> positive_rule xi w ->
  h2_init (op_linop laplace_dl ss X form) t (near_of mid rad eta) mincl n xi w ja jm = Some H -> described_by H (length corners) M A ->
  forall B a1 a2 E1 E2 c1 c2 i j, In B (leaves (h_blocks H)) -> b_cc B = LowRank ->
  t_store t a1 = Some (e_node E1) -> t_store t a2 = Some (e_node E2) -> is_leaf t a1 -> is_leaf t a2 ->
  t_store t (b_c1 B) = Some c1 -> t_store t (b_c2 B) = Some c2 -> under (b_c1 B) a1 -> under (b_c2 B) a2 -> (i < ss_n2 ss)%nat -> (j < ss_n2 ss)%nat ->
  let N := (length corners * 4 ^ M)%nat in
  exists m1 r1 m2 r2, b (b_c1 B) = Some (m1, r1) /\ b (b_c2 B) = Some (m2, r2) /\ let d := dist3 m1 m2 - r1 - r2 in let L := 2 * INR n - 1 in 0 < d /\
  Rabs (A (row_of (ss_n2 ss) N 0 i (e_node E1)) (row_of (ss_n2 ss) N 0 j (e_node E2)) - integrate1 (op_kern laplace_dl ss X) E1 E2 (tensor_rule (xi, w)) i j)
  <= ss_h ss * ss_h ss * (area U V (n_patch (e_node E1)) * area U V (n_patch (e_node E2)) / (4 * PI)) * (1 + L + L ^ 2 + L ^ 3) * (2 * (INR n + 1) ^ 2 / d ^ 2) * (eta / 2) ^ n.
Proof.
  intros Pt close corners M t X O U V P b mid rad FS ss form eta mincl n xi w ja jm H A He H0 Hn HM HR EH DA B a1 a2 E1 E2 c1 c2 i j HB Hlr S1 S2 L1 L2 Ec1 Ec2 U1 U2 Hi Hj N.
  destruct (block_lines close corners M t X O U V P b mid rad FS _ eta mincl n xi w ja jm H B c1 c2 EH HB Hlr Ec1 Ec2 He) as [[m1 r1] [[m2 r2] [B1 [B2 [Hd KB]]]]]. cbn [fst snd] in *.
  exists m1, r1, m2, r2. split; [exact B1|]. split; [exact B2|]. cbv zeta. set (d := dist3 m1 m2 - r1 - r2) in *. split; [exact Hd|].
  pose proof (fs_flat _ _ _ _ _ _ _ _ _ _ _ _ FS) as FX. pose proof (fs_area _ _ _ _ _ _ _ _ _ _ _ _ FS) as FA. pose proof (fs_four _ _ _ _ _ _ _ _ _ _ _ _ FS) as H4. pose proof (fs_tree _ _ _ _ _ _ _ _ _ _ _ _ FS) as Et.
  destruct (level_patch close corners M t a1 (e_node E1) (b_c1 B) c1 H4 Et S1 L1 Ec1 U1) as [_ P1]. destruct (level_patch close corners M t a2 (e_node E2) (b_c2 B) c2 H4 Et S2 L2 Ec2 U2) as [_ P2].
  assert (HC : Ci <> RtoC 0) by (intro Q; injection Q; lra). pose proof PI_RGT_0 as Pp.
  pose proof (C77_compressed_error Pt close corners M t Ci laplace_dl ss X form (near_of mid rad eta) mincl n xi w ja jm H A (fs_ne _ _ _ _ _ _ _ _ _ _ _ _ FS) H4 Et (root_near close corners M t X O U V P b mid rad FS eta) H0 Hn
    (or_intror (or_introl eq_refl)) HC HM ltac:(apply HR) EH DA B a1 a2 E1 E2 c1 c2 0%nat 0%nat i j HB Hlr S1 S2 L1 L2 Ec1 Ec2 U1 U2 ltac:(cbn; lia) ltac:(cbn; lia) Hi Hj) as F.
  cbv zeta in F. fold N in F. rewrite !Nat.mul_0_l, !Nat.add_0_l in F.
  specialize (F (fun a bb _ _ => eq_ind_r (fun z => z <> 0) (FA _) (flat_kappa X O U V FX _ _ _)) (fun a bb _ _ => eq_ind_r (fun z => z <> 0) (FA _) (flat_kappa X O U V FX _ _ _))).
  set (k := / (4 * PI) * area U V (n_patch c1)). set (mm := vcross (U (n_patch c2)) (V (n_patch c2))).
  assert (Ak : Rabs k * vnorm mm = area U V (n_patch (e_node E1)) * area U V (n_patch (e_node E2)) / (4 * PI)).
  { unfold k. rewrite Rabs_mult, (Rabs_right (area _ _ _)) by apply Rle_ge, vnorm_nonneg.  rewrite Rabs_right by (apply Rle_ge, Rlt_le, Rinv_0_lt_compat; lra). change (vnorm mm) with (area U V (n_patch c2)). rewrite P1, P2. field. lra. }
  specialize (F (Rabs k * vnorm mm * cube_bound n (2 * eta * d) d) 1 (some_psi (ss_p ss)) HR (some_psi_ok _)).
  eapply Rle_trans; [apply F|].
  - intros C1 C2 HC1 HC2. refine (kernel_ext _ _ _ _ _ (KB n _ _ (cube_line n mm k d (2 * eta * d) Hd))). intros s s'. cbn [op_fmm laplace_dl]. unfold laplace_dl_fmm. rewrite dl_kernel_cube, !(flat_kappa X O U V FX), (flat_n X O U V FX). fold mm. unfold k. ring.
  - intros c C q s Hc HC' Hq [[A1 A2] [A3 A4]]. cbn [op_kinds laplace_dl plain_kinds]. rewrite component_plain by apply some_psi_ok. unfold shape. destruct (split_index _ q Hq) as [_ [I1 I2]].
    assert (Uq : forall m u, (m <= ss_p ss)%nat -> 0 < u < 1 -> 0 <= bern (ss_p ss) m u <= 1) by (intros m u Hm Hu; split; [apply bern_nonneg; lra|apply bern_le_1; [lra|assumption]]).
    pose proof (Uq _ (fst s) I2 (conj A1 A2)). pose proof (Uq _ (snd s) I1 (conj A3 A4)).
    rewrite Rabs_pos_eq by (apply Rmult_le_pos; lra). replace 1 with (1 * 1) by ring. apply Rmult_le_compat; lra.
  - rewrite error4_cube by exact Hd. rewrite Ak. cbn [op_nF laplace_dl INR]. apply Req_le. field. split; lra.
Qed.

Theorem C78_adjoint_double_layer : forall (Pt : Type) (close : Pt -> Pt -> bool) corners M t X O U V P b mid rad, far_setting close corners M t X O U V P b mid rad ->
  forall ss form eta mincl n xi w ja jm H A, 0 < eta -> (0 <= mincl)%Z -> (0 < n)%nat -> ss_M ss = M -> positive_rule xi w ->
  h2_init (op_linop laplace_adl ss X form) t (near_of mid rad eta) mincl n xi w ja jm = Some H -> described_by H (length corners) M A ->
  forall B a1 a2 E1 E2 c1 c2 i j, In B (leaves (h_blocks H)) -> b_cc B = LowRank ->
  t_store t a1 = Some (e_node E1) -> t_store t a2 = Some (e_node E2) -> is_leaf t a1 -> is_leaf t a2 ->
  t_store t (b_c1 B) = Some c1 -> t_store t (b_c2 B) = Some c2 -> under (b_c1 B) a1 -> under (b_c2 B) a2 -> (i < ss_n2 ss)%nat -> (j < ss_n2 ss)%nat ->
  let N := (length corners * 4 ^ M)%nat in
  exists m1 r1 m2 r2, b (b_c1 B) = Some (m1, r1) /\ b (b_c2 B) = Some (m2, r2) /\ let d := dist3 m1 m2 - r1 - r2 in let L := 2 * INR n - 1 in 0 < d /\
  Rabs (A (row_of (ss_n2 ss) N 0 i (e_node E1)) (row_of (ss_n2 ss) N 0 j (e_node E2)) - integrate1 (op_kern laplace_adl ss X) E1 E2 (tensor_rule (xi, w)) i j)
  <= ss_h ss * ss_h ss * (area U V (n_patch (e_node E1)) * area U V (n_patch (e_node E2)) / (4 * PI)) * (1 + L + L ^ 2 + L ^ 3) * (2 * (INR n + 1) ^ 2 / d ^ 2) * (eta / 2) ^ n.
Proof.
  intros Pt close corners M t X O U V P b mid rad FS ss form eta mincl n xi w ja jm H A He H0 Hn HM HR EH DA B a1 a2 E1 E2 c1 c2 i j HB Hlr S1 S2 L1 L2 Ec1 Ec2 U1 U2 Hi Hj N.
  destruct (block_lines close corners M t X O U V P b mid rad FS _ eta mincl n xi w ja jm H B c1 c2 EH HB Hlr Ec1 Ec2 He) as [[m1 r1] [[m2 r2] [B1 [B2 [Hd KB]]]]]. cbn [fst snd] in *.
  exists m1, r1, m2, r2. split; [exact B1|]. split; [exact B2|]. cbv zeta. set (d := dist3 m1 m2 - r1 - r2) in *. split; [exact Hd|].
  pose proof (fs_flat _ _ _ _ _ _ _ _ _ _ _ _ FS) as FX. pose proof (fs_area _ _ _ _ _ _ _ _ _ _ _ _ FS) as FA. pose proof (fs_four _ _ _ _ _ _ _ _ _ _ _ _ FS) as H4. pose proof (fs_tree _ _ _ _ _ _ _ _ _ _ _ _ FS) as Et.
  destruct (level_patch close corners M t a1 (e_node E1) (b_c1 B) c1 H4 Et S1 L1 Ec1 U1) as [_ P1]. destruct (level_patch close corners M t a2 (e_node E2) (b_c2 B) c2 H4 Et S2 L2 Ec2 U2) as [_ P2].
  assert (HC : Ci <> RtoC 0) by (intro Q; injection Q; lra). pose proof PI_RGT_0 as Pp.
  pose proof (C77_compressed_error Pt close corners M t Ci laplace_adl ss X form (near_of mid rad eta) mincl n xi w ja jm H A (fs_ne _ _ _ _ _ _ _ _ _ _ _ _ FS) H4 Et (root_near close corners M t X O U V P b mid rad FS eta) H0 Hn
    (or_intror (or_intror (or_introl eq_refl))) HC HM ltac:(apply HR) EH DA B a1 a2 E1 E2 c1 c2 0%nat 0%nat i j HB Hlr S1 S2 L1 L2 Ec1 Ec2 U1 U2 ltac:(cbn; lia) ltac:(cbn; lia) Hi Hj) as F.
  cbv zeta in F. fold N in F. rewrite !Nat.mul_0_l, !Nat.add_0_l in F.
  specialize (F (fun a bb _ _ => eq_ind_r (fun z => z <> 0) (FA _) (flat_kappa X O U V FX _ _ _)) (fun a bb _ _ => eq_ind_r (fun z => z <> 0) (FA _) (flat_kappa X O U V FX _ _ _))).
  set (k := - / (4 * PI) * area U V (n_patch c2)). set (mm := vcross (U (n_patch c1)) (V (n_patch c1))).
  assert (Ak : Rabs k * vnorm mm = area U V (n_patch (e_node E1)) * area U V (n_patch (e_node E2)) / (4 * PI)).
  { unfold k. rewrite Rabs_mult, (Rabs_right (area _ _ _)) by apply Rle_ge, vnorm_nonneg. rewrite Rabs_Ropp. rewrite Rabs_right by (apply Rle_ge, Rlt_le, Rinv_0_lt_compat; lra). change (vnorm mm) with (area U V (n_patch c1)). rewrite P1, P2. field. lra. }
  specialize (F (Rabs k * vnorm mm * cube_bound n (2 * eta * d) d) 1 (some_psi (ss_p ss)) HR (some_psi_ok _)).
  eapply Rle_trans; [apply F|].
  - intros C1 C2 HC1 HC2. refine (kernel_ext _ _ _ _ _ (KB n _ _ (cube_line n mm k d (2 * eta * d) Hd))). intros s s'. cbn [op_fmm laplace_adl]. unfold laplace_adl_fmm. rewrite adl_kernel_cube, !(flat_kappa X O U V FX), (flat_n X O U V FX). fold mm. unfold k. ring.
  - intros c C q s Hc HC' Hq [[A1 A2] [A3 A4]]. cbn [op_kinds laplace_adl plain_kinds]. rewrite component_plain by apply some_psi_ok. unfold shape. destruct (split_index _ q Hq) as [_ [I1 I2]].
    assert (Uq : forall m u, (m <= ss_p ss)%nat -> 0 < u < 1 -> 0 <= bern (ss_p ss) m u <= 1) by (intros m u Hm Hu; split; [apply bern_nonneg; lra|apply bern_le_1; [lra|assumption]]).
    pose proof (Uq _ (fst s) I2 (conj A1 A2)). pose proof (Uq _ (snd s) I1 (conj A3 A4)).
    rewrite Rabs_pos_eq by (apply Rmult_le_pos; lra). replace 1 with (1 * 1) by ring. apply Rmult_le_compat; lra.
  - rewrite error4_cube by exact Hd. rewrite Ak. cbn [op_nF laplace_adl INR]. apply Req_le. field. split; lra.
Qed.

(** the setting of C78_example meets the hypotheses for the double layer operators as well: only the operator differs *)
Example C78_double_example : exists t P b mid rad, far_setting Nat.eqb far_corners 0 t far_sheets far_O far_U far_V P b mid rad /\
  exists H A B, h2_init (op_linop laplace_dl (mkSS 1 0 zero_arr zero_arr zero_arr zero_arr) far_sheets (fun _ _ _ _ => 0)) t (near_of mid rad 1) 0 4 [/ 2] [1] zero_arr zero_mat = Some H /\
    described_by H 2 0 A /\ In B (leaves (h_blocks H)) /\ b_cc B = LowRank.
Proof.
  destruct C78_example as [t [P [b [mid [rad [FS [H0 [A0 [B [_ [_ [_ [_ [EH0 [_ [_ [HB [Cc _]]]]]]]]]]]]]]]]]].
  exists t, P, b, mid, rad. split; [exact FS|].
  destruct (h2_init_facts _ _ _ _ _ _ _ _ _ _ EH0) as [_ [_ [Ebt _]]]. set (sse := mkSS 1 0 zero_arr zero_arr zero_arr zero_arr).
  assert (EH : exists H, h2_init (op_linop laplace_dl sse far_sheets (fun _ _ _ _ => 0)) t (near_of mid rad 1) 0 4 [/ 2] [1] zero_arr zero_mat = Some H) by (unfold h2_init; rewrite Ebt; cbn [bind]; eauto).
  destruct EH as [H EH].
  assert (SU : h2_of_mesh H 2 0).
  { apply (C54_setup nat Nat.eqb far_corners 0 t (op_linop laplace_dl sse far_sheets (fun _ _ _ _ => 0)) (near_of mid rad 1) 0 4 [/ 2] [1] zero_arr zero_mat H).
    - intro K; discriminate K. - apply (fs_four _ _ _ _ _ _ _ _ _ _ _ _ FS). - apply (fs_tree _ _ _ _ _ _ _ _ _ _ _ _ FS). - apply (root_near _ _ _ _ _ _ _ _ _ _ _ _ FS). - lia. - lia. - cbn; lia. - cbn; lia. - exact EH. }
  destruct (C29_matrix_exists H 2 0 SU) as [A DA]. destruct (h2_init_facts _ _ _ _ _ _ _ _ _ _ EH) as [_ [_ [T3 _]]]. rewrite Ebt in T3. apply some_eq in T3.
  exists H, A, B. split; [exact EH|]. split; [exact DA|]. split; [rewrite <- T3; exact HB|exact Cc].
Qed.

(* BEGIN ASSUMPTIONS *)
Print Assumptions C78_double_layer.
Print Assumptions C78_adjoint_double_layer.
