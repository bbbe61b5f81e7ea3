(** C92: the wave number zero and conjugate waves.  For the wave number zero the Helmholtz operators are the Laplace operators, and the operators
    and potentials for the negative of a real wave number are the complex conjugates of those for the wave number. *)
From Coq Require Import Reals Lra Lia Arith Bool List ZArith QArith Qreals FunctionalExtensionality.
From Coquelicot Require Import Complex.
From Verif Require Import RSum ModelBase ModelBernstein ModelTree ModelBall ModelBlock ModelH2 ModelH2Init ModelQuad ModelDuffy ModelAssembly ModelUtil ModelOperators ModelForms ModelL2 ModelPipeline SpecTree SpecMesh SpecBall SpecH2 SpecFlat SpecMotion.
From Verif Require Import ProofTree ProofTreeWF ProofBlock ProofH2Prod ProofTreeLook ProofTreeHist PropBlock ProofMotion ProofPipeline ProofNearFar PropTopo PropBall PropH2 PropInterp PropAssembly PropQuad PropForms PropOperators PropFarLaplace PropMotion PropPipeline PropWhole PropUnits PropUnitsH2 ProofScale.
From Verif Require Import SpecWave ProofWave.
Import ListNotations.
Local Close Scope Q_scope.
Local Open Scope R_scope.

(** the integrands of the quadrature and the kernels interpolated on pairs of clusters; in the hypersingular operator for the wave number zero the
    latter have another number of components (C92_compressed covers it all the same) *)
Theorem C92_operators : forall k op' op s ss X, In (op', op, s) (wave_pairs k) ->
  (op_vd op' = op_vd op /\ forall e1 x e2 y a b, (a < op_vd op * ss_n2 ss)%nat -> (b < op_vd op * ss_n2 ss)%nat -> op_kern op' ss X e1 x e2 y a b = s * op_kern op ss X e1 x e2 y a b) /\
  (In (op', op, s) (wave_same k) -> op_nF op' = op_nF op /\ op_kinds op' = op_kinds op /\ forall p q i j, op_fmm op' p q i j = s * op_fmm op p q i j).
Proof.
  intros k op' op s ss X Hop. split; [split; [apply (wave_vd k op' op s Hop)|]|].
  - intros. apply (wave_kern k op' op s); assumption.
  - intros W. destruct (wave_nF k op' op s W) as [F1 F2]. split; [exact F1|]. split; [exact F2|]. intros. apply (wave_fmm k op' op s). exact W.
Qed.
(** the entries of the local matrices *)
Theorem C92_entries : forall k op' op s ss X order GS els e1 e2 a b, In (op', op, s) (wave_pairs k) -> (a < op_vd op * ss_n2 ss)%nat -> (b < op_vd op * ss_n2 ss)%nat ->
  op_form op' ss X order GS els e1 e2 a b = s * op_form op ss X order GS els e1 e2 a b.
Proof. intros k op' op s ss X order GS els e1 e2 a b Hop Ha Hb. apply (wave_op_form k); assumption. Qed.
(** the full matrix, whatever the schedules of the two computations *)
Theorem C92_full : forall X P M k op' op s ss order GS T A A', (0 < P)%nat -> In (op', op, s) (wave_pairs k) ->
  full_operator op ss X P M order GS T A -> full_operator op' ss X P M order GS T A' -> forall u v, A' u v = s * A u v.
Proof.
  intros X P M k op' op s ss order GS T A A'  HP Hop F F' u v.
  assert (Eg : exists g, init_mesh X P M = Some g) by (destruct F as [g [d [Eg _]]]; eauto). destruct Eg as [g Eg].
  destruct (C88_full op ss X P M g order GS T A HP Eg F) as [Re V]. destruct (C88_full op' ss X P M _ order GS T A' HP Eg F') as [_ V']. rewrite (wave_vd k op' op s Hop) in V'. rewrite V, V'. clear V V'.
  set (n2 := ss_n2 ss) in *. set (N := (P * 4 ^ M)%nat) in *. set (D := (op_vd op * n2 * N)%nat) in *.
  rewrite <- rsum_scal. apply rsum_ext. intros q Hq. match goal with |- _ * ?A1 = s * (_ * ?A0) => assert (EA : A1 = s * A0); [|rewrite EA; ring] end.
  rewrite <- rsum_scal. apply rsum_ext. intros q' Hq'.
  destruct (Re q Hq) as [e1 Ee]. destruct (Re q' Hq') as [e2 Ee']. rewrite Ee, Ee'.
  assert (RL : forall z, (z < D)%nat -> (row_local n2 N z < op_vd op * n2)%nat).
  { intros z Hz. assert (Np : N <> 0%nat) by (unfold D in Hz; lia). assert (Kp : n2 <> 0%nat) by (unfold D in Hz; lia). unfold row_local.
    assert (z / n2 / N < op_vd op)%nat by (apply Nat.div_lt_upper_bound; [lia|]; apply Nat.div_lt_upper_bound; [lia|]; unfold D in Hz; lia).
    pose proof (Nat.mod_upper_bound z n2 Kp). clear - H H0. nia. }
  rewrite (C92_entries k op' op s ss X order GS (g_elements g) (e_node e1) (e_node e2) _ _  Hop (RL q Hq) (RL q' Hq')). ring.
Qed.

(** the blocks of the two matrices are the same, and the entries the blocks describe differ by the factor *)
Theorem C92_compressed : forall X P M g k op' op s ss order GS eta mincl n xi w ja jm H H', surface_mesh X P -> init_mesh X P M = Some g -> In (op', op, s) (wave_pairs k) -> (0 < n)%nat ->
  compressed_operator op ss X P M order GS eta mincl n xi w ja jm = Some H -> compressed_operator op' ss X P M order GS eta mincl n xi w ja jm = Some H' ->
  h_tree H' = h_tree H /\ h_blocks H' = h_blocks H /\ forall A, described_by H P M A -> described_by H' P M (fun q q' => s * A q q').
Proof.
  intros X P M g k op' op s ss order GS eta mincl n xi w ja jm H H'  HX Eg Hop Hn EC EC'.
  unfold compressed_operator in EC, EC'. rewrite Eg in EC. rewrite Eg in EC'. cbn [bind] in EC, EC'. set (near := near_of (mid_of (g_balls g)) (rad_of (g_balls g)) eta) in EC.
  fold near in EC'.
  destruct (h2_init_facts _ _ _ _ _ _ _ _ _ _ EC) as [T1 [T2 [T3 [T4 [T5 [T6 T7]]]]]]. destruct (h2_init_facts _ _ _ _ _ _ _ _ _ _ EC') as [T1' [T2' [T3' [T4' [T5' [T6' T7']]]]]].
  split; [congruence|]. split; [congruence|].
  destruct (reachable_wf (g_tree g) (mesh_reach X P M g HX Eg)) as [[q W] HPt]. destruct (block_tree_ok (g_tree g) q near mincl W HPt) as [bt [Ebt Hleaf]]. rewrite T3 in Ebt. apply some_eq in Ebt. subst bt.
  intros A DA rc cc i j B rs cs Hrc Hcc Hi Hj HB Hb E1 E2.
  assert (CS : comp_size H' P M = comp_size H P M) by (unfold comp_size; rewrite T4, T4'; reflexivity). rewrite CS in *.
  assert (Kk : h_k H' = h_k H) by (rewrite T4, T4'; reflexivity). assert (Tt : h_tree H' = h_tree H) by congruence. rewrite Kk, Tt in *. rewrite T3 in T3'. apply some_eq in T3'. rewrite <- T3' in HB.
  assert (Vv : h_vd H' = h_vd H) by (rewrite T7, T7'; cbn [op_linop o_vd]; apply (wave_vd k op' op s), Hop). rewrite Vv in Hrc, Hcc.
  rewrite (DA rc cc i j B rs cs Hrc Hcc Hi Hj HB Hb E1 E2). pose proof (Hleaf B HB) as LO. unfold leaf_ok in LO. destruct LO as [C1 [C2 LO]]. assert (KB : b_cc B = compare_cluster (g_tree g) near mincl (b_c1 B) (b_c2 B)) by tauto. clear LO.
  assert (Hvd : h_vd H = op_vd op) by (rewrite T7; reflexivity). rewrite Hvd in Hrc, Hcc.
  (* the interaction matrices of the leaf *)
  assert (FD : b_cc B <> LowRank -> forall r u, h_F H' rc cc (b_c1 B) (b_c2 B) r u = s * h_F H rc cc (b_c1 B) (b_c2 B) r u).
  { intros NL r u. rewrite KB in NL. unfold h2_init in EC, EC'. apply bind_some in EC. destruct EC as [b1 [_ EC]]. apply bind_some in EC'. destruct EC' as [b2 [_ EC']]. cbv zeta in EC, EC'. apply some_eq in EC. apply some_eq in EC'. rewrite <- EC, <- EC'. cbn [h_F].
    assert (DL : dense_leaf (op_linop op' ss X (op_form op' ss X order GS (g_elements g))) (g_tree g) rc cc (b_c1 B) (b_c2 B) r u = s * dense_leaf (op_linop op ss X (op_form op ss X order GS (g_elements g))) (g_tree g) rc cc (b_c1 B) (b_c2 B) r u).
    { unfold dense_leaf. cbn [op_linop o_p o_form].
      destruct (elements_of (g_tree g) (b_c1 B)) as [la|] eqn:La; cbn [bind]; [|ring]. destruct (get la _) as [a1|] eqn:Ga; cbn [bind]; [|ring]. destruct (t_store (g_tree g) a1) as [e1|] eqn:Sa; [|ring].
      destruct (elements_of (g_tree g) (b_c2 B)) as [lb|] eqn:Lb; cbn [bind]; [|ring]. destruct (get lb _) as [a2|] eqn:Gb; cbn [bind]; [|ring]. destruct (t_store (g_tree g) a2) as [e2|] eqn:Sb; [|ring].
      destruct (cluster_element X P M g (b_c1 B) la a1 e1 HX Eg C1 La (nth_error_In _ _ Ga) Sa) as [F1 [I1 N1]]. destruct (cluster_element X P M g (b_c2 B) lb a2 e2 HX Eg C2 Lb (nth_error_In _ _ Gb) Sb) as [F2 [I2 N2]]. subst e1 e2.
      assert (Kp : ((ss_p ss + 1) * (ss_p ss + 1) <> 0)%nat) by (rewrite Nat.add_1_r; discriminate).
      assert (Lt : forall c z, (c < op_vd op)%nat -> (c * ((ss_p ss + 1) * (ss_p ss + 1)) + z mod ((ss_p ss + 1) * (ss_p ss + 1)) < op_vd op * ss_n2 ss)%nat).
      { intros c z Hc. unfold ss_n2. pose proof (Nat.mod_upper_bound z _ Kp) as Z. revert Z. generalize (z mod ((ss_p ss + 1) * (ss_p ss + 1)))%nat. generalize ((ss_p ss + 1) * (ss_p ss + 1))%nat. intros k2 z2 Z. apply Nat.lt_le_trans with ((c + 1) * k2)%nat; [lia|]. apply Nat.mul_le_mono_r. lia. }
      apply (C92_entries k op' op s ss X order GS (g_elements g) (e_node F1) (e_node F2) _ _ Hop); apply Lt; assumption. }
    destruct (compare_cluster (g_tree g) near mincl (b_c1 B) (b_c2 B)); [exact DL|congruence|exact DL]. }
  symmetry. destruct (b_cc B) eqn:KC; unfold block_entry; rewrite KC; cbv zeta; [apply FD; congruence| |apply FD; congruence]. clear FD.
  unfold h2_init in EC, EC'. apply bind_some in EC. destruct EC as [b1 [_ EC]]. apply bind_some in EC'. destruct EC' as [b2 [_ EC']]. cbv zeta in EC, EC'. apply some_eq in EC. apply some_eq in EC'. rewrite <- EC, <- EC'. cbn [h_tree h_mincl h_F h_np h_mc h_nF h_mom h_T]. rewrite <- KB. clear EC EC'.
  cbn [op_linop o_kinds o_p o_nF]. unfold lowrank_leaf. destruct (wave_hs k op' op s Hop) as [Sa|[Vd [N3 [N2 [KK [Z0 ZS]]]]]].
  - rewrite (proj1 (wave_nF k op' op s Sa)), (proj2 (wave_nF k op' op s Sa)). rewrite <- rsum_scal; apply rsum_ext; intros u Hu; rewrite <- rsum_scal; apply rsum_ext; intros v Hv.
    destruct (t_store (g_tree g) (b_c1 B)) as [e1|]; [|ring]. destruct (t_store (g_tree g) (b_c2 B)) as [e2|]; [|ring].
    unfold interpolate_kernel. cbn [op_linop o_kernel o_nF]. rewrite (proj1 (wave_nF k op' op s Sa)), (wave_fmm k op' op s _ _ _ _ Sa). ring.
  - rewrite N3, N2. rewrite Vd in Hrc, Hcc. assert (rc = 0%nat) by lia. assert (cc = 0%nat) by lia. subst rc cc. assert (Np : (0 < n * n)%nat) by (apply Nat.mul_pos_pos; exact Hn).
    set (np := (n * n)%nat) in *. refine (wave_shift np _ _ _ _ _ _ s _ _ _ _).
    + intros r. apply wave_basis; [exact Np|]. intros r0 d. destruct (wave_div np r0 Np) as [-> ->]. rewrite KK. reflexivity.
    + intros r. apply wave_basis; [exact Np|]. intros r0 d. destruct (wave_div np r0 Np) as [-> ->]. rewrite KK. reflexivity.
    + intros u v Huv. destruct (t_store (g_tree g) (b_c1 B)) as [e1|]; [|reflexivity]. destruct (t_store (g_tree g) (b_c2 B)) as [e2|]; [|reflexivity].
      unfold interpolate_kernel. cbn [op_linop o_kernel]. fold np. apply Z0. rewrite !Nat.mul_0_l, !Nat.add_0_l. destruct Huv as [Q|Q]; [left|right]; apply Nat.div_small; exact Q.
    + intros u v. destruct (t_store (g_tree g) (b_c1 B)) as [e1|]; [|ring]. destruct (t_store (g_tree g) (b_c2 B)) as [e2|]; [|ring].
      unfold interpolate_kernel. cbn [op_linop o_kernel]. fold np. rewrite !Nat.mul_0_l, !Nat.add_0_l. destruct (wave_div np u Np) as [-> ->]. destruct (wave_div np v Np) as [-> ->]. apply ZS.
Qed.
(** the product with a vector, whatever the schedules of the two computations; alpha and res are the factor and the vector of the
    destination in res + alpha * H * rhs *)
Theorem C92_product : forall X P M g k op' op s ss order GS eta mincl n xi w ja jm H H' nd T alpha rhs res z z', surface_mesh X P -> init_mesh X P M = Some g -> In (op', op, s) (wave_pairs k) -> (0 <= mincl)%Z -> (0 < n)%nat ->
  compressed_operator op ss X P M order GS eta mincl n xi w ja jm = Some H -> compressed_operator op' ss X P M order GS eta mincl n xi w ja jm = Some H' ->
  let D := (op_vd op * (ss_n2 ss * t_elements (g_tree g)))%nat in h2_product H D nd T alpha rhs res z -> h2_product H' D nd T alpha rhs res z' -> forall i, z' i - res i = s * (z i - res i).
Proof.
  intros X P M g k op' op s ss order GS eta mincl n xi w ja jm H H' nd T alpha rhs res z z'  HX Eg Hop H0 Hn EC EC' D HP HP' i.
  destruct (C92_compressed X P M g k op' op s ss order GS eta mincl n xi w ja jm H H'  HX Eg Hop Hn EC EC') as [Tt [Tb TA]].
  pose proof (wave_library k op' op s Hop) as Il.
  destruct (C88_compressed_exists X P M g k op ss order GS eta mincl n xi w ja jm HX Eg Il H0 Hn) as [H1 [EC1 [SU [V1 [CS [A [DA _]]]]]]]. rewrite EC in EC1. apply some_eq in EC1. subst H1.
  destruct (wave_library' k op' op s Hop) as [k' Il'].
  destruct (C88_compressed_exists X P M g k' op' ss order GS eta mincl n xi w ja jm HX Eg Il' H0 Hn) as [H2 [EC2 [SU' [V1' [CS2 _]]]]]. rewrite EC' in EC2. apply some_eq in EC2. subst H2.
  assert (F5 : h_vd H' = h_vd H) by (rewrite V1, V1'; apply (wave_vd k op' op s Hop)).
  assert (CS' : comp_size H' P M = comp_size H P M) by (rewrite CS, CS2; reflexivity).
  assert (ED : D = (h_vd H * comp_size H P M)%nat) by (unfold D; rewrite V1, CS; reflexivity). rewrite ED in *.
  pose proof (C29_product H P M A nd T alpha rhs res z SU DA HP i) as Q. cbv zeta in Q. rewrite Q. clear Q.
  pose proof (C29_product H' P M _ nd T alpha rhs res z' SU' (TA A DA)) as Q. cbv zeta in Q. rewrite F5, CS' in Q. specialize (Q HP' i). rewrite Q. clear Q.
  match goal with |- ?r + alpha * ?S' - ?r = s * (?r + alpha * ?S0 - ?r) => assert (ES : S' = s * S0); [|rewrite ES; ring] end.
  rewrite <- rsum_scal. apply rsum_ext. intros q Hq. match goal with |- _ * ?S' = s * (_ * ?S0) => assert (ES : S' = s * S0); [|rewrite ES; ring] end.
  rewrite <- rsum_scal. apply rsum_ext. intros q' Hq'. ring.
Qed.
(** both matrices exist or neither *)
Theorem C92_compressed_exists : forall X P M op op' ss order GS order' GS' eta mincl n xi w ja jm H,
  compressed_operator op ss X P M order GS eta mincl n xi w ja jm = Some H -> exists H', compressed_operator op' ss X P M order' GS' eta mincl n xi w ja jm = Some H'.
Proof.
  intros X P M op op' ss order GS order' GS' eta mincl n xi w ja jm H EC. unfold compressed_operator in *. apply bind_some in EC. destruct EC as [g [Eg EC]]. rewrite Eg. cbn [bind].
  unfold h2_init in *. apply bind_some in EC. destruct EC as [bt [-> _]]. cbn [bind]. eauto.
Qed.

(** for a purely imaginary wave number (the modified Helmholtz equation) the matrices are real: the imaginary parts are zero, and the imaginary part
    of the product of the compressed matrix with a real vector is zero *)
Theorem C92_imaginary_wave : forall X P M g k cop ss order GS, fst k = 0 -> In cop (wave_operators k) ->
  (forall els e1 e2 a b, (a < op_vd cop * ss_n2 ss)%nat -> (b < op_vd cop * ss_n2 ss)%nat -> op_form (part_of snd cop) ss X order GS els e1 e2 a b = 0) /\
  (forall T A, (0 < P)%nat -> full_operator (part_of snd cop) ss X P M order GS T A -> forall u v, A u v = 0) /\
  (forall eta mincl n xi w ja jm H nd T alpha rhs res z, surface_mesh X P -> init_mesh X P M = Some g -> (0 <= mincl)%Z -> (0 < n)%nat ->
   compressed_operator (part_of snd cop) ss X P M order GS eta mincl n xi w ja jm = Some H ->
   h2_product H (op_vd cop * (ss_n2 ss * t_elements (g_tree g)))%nat nd T alpha rhs res z -> forall i, z i = res i).
Proof.
  intros X P M g k cop ss order GS Hk Hc.
  assert (Ek : conjugate_wave k = k) by (destruct k as [k1 k2]; unfold conjugate_wave; cbn [fst snd] in *; subst k1; f_equal; ring).
  assert (Hp : In (part_of snd cop, part_of snd cop, -1) (wave_pairs k)).
  { unfold wave_pairs, wave_same, wave_conjugate. apply in_or_app. left. apply in_or_app. right. rewrite Ek. apply in_flat_map. exists (cop, cop).
    split; [|right; left; reflexivity]. unfold wave_operators in *. cbn [combine In] in *. repeat (destruct Hc as [Hc|Hc]; [subst cop; auto 10|]). destruct Hc. }
  assert (V : op_vd (part_of snd cop) = op_vd cop) by reflexivity. split; [|split].
  - intros els e1 e2 a b Ha Hb. pose proof (C92_entries k _ _ _ ss X order GS els e1 e2 a b Hp Ha Hb). lra.
  - intros T A HP F u v. pose proof (C92_full X P M k _ _ _ ss order GS T A A HP Hp F F u v). lra.
  - intros eta mincl n xi w ja jm H nd T alpha rhs res z HX Eg H0 Hn EC HZ i. pose proof (C92_product X P M g k _ _ _ ss order GS eta mincl n xi w ja jm H H nd T alpha rhs res z z HX Eg Hp H0 Hn EC EC HZ HZ i). lra.
Qed.

(** the potentials: wave number zero.  f is the function with real part fr and imaginary part fi *)
Lemma evaluate_both : forall (X : surface) t pp (fr fi : list arr) Er Ei, init_evaluator (t, X) pp fr = Some Er -> init_evaluator (t, X) pp fi = Some Ei -> length fi = length fr ->
  forall e, coefficients Ei e = None <-> coefficients Er e = None.
Proof.
  intros X t pp fr fi Er Ei I1 I2 L e. unfold init_evaluator in *. cbn [fst] in *. destruct (reordering_vector t) as [rv|]; [|discriminate]. cbn [bind] in *. injection I1 as <-. injection I2 as <-.
  unfold coefficients. cbn [e_p2 e_fun]. rewrite L. unfold assert. destruct (_ <=? _)%nat; cbn [bind]; split; intros; congruence.
Qed.
Theorem C92_zero_potentials : forall X ss t pp fr fi Er Ei points xi w npts els n n' v v', (0 < n)%nat -> (0 < n')%nat ->
  init_evaluator (t, X) pp fr = Some Er -> init_evaluator (t, X) pp fi = Some Ei -> length fi = length fr ->
  (potential (sl_integrand ss X Er points) xi w npts 1 els n v -> potential (hsl_integrand fst (RtoC 0) ss X Er Ei points) xi w npts 1 els n' v' -> forall i, (i < npts)%nat -> v' i 0%nat = v i 0%nat) /\
  (potential (sl_integrand ss X Ei points) xi w npts 1 els n v -> potential (hsl_integrand snd (RtoC 0) ss X Er Ei points) xi w npts 1 els n' v' -> forall i, (i < npts)%nat -> v' i 0%nat = v i 0%nat) /\
  (potential (dl_integrand ss X Er points) xi w npts 1 els n v -> potential (hdl_integrand fst (RtoC 0) ss X Er Ei points) xi w npts 1 els n' v' -> forall i, (i < npts)%nat -> v' i 0%nat = v i 0%nat) /\
  (potential (dl_integrand ss X Ei points) xi w npts 1 els n v -> potential (hdl_integrand snd (RtoC 0) ss X Er Ei points) xi w npts 1 els n' v' -> forall i, (i < npts)%nat -> v' i 0%nat = v i 0%nat).
Proof.
  intros X ss t pp fr fi Er Ei points xi w npts els n n' v v' Hn Hn' I1 I2 L. pose proof (evaluate_both X t pp fr fi Er Ei I1 I2 L) as B.
  assert (G : forall F F' : integrand, (forall e s u j, F' e s u j 0%nat = F e s u j 0%nat) -> potential F xi w npts 1 els n v -> potential F' xi w npts 1 els n' v' -> forall i, (i < npts)%nat -> v' i 0%nat = v i 0%nat).
  { intros F F' EF P P' i Hi. rewrite <- (Rmult_1_l (v i 0%nat)). apply (potential_scaled F F' 1 xi w npts 1 els n n' v v' Hn Hn'); [|exact P|exact P'|exact Hi|lia].
    intros e s u j o Ho. assert (o = 0%nat) by lia. subst o. rewrite EF. ring. }
  assert (DD : forall x p, laplace_dl_kernel x (p_f p) (p_n p) = vdot (laplace_dl_gradient x (p_f p)) (p_n p)) by (intros; unfold laplace_dl_kernel, laplace_dl_gradient; unfold vdot, vscal, vx, vy, vz; cbn [fst snd]; unfold Rdiv; ring).
  split; [|split; [|split]]; apply G; intros e s u j; specialize (B e); unfold sl_integrand, hsl_integrand, dl_integrand, hdl_integrand, helmholtz_sl_potential, laplace_sl_potential, helmholtz_dl_potential, laplace_dl_potential, cevaluate_scalar, evaluate_scalar, evaluate;
    rewrite ?zero_kernel, ?zero_dl_kernel; destruct (coefficients Er e) as [cr|], (coefficients Ei e) as [ci|]; cbn [bind];
    try (destruct B as [B1 B2]; first [discriminate (B1 eq_refl)|discriminate (B2 eq_refl)]); try reflexivity;
    unfold value_or_zero, cvalue_or_zero; rewrite ?DD; unfold RtoC, Cmult; cbn [fst snd]; ring.
Qed.

(** the potentials: the conjugate wave of the conjugate function has the conjugate values *)
Definition opposite (f : list arr) : list arr := map (fun r i => - r i) f.
Lemma opposite_coef : forall l i c, ModelForms.coef (opposite l) i c = - ModelForms.coef l i c.
Proof.
  intros l i c. unfold ModelForms.coef, opposite. destruct (Nat.lt_ge_cases i (length l)) as [Hi|Hi].
  - rewrite (nth_indep _ zero_arr ((fun (r : arr) j => - r j) zero_arr)) by (rewrite map_length; exact Hi). rewrite (map_nth (fun (r : arr) j => - r j)). reflexivity.
  - rewrite !nth_overflow by (rewrite ?map_length; exact Hi). unfold zero_arr. ring.
Qed.
Lemma opposite_values : forall (X : surface) t pp f E E' ss, init_evaluator (t, X) pp f = Some E -> init_evaluator (t, X) pp (opposite f) = Some E' -> forall e p,
  evaluate_scalar ss E' e p = option_map Ropp (evaluate_scalar ss E e p) /\ evaluate_vector ss E' e p = option_map (vscal (-1)) (evaluate_vector ss E e p) /\ evaluate_div ss E' e p = option_map Ropp (evaluate_div ss E e p).
Proof.
  intros X t pp f E E' ss I I' e p. unfold init_evaluator in *. cbn [fst] in *. destruct (reordering_vector t) as [rv|]; [|discriminate]. cbn [bind] in *. injection I as <-. injection I' as <-.
  unfold evaluate_scalar, evaluate_vector, evaluate_div, evaluate, coefficients. cbn [e_p2 e_fun e_space]. unfold opposite. rewrite map_length, skipn_map, firstn_map. change (nat -> R) with arr. unfold assert.
  destruct (_ <=? _)%nat; cbn [bind option_map]; [|auto]. generalize (firstn ((pp + 1) * (pp + 1)) (skipn ((pp + 1) * (pp + 1) * n_id e) f)). intros l. fold (opposite l).
  split; [|split]; f_equal.
  - unfold eval_scalar. rewrite (rsum_ext (fun i => ModelForms.coef (opposite l) i 0 * ModelForms.basis ss (p_s p) i) (fun i => -1 * (ModelForms.coef l i 0 * ModelForms.basis ss (p_s p) i))) by (intros; rewrite opposite_coef; ring). rewrite rsum_scal. unfold Rdiv. ring.
  - unfold eval_vector. cbv zeta.
    assert (T : forall c, rsum (fun i => ModelForms.coef (opposite l) i c * ModelForms.basis ss (p_s p) i) (ss_n2 ss) = - rsum (fun i => ModelForms.coef l i c * ModelForms.basis ss (p_s p) i) (ss_n2 ss)).
    { intros c. rewrite (rsum_ext (fun i => ModelForms.coef (opposite l) i c * ModelForms.basis ss (p_s p) i) (fun i => -1 * (ModelForms.coef l i c * ModelForms.basis ss (p_s p) i))) by (intros; rewrite opposite_coef; ring). rewrite rsum_scal. ring. }
    rewrite !T. apply vec_eq; unfold vscal, vadd, vx, vy, vz; cbn [fst snd]; ring.
  - unfold eval_div.
    rewrite (rsum_ext (fun i => basisDx ss (p_s p) i * ModelForms.coef (opposite l) i 0) (fun i => -1 * (basisDx ss (p_s p) i * ModelForms.coef l i 0))) by (intros; rewrite opposite_coef; ring).
    rewrite (rsum_ext (fun i => basisDy ss (p_s p) i * ModelForms.coef (opposite l) i 1) (fun i => -1 * (basisDy ss (p_s p) i * ModelForms.coef l i 1))) by (intros; rewrite opposite_coef; ring). rewrite !rsum_scal. unfold Rdiv. ring.
Qed.
Theorem C92_conjugate_potentials : forall X k ss t pp fr fi Er Ei Ei' points xi w npts els n n' v v' pr s, (0 < n)%nat -> (0 < n')%nat -> In (pr, s) [(@fst R R, 1); (@snd R R, -1)] ->
  init_evaluator (t, X) pp fr = Some Er -> init_evaluator (t, X) pp fi = Some Ei -> init_evaluator (t, X) pp (opposite fi) = Some Ei' ->
  (potential (hsl_integrand pr k ss X Er Ei points) xi w npts 1 els n v -> potential (hsl_integrand pr (conjugate_wave k) ss X Er Ei' points) xi w npts 1 els n' v' -> forall i, (i < npts)%nat -> v' i 0%nat = s * v i 0%nat) /\
  (potential (hdl_integrand pr k ss X Er Ei points) xi w npts 1 els n v -> potential (hdl_integrand pr (conjugate_wave k) ss X Er Ei' points) xi w npts 1 els n' v' -> forall i, (i < npts)%nat -> v' i 0%nat = s * v i 0%nat) /\
  (potential (maxwell_integrand pr k ss X Er Ei points) xi w npts 3 els n v -> potential (maxwell_integrand pr (conjugate_wave k) ss X Er Ei' points) xi w npts 3 els n' v' -> forall i o, (i < npts)%nat -> (o < 3)%nat -> v' i o = s * v i o).
Proof.
  intros X k ss t pp fr fi Er Ei Ei' points xi w npts els n n' v v' pr s Hn Hn' Hpr I1 I2 I3. pose proof (opposite_values X t pp fi Ei Ei' ss I2 I3) as O.
  assert (PR : forall z, pr (Cconj z) = s * pr z).
  { intros [z1 z2]. destruct Hpr as [Q|[Q|[]]]; injection Q as <- <-; unfold Cconj; cbn [fst snd]; ring. }
  assert (P0 : s * pr (RtoC 0) = pr (RtoC 0)) by (destruct Hpr as [Q|[Q|[]]]; injection Q as <- <-; unfold RtoC; cbn [fst snd]; ring).
  assert (CS : forall e p, cevaluate_scalar ss Er Ei' e p = option_map Cconj (cevaluate_scalar ss Er Ei e p)).
  { intros e p. unfold cevaluate_scalar. rewrite (proj1 (O e p)). destruct (evaluate_scalar ss Er e p), (evaluate_scalar ss Ei e p); reflexivity. }
  assert (CD : forall e p, cevaluate_div ss Er Ei' e p = option_map Cconj (cevaluate_div ss Er Ei e p)).
  { intros e p. unfold cevaluate_div. rewrite (proj2 (proj2 (O e p))). destruct (evaluate_div ss Er e p), (evaluate_div ss Ei e p); reflexivity. }
  assert (CV : forall e p, cevaluate_vector ss Er Ei' e p = option_map (fun x => (Cconj (fst (fst x)), Cconj (snd (fst x)), Cconj (snd x))) (cevaluate_vector ss Er Ei e p)).
  { intros e p. unfold cevaluate_vector. rewrite (proj1 (proj2 (O e p))). destruct (evaluate_vector ss Er e p) as [a|], (evaluate_vector ss Ei e p) as [b|]; try reflexivity. cbn [bind option_map fst snd]. unfold Cconj, vscal, vx, vy, vz. cbn [fst snd]. repeat f_equal; ring. }
  split; [|split].
  - intros P P' i Hi. apply (potential_scaled (hsl_integrand pr k ss X Er Ei points) (hsl_integrand pr (conjugate_wave k) ss X Er Ei' points) s xi w npts 1 els n n' v v' Hn Hn'); [|exact P|exact P'|exact Hi|lia]. intros e x u j o _. unfold hsl_integrand, helmholtz_sl_potential. rewrite CS, cj_kernel.
    destruct (cevaluate_scalar ss Er Ei e _) as [z|]; cbn [bind option_map cvalue_or_zero]; [|symmetry; exact P0]. rewrite <- PR. f_equal. cj. reflexivity.
  - intros P P' i Hi. apply (potential_scaled (hdl_integrand pr k ss X Er Ei points) (hdl_integrand pr (conjugate_wave k) ss X Er Ei' points) s xi w npts 1 els n n' v v' Hn Hn'); [|exact P|exact P'|exact Hi|lia]. intros e x u j o _. unfold hdl_integrand, helmholtz_dl_potential. rewrite CS, cj_dl_kernel.
    destruct (cevaluate_scalar ss Er Ei e _) as [z|]; cbn [bind option_map cvalue_or_zero]; [|symmetry; exact P0]. rewrite <- PR. f_equal. cj. reflexivity.
  - intros P P' i o Hi Ho. apply (potential_scaled (maxwell_integrand pr k ss X Er Ei points) (maxwell_integrand pr (conjugate_wave k) ss X Er Ei' points) s xi w npts 3 els n n' v v' Hn Hn'); [|exact P|exact P'|exact Hi|exact Ho]. intros e x u j q _. unfold maxwell_integrand, maxwell_sl_potential. rewrite CV, CD, cj_kernel.
    assert (MG : forall a b, maxwell_gradient (conjugate_wave k) a b = (let g := maxwell_gradient k a b in (Cconj (fst (fst g)), Cconj (snd (fst g)), Cconj (snd g)))) by (intros; unfold maxwell_gradient; cbv zeta; cbn [fst snd]; rewrite cj_exp; replace (- RtoC 1 - Ci * conjugate_wave k * RtoC (vnorm (vsub a b)))%C with (- (RtoC 1 + Ci * conjugate_wave k * RtoC (vnorm (vsub a b))))%C by ring; replace (- RtoC 1 - Ci * k * RtoC (vnorm (vsub a b)))%C with (- (RtoC 1 + Ci * k * RtoC (vnorm (vsub a b))))%C by ring; rewrite cj_factor; unfold Cdiv; cj; reflexivity).
    rewrite MG. cbv zeta. destruct (maxwell_gradient k _ _) as [[g1 g2] g3]. cbn [fst snd].
    destruct (cevaluate_vector ss Er Ei e _) as [[[a1 a2] a3]|]; cbn [bind option_map fst snd]; [|symmetry; exact P0]. destruct (cevaluate_div ss Er Ei e _) as [d|]; cbn [bind option_map]; [|symmetry; exact P0].
    rewrite <- PR. f_equal. unfold Cdiv. rewrite cj_wave. destruct q as [|[|q]]; cbn [ccomponent3 fst snd]; cj; reflexivity.
Qed.

(** ** not vacuous *)
Example C92_example : let GS := fun d : Z => tensor_rule ([/ 2], [1]) in let ss := mkSS 0 0 zero_arr zero_arr zero_arr zero_arr in let k := RtoC 1 in
  conjugate_wave k <> k /\ In (part_of fst (helmholtz_sl (RtoC 0)), laplace_sl, 1) (wave_same k) /\ In (part_of snd (helmholtz_sl (conjugate_wave k)), part_of snd (helmholtz_sl k), -1) (wave_same k) /\ surface_mesh far_sheets 2 /\
  forall op' op, exists g H H' B, init_mesh far_sheets 2 0 = Some g /\
  compressed_operator op ss far_sheets 2 0 0 GS 1 0 4 [/ 2] [1] zero_arr zero_mat = Some H /\ compressed_operator op' ss far_sheets 2 0 0 GS 1 0 4 [/ 2] [1] zero_arr zero_mat = Some H' /\
  In B (leaves (h_blocks H)) /\ b_cc B = LowRank.
Proof.
  intros GS ss k. split; [intros Q; apply (f_equal fst) in Q; unfold k, conjugate_wave, RtoC in Q; cbn [fst snd] in Q; lra|]. split; [unfold wave_same; apply in_or_app; left; left; reflexivity|].
  split; [unfold wave_same; apply in_or_app; right; unfold wave_conjugate; cbn [combine wave_operators flat_map app fst snd]; right; left; reflexivity|]. destruct far_fits as [MO FI].
  split; [split; [lia|]; rewrite sheet_numbers; split; assumption|]. intros op' op. destruct C87_example as [_ [g [Eg [_ EX]]]]. destruct (EX op ss 0%Z GS) as [H [B [EC [IB Lr]]]].
  destruct (C92_compressed_exists far_sheets 2 0 op op' ss 0%Z GS 0%Z GS 1 0%Z 4 [/ 2] [1] zero_arr zero_mat H EC) as [H' EC'].
  exists g, H, H', B. split; [exact Eg|]. split; [exact EC|]. split; [exact EC'|]. split; assumption.
Qed.

Example C92_imaginary_example : fst Ci = 0 /\ Ci <> RtoC 0 /\ In (helmholtz_hs Ci) (wave_operators Ci).
Proof. split; [reflexivity|]. split; [|right; right; right; left; reflexivity]. intros Q. apply (f_equal snd) in Q. unfold Ci, RtoC in Q. cbn [snd] in Q. lra. Qed.

(* BEGIN ASSUMPTIONS *)
Print Assumptions C92_operators.
Print Assumptions C92_entries.
Print Assumptions C92_full.
Print Assumptions C92_compressed.
Print Assumptions C92_product.
Print Assumptions C92_compressed_exists.
Print Assumptions C92_imaginary_wave.
Print Assumptions C92_zero_potentials.
Print Assumptions C92_conjugate_potentials.
