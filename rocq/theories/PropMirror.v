(** C91: mirror images.  The mirror image of the geometry has the mirrored mesh; its normal vectors point to the other side, so that the
    entries of the double layer operators and potentials change their sign, and nothing else changes. *)
From Coq Require Import Reals Lra Lia Arith Bool List ZArith QArith Qreals FunctionalExtensionality.
From Coquelicot Require Import Complex.
From Verif Require Import RSum ModelBase ModelBernstein ModelTree ModelBall ModelBlock ModelH2 ModelH2Init ModelQuad ModelDuffy ModelAssembly ModelUtil ModelOperators ModelForms ModelL2 ModelPipeline SpecTree SpecMesh SpecBall SpecH2 SpecFlat SpecMotion.
From Verif Require Import ProofTree ProofTreeWF ProofBlock ProofH2Prod ProofTreeLook ProofTreeHist PropBlock ProofMotion ProofPipeline ProofNearFar PropTopo PropBall PropH2 PropInterp PropAssembly PropQuad PropForms PropOperators PropFarLaplace PropMotion PropPipeline PropWhole PropUnits PropUnitsH2 ProofScale.
From Verif Require Import SpecMirror ProofMirror.
Import ListNotations.
Local Close Scope Q_scope.
Local Open Scope R_scope.

(** the mesh of the mirror image is the mirror image of the mesh; it exists exactly if the mesh of the geometry exists *)
Theorem C91_mesh : forall m X P M, reflection m -> init_mesh (moved m X) P M = option_map (moved_mesh m) (init_mesh X P M).
Proof. intros m X P M HR. apply (mirror_init_mesh m HR). Qed.
(** the same pairs of clusters are admissible, and two elements keep their distance and mutual position *)
Theorem C91_position : forall m g eta a c E1 E2, reflection m ->
  near_of (mid_of (g_balls (moved_mesh m g))) (rad_of (g_balls (moved_mesh m g))) eta a c = near_of (mid_of (g_balls g)) (rad_of (g_balls g)) eta a c /\
  compare_elements (moved_element m E1) (moved_element m E2) = compare_elements E1 E2.
Proof. intros m g eta a c E1 E2 HR. split; [apply (mirror_near m HR)|apply (mirror_compare m HR)]. Qed.
(** every operator of the library is in the list *)
Theorem C91_library : forall k, map fst (mirror_operators k) = library_operators k.
Proof. reflexivity. Qed.
(** the functions of two points: the integrands of the quadrature and the kernels interpolated on pairs of clusters *)
Theorem C91_operators : forall m k op s ss X, reflection m -> In (op, s) (mirror_operators k) ->
  (forall e1 x e2 y a b, (a < op_vd op * ss_n2 ss)%nat -> (b < op_vd op * ss_n2 ss)%nat -> op_kern op ss (moved m X) (moved_element m e1) x (moved_element m e2) y a b = s * op_kern op ss X e1 x e2 y a b) /\
  (forall c1 x c2 y i j, op_fmm op (surf_point (moved m X) c1 x 0) (surf_point (moved m X) c2 y 0) i j = s * op_fmm op (surf_point X c1 x 0) (surf_point X c2 y 0) i j).
Proof.
  intros m k op s ss X HR Hop. split; intros.
  - apply (mirror_kern m HR k); assumption.
  - rewrite !(mirror_surf m). apply (mirror_fmm m HR k). exact Hop.
Qed.
(** the entries of the local matrices *)
Theorem C91_entries : forall m k op s ss X order GS els e1 e2 a b, reflection m -> In (op, s) (mirror_operators k) -> (a < op_vd op * ss_n2 ss)%nat -> (b < op_vd op * ss_n2 ss)%nat ->
  op_form op ss (moved m X) order GS (map (moved_element m) els) e1 e2 a b = s * op_form op ss X order GS els e1 e2 a b.
Proof. intros m k op s ss X order GS els e1 e2 a b HR Hop Ha Hb. apply (mirror_op_form m HR k); assumption. Qed.
(** the full matrix, whatever the schedules of the two computations *)
Theorem C91_full : forall m X P M k op s ss order GS T A A', reflection m -> (0 < P)%nat -> In (op, s) (mirror_operators k) ->
  full_operator op ss X P M order GS T A -> full_operator op ss (moved m X) P M order GS T A' -> forall u v, A' u v = s * A u v.
Proof.
  intros m X P M k op s ss order GS T A A' HR HP Hop F F' u v.
  assert (Eg : exists g, init_mesh X P M = Some g) by (destruct F as [g [d [Eg _]]]; eauto). destruct Eg as [g Eg].
  assert (Eg' : init_mesh (moved m X) P M = Some (moved_mesh m g)) by (rewrite (C91_mesh m X P M HR), Eg; reflexivity).
  destruct (C88_full op ss X P M g order GS T A HP Eg F) as [Re V]. destruct (C88_full op ss (moved m X) P M _ order GS T A' HP Eg' F') as [_ V']. rewrite V, V'. clear V V'.
  set (n2 := ss_n2 ss) in *. set (N := (P * 4 ^ M)%nat) in *. set (D := (op_vd op * n2 * N)%nat) in *.
  rewrite <- rsum_scal. apply rsum_ext. intros q Hq. match goal with |- _ * ?A1 = s * (_ * ?A0) => assert (EA : A1 = s * A0); [|rewrite EA; ring] end.
  rewrite <- rsum_scal. apply rsum_ext. intros q' Hq'.
  assert (RE : forall z, row_element (moved_mesh m g) n2 N z = option_map (moved_element m) (row_element g n2 N z)) by (intros z; unfold row_element; cbn [moved_mesh g_elements]; apply nth_error_map). rewrite !RE.
  destruct (Re q Hq) as [e1 Ee]. destruct (Re q' Hq') as [e2 Ee']. rewrite Ee, Ee'. cbn [option_map]. cbn [moved_element e_node].
  assert (RL : forall z, (z < D)%nat -> (row_local n2 N z < op_vd op * n2)%nat).
  { intros z Hz. assert (Np : N <> 0%nat) by (unfold D in Hz; lia). assert (Kp : n2 <> 0%nat) by (unfold D in Hz; lia). unfold row_local.
    assert (z / n2 / N < op_vd op)%nat by (apply Nat.div_lt_upper_bound; [lia|]; apply Nat.div_lt_upper_bound; [lia|]; unfold D in Hz; lia).
    pose proof (Nat.mod_upper_bound z n2 Kp). clear - H H0. nia. }
  cbn [moved_mesh g_elements]. rewrite (C91_entries m k op s ss X order GS (g_elements g) (e_node e1) (e_node e2) _ _ HR Hop (RL q Hq) (RL q' Hq')). ring.
Qed.

(** the blocks of the two matrices are the same, and the entries the blocks describe differ by the factor *)
Theorem C91_compressed : forall m X P M g k op s ss order GS eta mincl n xi w ja jm H H', reflection m -> surface_mesh X P -> init_mesh X P M = Some g -> In (op, s) (mirror_operators k) ->
  compressed_operator op ss X P M order GS eta mincl n xi w ja jm = Some H -> compressed_operator op ss (moved m X) P M order GS eta mincl n xi w ja jm = Some H' ->
  h_tree H' = h_tree H /\ h_blocks H' = h_blocks H /\ forall A, described_by H P M A -> described_by H' P M (fun q q' => s * A q q').
Proof.
  intros m X P M g k op s ss order GS eta mincl n xi w ja jm H H' HR HX Eg Hop EC EC'. pose proof (C91_mesh m X P M HR) as Eg'. rewrite Eg in Eg'. cbn [option_map] in Eg'.
  unfold compressed_operator in EC, EC'. rewrite Eg in EC. rewrite Eg' in EC'. cbn [bind] in EC, EC'. set (near := near_of (mid_of (g_balls g)) (rad_of (g_balls g)) eta) in EC.
  assert (Nr : near_of (mid_of (g_balls (moved_mesh m g))) (rad_of (g_balls (moved_mesh m g))) eta = near).
  { apply functional_extensionality. intros a. apply functional_extensionality. intros c. apply (mirror_near m HR). }
  rewrite Nr in EC'. change (g_tree (moved_mesh m g)) with (g_tree g) in EC'.
  destruct (h2_init_facts _ _ _ _ _ _ _ _ _ _ EC) as [T1 [T2 [T3 [T4 [T5 [T6 T7]]]]]]. destruct (h2_init_facts _ _ _ _ _ _ _ _ _ _ EC') as [T1' [T2' [T3' [T4' [T5' [T6' T7']]]]]].
  split; [congruence|]. split; [congruence|].
  destruct (reachable_wf (g_tree g) (mesh_reach X P M g HX Eg)) as [[q W] HPt]. destruct (block_tree_ok (g_tree g) q near mincl W HPt) as [bt [Ebt Hleaf]]. rewrite T3 in Ebt. apply some_eq in Ebt. subst bt.
  intros A DA rc cc i j B rs cs Hrc Hcc Hi Hj HB Hb E1 E2.
  assert (CS : comp_size H' P M = comp_size H P M) by (unfold comp_size; rewrite T4, T4'; reflexivity). rewrite CS in *.
  assert (Kk : h_k H' = h_k H) by (rewrite T4, T4'; reflexivity). assert (Tt : h_tree H' = h_tree H) by congruence. rewrite Kk, Tt in *. rewrite T3 in T3'. apply some_eq in T3'. rewrite <- T3' in HB.
  assert (Vv : h_vd H' = h_vd H) by (rewrite T7, T7'; reflexivity). rewrite Vv in Hrc, Hcc.
  rewrite (DA rc cc i j B rs cs Hrc Hcc Hi Hj HB Hb E1 E2). destruct (Hleaf B HB) as [C1 [C2 _]].
  assert (Hvd : h_vd H = op_vd op) by (rewrite T7; reflexivity). rewrite Hvd in Hrc, Hcc.
  (* the interaction matrices of the leaf *)
  assert (FF : forall r u, h_F H' rc cc (b_c1 B) (b_c2 B) r u = s * h_F H rc cc (b_c1 B) (b_c2 B) r u).
  { intros r u. unfold h2_init in EC, EC'. apply bind_some in EC. destruct EC as [b1 [_ EC]]. apply bind_some in EC'. destruct EC' as [b2 [_ EC']]. cbv zeta in EC, EC'. apply some_eq in EC. apply some_eq in EC'. rewrite <- EC, <- EC'. cbn [h_F].
    assert (DL : dense_leaf (op_linop op ss (moved m X) (op_form op ss (moved m X) order GS (g_elements (moved_mesh m g)))) (g_tree g) rc cc (b_c1 B) (b_c2 B) r u = s * dense_leaf (op_linop op ss X (op_form op ss X order GS (g_elements g))) (g_tree g) rc cc (b_c1 B) (b_c2 B) r u).
    { unfold dense_leaf. cbn [op_linop o_p o_form].
      destruct (elements_of (g_tree g) (b_c1 B)) as [la|] eqn:La; cbn [bind]; [|ring]. destruct (get la _) as [a1|] eqn:Ga; cbn [bind]; [|ring]. destruct (t_store (g_tree g) a1) as [e1|] eqn:Sa; [|ring].
      destruct (elements_of (g_tree g) (b_c2 B)) as [lb|] eqn:Lb; cbn [bind]; [|ring]. destruct (get lb _) as [a2|] eqn:Gb; cbn [bind]; [|ring]. destruct (t_store (g_tree g) a2) as [e2|] eqn:Sb; [|ring].
      destruct (cluster_element X P M g (b_c1 B) la a1 e1 HX Eg C1 La (nth_error_In _ _ Ga) Sa) as [F1 [I1 N1]]. destruct (cluster_element X P M g (b_c2 B) lb a2 e2 HX Eg C2 Lb (nth_error_In _ _ Gb) Sb) as [F2 [I2 N2]]. subst e1 e2.
      assert (Kp : ((ss_p ss + 1) * (ss_p ss + 1) <> 0)%nat) by (rewrite Nat.add_1_r; discriminate).
      assert (Lt : forall c z, (c < op_vd op)%nat -> (c * ((ss_p ss + 1) * (ss_p ss + 1)) + z mod ((ss_p ss + 1) * (ss_p ss + 1)) < op_vd op * ss_n2 ss)%nat).
      { intros c z Hc. unfold ss_n2. pose proof (Nat.mod_upper_bound z _ Kp) as Z. revert Z. generalize (z mod ((ss_p ss + 1) * (ss_p ss + 1)))%nat. generalize ((ss_p ss + 1) * (ss_p ss + 1))%nat. intros k2 z2 Z. apply Nat.lt_le_trans with ((c + 1) * k2)%nat; [lia|]. apply Nat.mul_le_mono_r. lia. }
      cbn [moved_mesh g_elements]. apply (C91_entries m k op s ss X order GS (g_elements g) (e_node F1) (e_node F2) _ _ HR Hop); apply Lt; assumption. }
    destruct (compare_cluster (g_tree g) near mincl (b_c1 B) (b_c2 B)); [exact DL| |exact DL].
    unfold lowrank_leaf. destruct (t_store (g_tree g) (b_c1 B)) as [e1|]; [|ring]. destruct (t_store (g_tree g) (b_c2 B)) as [e2|]; [|ring].
    unfold interpolate_kernel. cbn [op_linop o_kernel o_nF]. apply (proj2 (C91_operators m k op s ss X HR Hop)). }
  assert (MM : h_mom H' = h_mom H /\ h_T H' = h_T H /\ h_mc H' = h_mc H).
  { unfold h2_init in EC, EC'. apply bind_some in EC. destruct EC as [b1 [_ EC]]. apply bind_some in EC'. destruct EC' as [b2 [_ EC']]. cbv zeta in EC, EC'. apply some_eq in EC. apply some_eq in EC'. rewrite <- EC, <- EC'. cbn [h_mom h_T h_mc op_linop o_kinds o_p]. auto. }
  destruct MM as [M1 [M2 M3]]. unfold block_entry. cbv zeta. rewrite M1, M2, M3, Tt, T2, T2', T5, T5', T6, T6'. cbn [op_linop o_nF]. symmetry.
  destruct (b_cc B); [apply FF| |apply FF]. 
  all: rewrite <- rsum_scal; apply rsum_ext; intros u Hu; rewrite <- rsum_scal; apply rsum_ext; intros v Hv; rewrite FF; ring.
Qed.
(** the product with a vector, whatever the schedules of the two computations; alpha and res are the factor and the vector of the
    destination in res + alpha * H * rhs *)
Theorem C91_product : forall m X P M g k op s ss order GS eta mincl n xi w ja jm H H' nd T alpha rhs res z z', reflection m -> surface_mesh X P -> init_mesh X P M = Some g -> In (op, s) (mirror_operators k) -> (0 <= mincl)%Z -> (0 < n)%nat ->
  compressed_operator op ss X P M order GS eta mincl n xi w ja jm = Some H -> compressed_operator op ss (moved m X) P M order GS eta mincl n xi w ja jm = Some H' ->
  let D := (op_vd op * (ss_n2 ss * t_elements (g_tree g)))%nat in h2_product H D nd T alpha rhs res z -> h2_product H' D nd T alpha rhs res z' -> forall i, z' i - res i = s * (z i - res i).
Proof.
  intros m X P M g k op s ss order GS eta mincl n xi w ja jm H H' nd T alpha rhs res z z' HR HX Eg Hop H0 Hn EC EC' D HP HP' i.
  destruct (C91_compressed m X P M g k op s ss order GS eta mincl n xi w ja jm H H' HR HX Eg Hop EC EC') as [Tt [Tb TA]].
  pose proof (proj2 (mirror_signs k op s Hop)) as Il.
  destruct (C88_compressed_exists X P M g k op ss order GS eta mincl n xi w ja jm HX Eg Il H0 Hn) as [H1 [EC1 [SU [V1 [CS [A [DA _]]]]]]]. rewrite EC in EC1. apply some_eq in EC1. subst H1.
  assert (FR : h_mincl H' = h_mincl H /\ h_k H' = h_k H /\ h_np H' = h_np H /\ h_nF H' = h_nF H /\ h_vd H' = h_vd H /\ h_mc H' = h_mc H).
  { unfold compressed_operator in EC, EC'. rewrite Eg in EC. rewrite (C91_mesh m X P M HR), Eg in EC'. cbn [option_map bind] in EC, EC'. unfold h2_init in EC, EC'.
    apply bind_some in EC. destruct EC as [b1 [_ EC]]. apply bind_some in EC'. destruct EC' as [b2 [_ EC']]. cbv zeta in EC, EC'. apply some_eq in EC. apply some_eq in EC'. subst H H'. cbn [h_mincl h_k h_np h_nF h_vd h_mc op_linop o_p o_nF o_vd]. cbn [moved_mesh g_tree]. auto 10. }
  destruct FR as [F1 [F2 [F3 [F4 [F5 F6]]]]].
  assert (SU' : h2_of_mesh H' P M) by (unfold h2_of_mesh in *; rewrite Tt, Tb, F1, F2, F3, F4, F5, F6; exact SU).
  assert (CS' : comp_size H' P M = comp_size H P M) by (unfold comp_size; rewrite F2; reflexivity).
  assert (ED : D = (h_vd H * comp_size H P M)%nat) by (unfold D; rewrite V1, CS; reflexivity). rewrite ED in *.
  pose proof (C29_product H P M A nd T alpha rhs res z SU DA HP i) as Q. cbv zeta in Q. rewrite Q. clear Q.
  pose proof (C29_product H' P M _ nd T alpha rhs res z' SU' (TA A DA)) as Q. cbv zeta in Q. rewrite F5, CS' in Q. specialize (Q HP' i). rewrite Q. clear Q.
  match goal with |- ?r + alpha * ?S' - ?r = s * (?r + alpha * ?S0 - ?r) => assert (ES : S' = s * S0); [|rewrite ES; ring] end.
  rewrite <- rsum_scal. apply rsum_ext. intros q Hq. match goal with |- _ * ?S' = s * (_ * ?S0) => assert (ES : S' = s * S0); [|rewrite ES; ring] end.
  rewrite <- rsum_scal. apply rsum_ext. intros q' Hq'. ring.
Qed.
(** both matrices exist or neither *)
Theorem C91_compressed_exists : forall m X P M op ss order GS order' GS' eta mincl n xi w ja jm H, reflection m ->
  compressed_operator op ss X P M order GS eta mincl n xi w ja jm = Some H -> exists H', compressed_operator op ss (moved m X) P M order' GS' eta mincl n xi w ja jm = Some H'.
Proof.
  intros m X P M op ss order GS order' GS' eta mincl n xi w ja jm H HR EC. unfold compressed_operator in *. rewrite (C91_mesh m X P M HR). apply bind_some in EC. destruct EC as [g [Eg EC]]. rewrite Eg. cbn [option_map bind].
  replace (near_of (mid_of (g_balls (moved_mesh m g))) (rad_of (g_balls (moved_mesh m g))) eta) with (near_of (mid_of (g_balls g)) (rad_of (g_balls g)) eta)
    by (symmetry; apply functional_extensionality; intros a; apply functional_extensionality; intros c; apply (mirror_near m HR)).
  change (g_tree (moved_mesh m g)) with (g_tree g). unfold h2_init in *. apply bind_some in EC. destruct EC as [bt [-> _]]. cbn [bind]. eauto.
Qed.

(** mass matrix and Laplace-Beltrami operator *)
Theorem C91_local : forall m X integrand ss Q vd N T els, reflection m -> In integrand [identity_integrand; laplace_beltrami_integrand] ->
  local_operator integrand ss (moved m X) Q vd N T els = local_operator integrand ss X Q vd N T els.
Proof.
  intros m X integrand ss Q vd N T els HR Hi.
  assert (I : forall p q, integrand ss (moved_point m p) (moved_point m q) = integrand ss p q).
  { intros p q. destruct Hi as [<-|[<-|[]]].
    - unfold identity_integrand. cbv zeta. rewrite ?(mirror_kappa m HR). reflexivity.
    - unfold laplace_beltrami_integrand, addScaledSurfaceGradientInteraction. apply functional_extensionality. intros z. cbv zeta. rewrite ?(mirror_kappa m HR). cbn [p_w moved_point].
      change (mkSP (p_s p) (p_w p) (move m (p_f p)) (turn m (p_dx p)) (turn m (p_dy p))) with (moved_point m p). change (mkSP (p_s q) (p_w q) (move m (p_f q)) (turn m (p_dx q)) (turn m (p_dy q))) with (moved_point m q).
      rewrite (mirror_curls m HR). reflexivity. }
  assert (E : forall e, element_matrix integrand ss (moved m X) Q e = element_matrix integrand ss X Q e).
  { intros e. unfold element_matrix. f_equal. apply functional_extensionality. intros i. apply functional_extensionality. intros z. cbv zeta. rewrite mirror_surf, I. reflexivity. }
  unfold local_operator. cbv zeta. f_equal. f_equal. induction els as [|e els IH]; [reflexivity|]. cbn [flat_map]. rewrite E, IH. reflexivity.
Qed.

(** linear forms: the given function is reflected with the geometry *)
Lemma linear_mirror : forall m X (lf lf' : sspace -> spoint -> mat -> mat) c ss Q vd N T els v, linear_form lf ss X Q vd N T els = Some v ->
  (forall p z z' i k, (i < ss_n2 ss)%nat -> (k < vd)%nat -> z' i k = c * z i k -> lf' ss (moved_point m p) z' i k = c * lf ss p z i k) ->
  exists v', linear_form lf' ss (moved m X) Q vd N T els = Some v' /\ forall u, v' u = c * v u.
Proof.
  intros m0 X lf lf' c ss Q vd N T els v EL HL. unfold linear_form in *. cbv zeta in *. set (rows := (ss_n2 ss * N)%nat) in *. apply bind_some in EL. destruct EL as [m [Em EL]]. apply some_eq in EL. subst v.
  assert (FL : forall els z z' m, (forall r k, (k < vd)%nat -> z' r k = c * z r k) -> form_loop lf ss X Q rows els z = Some m ->
    exists m', form_loop lf' ss (moved m0 X) Q rows els z' = Some m' /\ forall r k, (k < vd)%nat -> m' r k = c * m r k).
  { clear m Em els. intros els. induction els as [|e els IH]; intros z z' m Ez Em; cbn [form_loop] in *.
    - apply some_eq in Em. subst m. eauto.
    - apply bind_some in Em. destruct Em as [m1 [E1 Em]]. unfold write_block in *. apply bind_some in E1. destruct E1 as [x [A1 E1]]. rewrite A1. apply some_eq in E1. cbn [bind].
      apply (IH m1); [|exact Em]. intros r k Hk. subst m1. cbv beta. destruct ((_ <=? _) && (_ <? _))%nat%bool eqn:B; [|apply Ez; exact Hk].
      apply andb_true_iff in B. destruct B as [B1 B2]. apply Nat.leb_le in B1. apply Nat.ltb_lt in B2. unfold element_form. generalize (q_size Q). intros n. induction n as [|n IHn]; [cbn [for_loop]; unfold zero_mat; ring|].
      cbn [for_loop]. rewrite mirror_surf. apply HL; [lia|exact Hk|exact IHn]. }
  destruct (FL els zero_mat zero_mat m) as [m' [Em' V]]; [intros; unfold zero_mat; ring|exact Em|]. rewrite Em'. cbn [bind]. eexists. split; [reflexivity|].
  intros u. unfold transform_t. rewrite <- rsum_scal. apply rsum_ext. intros q Hq. rewrite V; [ring|]. destruct (Nat.eq_dec rows 0) as [Z|Z]; [rewrite Z in Hq; lia|]. apply Nat.div_lt_upper_bound; [exact Z|lia].
Qed.
Theorem C91_scalar_traces : forall m X (g g' : vec3 -> R) ss Q N T els v, reflection m -> (forall x, g' (move m x) = g x) ->
  linear_form (dirichlet_trace g) ss X Q 1 N T els = Some v -> exists v', linear_form (dirichlet_trace g') ss (moved m X) Q 1 N T els = Some v' /\ forall u, v' u = v u.
Proof.
  intros m X g g' ss Q N T els v HR Hg EL. destruct (linear_mirror m X (dirichlet_trace g) (dirichlet_trace g') 1 ss Q 1 N T els v EL) as [v' [E V]].
  - intros p z z' i k Hi Hk Ez. unfold dirichlet_trace. rewrite !scaled_value by assumption. rewrite Ez, (mirror_kappa m HR). cbn [p_s p_w p_f moved_point]. rewrite Hg. ring.
  - exists v'. split; [exact E|]. intros u. rewrite V. ring.
Qed.
(** the flux through the surface changes its sign; the tangential traces contain the normal vector twice, or once next to another product
    that changes its sign *)
Theorem C91_vector_traces : forall m X (g g' : vec3 -> vec3) ss Q N T els, reflection m -> (forall x, g' (move m x) = turn m (g x)) ->
  (forall v, linear_form (neumann_trace g) ss X Q 1 N T els = Some v -> exists v', linear_form (neumann_trace g') ss (moved m X) Q 1 N T els = Some v' /\ forall u, v' u = - v u) /\
  (forall v, linear_form (tangential_trace g) ss X Q 2 N T els = Some v -> exists v', linear_form (tangential_trace g') ss (moved m X) Q 2 N T els = Some v' /\ forall u, v' u = v u) /\
  (forall v, linear_form (rotated_tangential_trace g) ss X Q 2 N T els = Some v -> exists v', linear_form (rotated_tangential_trace g') ss (moved m X) Q 2 N T els = Some v' /\ forall u, v' u = v u).
Proof.
  intros m X g g' ss Q N T els HR Hg.
  assert (Fin : forall (lf lf' : sspace -> spoint -> mat -> mat) (c : R) (vd : nat) (v w : arr), (exists v', linear_form lf' ss (moved m X) Q vd N T els = Some v' /\ forall u, v' u = c * v u) -> (forall u, c * v u = w u) -> exists v', linear_form lf' ss (moved m X) Q vd N T els = Some v' /\ forall u, v' u = w u).
  { intros _ lf' c vd v w [v' [E V]] W0. exists v'. split; [exact E|]. intros u. rewrite V. apply W0. }
  split; [|split]; intros v EL.
  - apply (Fin (neumann_trace g) (neumann_trace g') (-1) 1%nat v (fun u => - v u)); [|intros; ring]. apply (linear_mirror m X (neumann_trace g) (neumann_trace g') (-1) ss Q 1 N T els v EL). intros p z z' i k Hi Hk Ez. unfold neumann_trace. rewrite !scaled_value by assumption.
    rewrite Ez, (mirror_n m HR). cbn [p_s p_w p_f moved_point]. rewrite Hg. replace (vdot (vscal (-1) (turn m (p_n p))) (turn m (g (p_f p)))) with (- vdot (turn m (p_n p)) (turn m (g (p_f p)))) by (unfold vdot, vscal, vx, vy, vz; cbn [fst snd]; ring). rewrite (mirror_dot m HR). ring.
  - apply (Fin (tangential_trace g) (tangential_trace g') 1 2%nat v v); [|intros; ring]. apply (linear_mirror m X (tangential_trace g) (tangential_trace g') 1 ss Q 2 N T els v EL). intros p z z' i k Hi Hk Ez. unfold tangential_trace. cbv zeta.
    rewrite (mirror_n m HR), (mirror_normalized m HR). cbn [p_s p_w p_f p_dx p_dy moved_point]. rewrite Hg.
    replace (vcross (turn m (g (p_f p))) (vscal (-1) (turn m (vnormalized (p_n p))))) with (vscal (-1) (vcross (turn m (g (p_f p))) (turn m (vnormalized (p_n p))))) by (apply vec_eq; unfold vcross, vscal, vx, vy, vz; cbn [fst snd]; ring).
    rewrite (mirror_cross m HR), !scal_scal, <- (turn_scal m), !(mirror_dot m HR). unfold add_columns. rewrite Ez. match goal with |- context [vscal ?c (vcross _ _)] => replace c with (p_w p) by ring end. destruct k as [|[|k]]; [..|lia]; ring.
  - apply (Fin (rotated_tangential_trace g) (rotated_tangential_trace g') 1 2%nat v v); [|intros; ring]. apply (linear_mirror m X (rotated_tangential_trace g) (rotated_tangential_trace g') 1 ss Q 2 N T els v EL). intros p z z' i k Hi Hk Ez. unfold rotated_tangential_trace. cbv zeta.
    rewrite (mirror_n m HR), (mirror_normalized m HR). cbn [p_s p_w p_f p_dx p_dy moved_point]. rewrite Hg.
    replace (vdot (turn m (g (p_f p))) (vscal (-1) (turn m (vnormalized (p_n p))))) with (- vdot (turn m (g (p_f p))) (turn m (vnormalized (p_n p)))) by (unfold vdot, vscal, vx, vy, vz; cbn [fst snd]; ring).
    rewrite (mirror_dot m HR), scal_scal. replace (- vdot (g (p_f p)) (vnormalized (p_n p)) * -1) with (vdot (g (p_f p)) (vnormalized (p_n p))) by ring. rewrite <- (turn_scal m), <- (turn_sub m), <- (turn_scal m), !(mirror_dot m HR). unfold add_columns. rewrite Ez.
    destruct k as [|[|k]]; [..|lia]; ring.
Qed.

(** potentials, at the mirror images of the points *)
Lemma mirror_gradient : forall m x y, reflection m -> laplace_gradient (move m x) (move m y) = turn m (laplace_gradient x y) /\ laplace_dl_gradient (move m x) (move m y) = turn m (laplace_dl_gradient x y).
Proof.
  intros m x y HR. unfold laplace_gradient, laplace_dl_gradient. cbv zeta. rewrite (move_sub m), (mirror_norm m HR). unfold Rdiv. generalize (/ (vnorm (vsub x y) * vnorm (vsub x y) * vnorm (vsub x y))). intros q.
  split; apply vec_eq; unfold turn, vadd, vscal, vx, vy, vz; cbn [fst snd]; ring.
Qed.
Theorem C91_potentials : forall m X k ss t pp f fr fi E E' Er Er' Ei Ei' points xi w npts els n n' v v' pr, reflection m -> (0 < n)%nat -> (0 < n')%nat -> In pr [@fst R R; @snd R R] ->
  init_evaluator (t, X) pp f = Some E -> init_evaluator (t, moved m X) pp f = Some E' ->
  init_evaluator (t, X) pp fr = Some Er -> init_evaluator (t, moved m X) pp fr = Some Er' -> init_evaluator (t, X) pp fi = Some Ei -> init_evaluator (t, moved m X) pp fi = Some Ei' ->
  let points' := fun i => move m (points i) in
  (potential (sl_integrand ss X E points) xi w npts 1 els n v -> potential (sl_integrand ss (moved m X) E' points') xi w npts 1 els n' v' -> forall i, (i < npts)%nat -> v' i 0%nat = v i 0%nat) /\
  (potential (dl_integrand ss X E points) xi w npts 1 els n v -> potential (dl_integrand ss (moved m X) E' points') xi w npts 1 els n' v' -> forall i, (i < npts)%nat -> v' i 0%nat = - v i 0%nat) /\
  (potential (sl_gradient_integrand ss X E points) xi w npts 3 els n v -> potential (sl_gradient_integrand ss (moved m X) E' points') xi w npts 3 els n' v' -> forall i, (i < npts)%nat -> row3 v' i = turn m (row3 v i)) /\
  (potential (hsl_integrand pr k ss X Er Ei points) xi w npts 1 els n v -> potential (hsl_integrand pr k ss (moved m X) Er' Ei' points') xi w npts 1 els n' v' -> forall i, (i < npts)%nat -> v' i 0%nat = v i 0%nat) /\
  (potential (hdl_integrand pr k ss X Er Ei points) xi w npts 1 els n v -> potential (hdl_integrand pr k ss (moved m X) Er' Ei' points') xi w npts 1 els n' v' -> forall i, (i < npts)%nat -> v' i 0%nat = - v i 0%nat).
Proof.
  intros m X k ss t pp f fr fi E E' Er Er' Ei Ei' points xi w npts els n n' v v' pr HR Hn Hn' Hpr I1 I2 I3 I4 I5 I6 points'.
  assert (SC : forall (g : list arr) A B, init_evaluator (t, X) pp g = Some A -> init_evaluator (t, moved m X) pp g = Some B -> same_coefficients A B).
  { intros g A B. unfold init_evaluator. cbn [fst]. destruct (reordering_vector t); [|discriminate]. cbn [bind]. intros EA EB. injection EA as <-. injection EB as <-. split; reflexivity. }
  pose proof (SC f E E' I1 I2) as S1. pose proof (SC fr Er Er' I3 I4) as S2. pose proof (SC fi Ei Ei' I5 I6) as S3.
  split; [|split; [|split; [|split]]].
  - intros P P' i Hi. rewrite <- (Rmult_1_l (v i 0%nat)). apply (potential_scaled (sl_integrand ss X E points) (sl_integrand ss (moved m X) E' points') 1 xi w npts 1 els n n' v v' Hn Hn'); [|exact P|exact P'|exact Hi|lia].
    intros e s u j o _. unfold sl_integrand, laplace_sl_potential. rewrite mirror_surf, (moved_scalar m ss E E' _ _ S1), (mirror_kappa m HR). cbn [moved_point p_f p_w]. unfold points'. rewrite (mirror_kernel m HR). ring.
  - intros P P' i Hi. replace (- v i 0%nat) with (-1 * v i 0%nat) by ring. apply (potential_scaled (dl_integrand ss X E points) (dl_integrand ss (moved m X) E' points') (-1) xi w npts 1 els n n' v v' Hn Hn'); [|exact P|exact P'|exact Hi|lia].
    intros e s u j o _. unfold dl_integrand, laplace_dl_potential. rewrite mirror_surf, (moved_scalar m ss E E' _ _ S1), (mirror_n m HR). cbn [moved_point p_f p_w]. unfold points'. rewrite (proj2 (mirror_gradient m _ _ HR)).
    destruct (evaluate_scalar ss E e _); cbn [bind value_or_zero]; [|ring].
    match goal with |- context [vdot (turn m ?a) (vscal (-1) (turn m ?b))] => replace (vdot (turn m a) (vscal (-1) (turn m b))) with (- vdot (turn m a) (turn m b)) by (unfold vdot, vscal, vx, vy, vz; cbn [fst snd]; ring) end. rewrite (mirror_dot m HR). ring.
  - apply (potential_turned m); [exact Hn|exact Hn'|].
    intros e s u i. unfold sl_gradient_integrand, laplace_sl_gradient_potential. rewrite mirror_surf, (moved_scalar m ss E E' _ _ S1), (mirror_kappa m HR). cbn [moved_point p_f p_w]. unfold points'. rewrite (proj1 (mirror_gradient m _ _ HR)).
    destruct (evaluate_scalar ss E e (surf_point X e s u)) as [z|]; cbn [bind].
    + rewrite <- turn_scal. set (y := vscal _ _). destruct y as [[y1 y2] y3]. apply vec_eq; reflexivity.
    + apply vec_eq; unfold turn, vadd, vscal, vx, vy, vz; cbn [fst snd]; ring.
  - intros P P' i Hi. rewrite <- (Rmult_1_l (v i 0%nat)). apply (potential_scaled (hsl_integrand pr k ss X Er Ei points) (hsl_integrand pr k ss (moved m X) Er' Ei' points') 1 xi w npts 1 els n n' v v' Hn Hn'); [|exact P|exact P'|exact Hi|lia].
    intros e s u j o _. unfold hsl_integrand, helmholtz_sl_potential, cevaluate_scalar. rewrite mirror_surf, (moved_scalar m ss Er Er' _ _ S2), (moved_scalar m ss Ei Ei' _ _ S3), (mirror_kappa m HR). cbn [moved_point p_f p_w]. unfold points'. rewrite (mirror_h_kernel m HR). ring.
  - intros P P' i Hi. replace (- v i 0%nat) with (-1 * v i 0%nat) by ring. apply (potential_scaled (hdl_integrand pr k ss X Er Ei points) (hdl_integrand pr k ss (moved m X) Er' Ei' points') (-1) xi w npts 1 els n n' v v' Hn Hn'); [|exact P|exact P'|exact Hi|lia].
    intros e s u j o _. unfold hdl_integrand, helmholtz_dl_potential, cevaluate_scalar. rewrite mirror_surf, (moved_scalar m ss Er Er' _ _ S2), (moved_scalar m ss Ei Ei' _ _ S3), (mirror_n m HR), hdl_scal. cbn [moved_point p_f p_w]. unfold points'. rewrite (mirror_hdl_kernel m HR).
    destruct (evaluate_scalar ss Er e _) as [ea|], (evaluate_scalar ss Ei e _) as [eb|]; cbn [bind]; first [ring|destruct Hpr as [<-|[<-|[]]]; cbn; ring].
Qed.
Theorem C91_maxwell_potential : forall m X k ss t pp fr fi Er Er' Ei Ei' points xi w npts els n n' v v' pr, reflection m -> (0 < n)%nat -> (0 < n')%nat -> In pr [@fst R R; @snd R R] ->
  init_evaluator (t, X) pp fr = Some Er -> init_evaluator (t, moved m X) pp fr = Some Er' ->
  init_evaluator (t, X) pp fi = Some Ei -> init_evaluator (t, moved m X) pp fi = Some Ei' ->
  potential (maxwell_integrand pr k ss X Er Ei points) xi w npts 3 els n v ->
  potential (maxwell_integrand pr k ss (moved m X) Er' Ei' (fun i => move m (points i))) xi w npts 3 els n' v' ->
  forall i, (i < npts)%nat -> row3 v' i = turn m (row3 v i).
Proof.
  intros m X k ss t pp fr fi Er Er' Ei Ei' points xi w npts els n n' v v' pr HR Hn Hn' Hpr I1 I2 I3 I4. apply (potential_turned m); [exact Hn|exact Hn'|].
  assert (SC : forall (g : list arr) A B, init_evaluator (t, X) pp g = Some A -> init_evaluator (t, moved m X) pp g = Some B -> same_coefficients A B).
  { intros g A B. unfold init_evaluator. cbn [fst]. destruct (reordering_vector t); [|discriminate]. cbn [bind]. intros EA EB. injection EA as <-. injection EB as <-. split; reflexivity. }
  pose proof (SC fr Er Er' I1 I2) as S1. pose proof (SC fi Ei Ei' I3 I4) as S2.
  intros e s u i. unfold maxwell_integrand, maxwell_sl_potential, cevaluate_vector, cevaluate_div.
  rewrite mirror_surf, (moved_vector m ss Er Er' _ _ S1), (moved_vector m ss Ei Ei' _ _ S2), (moved_divergence m ss Er Er' _ _ S1), (moved_divergence m ss Ei Ei' _ _ S2).
  cbn [moved_point p_f p_w]. rewrite (mirror_h_kernel m HR). unfold maxwell_gradient. cbv zeta. rewrite (move_sub m), (mirror_norm m HR).
  set (c := vsub (points i) (p_f (surf_point X e s u))). set (a := (_ / RtoC (vnorm c * vnorm c * vnorm c))%C). generalize (helmholtz_kernel k (points i) (p_f (surf_point X e s u))). intros K.
  clearbody a c. set (q := (RtoC 1 / (k * k))%C). clearbody q.
  destruct (evaluate_vector ss Er e (surf_point X e s u)) as [va|], (evaluate_vector ss Ei e (surf_point X e s u)) as [vb|], (evaluate_div ss Er e (surf_point X e s u)) as [da|], (evaluate_div ss Ei e (surf_point X e s u)) as [db|]; cbn [bind option_map].
  2-16: cbn; destruct Hpr as [<-|[<-|[]]]; apply vec_eq; unfold turn, vadd, vscal, vx, vy, vz; cbn [fst snd RtoC]; ring.
  destruct va as [[va1 va2] va3], vb as [[vb1 vb2] vb3], c as [[c1 c2] c3], K as [K1 K2], a as [a1 a2], q as [q1 q2].
  set (w0 := p_w (surf_point X e s u)). clearbody w0.
  assert (LIN : exists A B D, forall x y z, pr (((K1, K2) * (x, y) + (q1, q2) * ((a1, a2) * RtoC z) * (da, db)) * RtoC w0)%C = A * x + B * y + D * z).
  { destruct Hpr as [<-|[<-|[]]].
    - exists (K1 * w0), (- K2 * w0), (((q1 * a1 - q2 * a2) * da - (q1 * a2 + q2 * a1) * db) * w0). intros x y z. unfold Cmult, Cplus, RtoC. cbn [fst snd]. ring.
    - exists (K2 * w0), (K1 * w0), (((q1 * a1 - q2 * a2) * db + (q1 * a2 + q2 * a1) * da) * w0). intros x y z. unfold Cmult, Cplus, RtoC. cbn [fst snd]. ring. }
  destruct LIN as [A [B [D LIN]]]. cbn [ccomponent3 fst snd]. rewrite !LIN. clear LIN.
  apply vec_eq; unfold turn, vadd, vscal, vx, vy, vz; cbn [fst snd]; ring.
Qed.
(** the norm of the error *)
Theorem C91_surface_error : forall m X qr t ss nd T v g g' deg, reflection m -> (forall x, g' (move m x) = g x) ->
  surfaceL2error qr t (moved m X) ss nd T v g' deg = surfaceL2error qr t X ss nd T v g deg.
Proof.
  intros m X qr t ss nd T v g g' deg HR Hg. unfold surfaceL2error, init_evaluator. cbn [fst]. destruct (reordering_vector t) as [rv|]; [|reflexivity]. cbn [bind].
  destruct (elements t) as [els|]; [|reflexivity]. cbn [bind]. f_equal.
  set (E := Evaluator rv (t, X) _ _). set (E' := Evaluator rv (t, moved m X) _ _). assert (SC : same_coefficients E E') by (split; reflexivity).
  generalize 0. induction els as [|e els IH]; intros r; [reflexivity|]. cbn [l2_loop].
  assert (P : l2_point (evaluate_scalar ss E') (moved m X) (gauss_square qr deg) g' e = l2_point (evaluate_scalar ss E) X (gauss_square qr deg) g e).
  { apply functional_extensionality. intros i. apply functional_extensionality. intros z. unfold l2_point. cbv zeta. rewrite mirror_surf, (moved_scalar m ss E E' _ _ SC).
    match goal with |- context [moved_point m ?p] => pose proof (mirror_kappa m HR p) as Kp end. unfold p_kappa, p_n in Kp. rewrite ?Kp. cbn [moved_point p_f p_dx p_dy] in *. rewrite ?Kp, ?Hg. reflexivity. }
  rewrite P. destruct (for_opt _ _ r); [|reflexivity]. cbn [bind]. apply IH.
Qed.

(** ** not vacuous *)
Lemma looking_glass_reflection : reflection looking_glass.
Proof. unfold reflection, looking_glass, vdot, vcross, vscal, vx, vy, vz. cbn [m_x m_y m_z fst snd]. repeat split; try lra. f_equal; [f_equal|]; lra. Qed.
Example C91_example : let GS := fun d : Z => tensor_rule ([/ 2], [1]) in let ss := mkSS 0 0 zero_arr zero_arr zero_arr zero_arr in
  reflection looking_glass /\ In (laplace_dl, -1) (mirror_operators Ci) /\ surface_mesh far_sheets 2 /\
  exists g H H' B, init_mesh far_sheets 2 0 = Some g /\
  compressed_operator laplace_dl ss far_sheets 2 0 0 GS 1 0 4 [/ 2] [1] zero_arr zero_mat = Some H /\ compressed_operator laplace_dl ss (moved looking_glass far_sheets) 2 0 0 GS 1 0 4 [/ 2] [1] zero_arr zero_mat = Some H' /\
  In B (leaves (h_blocks H)) /\ b_cc B = LowRank.
Proof.
  intros GS ss. split; [exact looking_glass_reflection|]. split; [right; left; reflexivity|]. destruct far_fits as [MO FI].
  split; [split; [lia|]; rewrite sheet_numbers; split; assumption|]. destruct C87_example as [_ [g [Eg [_ EX]]]]. destruct (EX laplace_dl ss 0%Z GS) as [H [B [EC [IB Lr]]]].
  destruct (C91_compressed_exists looking_glass far_sheets 2 0 laplace_dl ss 0%Z GS 0%Z GS 1 0%Z 4 [/ 2] [1] zero_arr zero_mat H looking_glass_reflection EC) as [H' EC'].
  exists g, H, H', B. split; [exact Eg|]. split; [exact EC|]. split; [exact EC'|]. split; assumption.
Qed.

(* BEGIN ASSUMPTIONS *)
Print Assumptions C91_mesh.
Print Assumptions C91_position.
Print Assumptions C91_library.
Print Assumptions C91_operators.
Print Assumptions C91_entries.
Print Assumptions C91_full.
Print Assumptions C91_compressed.
Print Assumptions C91_product.
Print Assumptions C91_compressed_exists.
Print Assumptions C91_local.
Print Assumptions C91_scalar_traces.
Print Assumptions C91_vector_traces.
Print Assumptions C91_potentials.
Print Assumptions C91_maxwell_potential.
Print Assumptions C91_surface_error.
