(** C90, continued: the compressed matrix in another unit of length. *)
From Coq Require Import Reals Lra Lia Arith Bool List ZArith QArith Qreals FunctionalExtensionality.
From Coquelicot Require Import Complex.
From Verif Require Import RSum ModelBase ModelBernstein ModelTree ModelBall ModelBlock ModelH2 ModelH2Init ModelQuad ModelDuffy ModelAssembly ModelUtil ModelOperators ModelForms ModelPipeline SpecTree SpecMesh SpecBall SpecH2 SpecFlat.
From Verif Require Import ProofTree ProofTreeWF ProofBlock ProofH2Prod ProofTreeLook ProofTreeHist PropBlock ProofMotion ProofPipeline PropTopo PropBall PropH2 PropInterp PropAssembly PropQuad PropFarLaplace PropMotion PropPipeline PropWhole.
From Verif Require Import SpecScale ProofScale PropScale PropUnits.
Import ListNotations.
Local Close Scope Q_scope.
Local Open Scope R_scope.

Lemma map_opt_in : forall {A B : Type} (f : A -> option B) q ys a, map_opt f q = Some ys -> In a q -> exists y, f a = Some y /\ In y ys.
Proof.
  intros A B f q. induction q as [|x q IH]; intros ys a E I; [destruct I|]. cbn [map_opt] in E. apply bind_some in E. destruct E as [y [Ey E]]. apply bind_some in E. destruct E as [r [Er E]]. apply some_eq in E. subst ys.
  destruct I as [->|I]; [exists y; split; [exact Ey|left; reflexivity]|]. destruct (IH r a Er I) as [y' [E' I']]. exists y'. split; [exact E'|right; exact I'].
Qed.
Lemma cluster_element : forall X P M g c la a e, surface_mesh X P -> init_mesh X P M = Some g -> cl (g_tree g) c -> elements_of (g_tree g) c = Some la -> In a la -> t_store (g_tree g) a = Some e ->
  exists E, In E (g_elements g) /\ e_node E = e.
Proof.
  intros X P M g c la a e HX Eg Hc El Ia Ee. destruct (C88_mesh X P M g (proj1 HX) Eg) as [_ [_ [_ [Mb _]]]]. destruct Mb as [l [Tr Me]].
  destruct (reachable_wf (g_tree g) (mesh_reach X P M g HX Eg)) as [[l0 W] HPt].
  assert (E0 : traverse (g_tree g) = Some l0) by (apply traverse_ok; assumption). rewrite Tr in E0. apply some_eq in E0. subst l0.
  destruct (cl_range (g_tree g) l W HPt 1%nat c Hc) as [l1 [m [l2 [El0 [_ [_ [_ [_ [Ce _]]]]]]]]].
  assert (Il : In a l).
  { unfold elements_of in El. destruct c as [|i c]; [rewrite Tr in El; apply some_eq in El; subst la; exact Ia|]. rewrite Ce in El by discriminate. apply some_eq in El. subst la. rewrite El0. apply in_or_app. right. apply in_or_app. left. exact Ia. }
  destruct (map_opt_in _ _ _ a Me Il) as [E [Ea Ie]]. exists E. split; [exact Ie|]. unfold element_of in Ea. rewrite Ee in Ea. cbn [bind] in Ea. apply bind_some in Ea. destruct Ea as [x [_ Ea]]. apply some_eq in Ea. subst E. reflexivity.
Qed.

(** the blocks of the two matrices are the same, and the entries the blocks describe differ by the factor *)
Theorem C90_compressed : forall l X P M g k op' op e ss order rules eta mincl n xi w ja jm H H', 0 < l -> surface_mesh X P -> same_corners l X P -> init_mesh X P M = Some g -> In (op', op, e) (scaled_operators l k) ->
  (forall d, length (fst (rules d)) = length (snd (rules d)) /\ (0 < length (fst (rules d)))%nat) -> same_quadrature l g M (Z.of_nat (ss_p ss)) order rules -> let GS := fun d => tensor_rule (rules d) in
  compressed_operator op ss X P M order GS eta mincl n xi w ja jm = Some H -> compressed_operator op' ss (scaled l X) P M order GS eta mincl n xi w ja jm = Some H' ->
  h_tree H' = h_tree H /\ h_blocks H' = h_blocks H /\ forall A, described_by H P M A -> described_by H' P M (fun q q' => l ^ e * A q q').
Proof.
  intros l X P M g k op' op e ss order rules eta mincl n xi w ja jm H H' Hl HX HS Eg Hop HR SQ GS EC EC'. pose proof (C90_mesh l X P M Hl HS) as Eg'. rewrite Eg in Eg'. cbn [option_map] in Eg'.
  unfold compressed_operator in EC, EC'. rewrite Eg in EC. rewrite Eg' in EC'. cbn [bind] in EC, EC'. set (near := near_of (mid_of (g_balls g)) (rad_of (g_balls g)) eta) in EC.
  assert (Nr : near_of (mid_of (g_balls (scaled_mesh l g))) (rad_of (g_balls (scaled_mesh l g))) eta = near).
  { apply functional_extensionality. intros a. apply functional_extensionality. intros c. apply C90_admissibility. exact Hl. }
  rewrite Nr in EC'. change (g_tree (scaled_mesh l g)) with (g_tree g) in EC'.
  destruct (scaled_vd l k op' op e Hop) as [Vd [Nf Kd]].
  destruct (h2_init_facts _ _ _ _ _ _ _ _ _ _ EC) as [T1 [T2 [T3 [T4 [T5 [T6 T7]]]]]]. destruct (h2_init_facts _ _ _ _ _ _ _ _ _ _ EC') as [T1' [T2' [T3' [T4' [T5' [T6' T7']]]]]].
  split; [congruence|]. split; [congruence|].
  destruct (reachable_wf (g_tree g) (mesh_reach X P M g HX Eg)) as [[q W] HPt]. destruct (block_tree_ok (g_tree g) q near mincl W HPt) as [bt [Ebt Hleaf]]. rewrite T3 in Ebt. apply some_eq in Ebt. subst bt.
  intros A DA rc cc i j B rs cs Hrc Hcc Hi Hj HB Hb E1 E2.
  assert (CS : comp_size H' P M = comp_size H P M) by (unfold comp_size; rewrite T4, T4'; reflexivity). rewrite CS in *.
  assert (Kk : h_k H' = h_k H) by (rewrite T4, T4'; reflexivity). assert (Tt : h_tree H' = h_tree H) by congruence. rewrite Kk, Tt in *. rewrite T3 in T3'. apply some_eq in T3'. rewrite <- T3' in HB.
  assert (Vv : h_vd H' = h_vd H) by (rewrite T7, T7'; exact Vd). rewrite Vv in Hrc, Hcc.
  rewrite (DA rc cc i j B rs cs Hrc Hcc Hi Hj HB Hb E1 E2). destruct (Hleaf B HB) as [C1 [C2 _]].
  assert (Hvd : h_vd H = op_vd op) by (rewrite T7; reflexivity). rewrite Hvd in Hrc, Hcc.
  (* the interaction matrices of the leaf *)
  assert (FF : forall r u, h_F H' rc cc (b_c1 B) (b_c2 B) r u = l ^ e * h_F H rc cc (b_c1 B) (b_c2 B) r u).
  { intros r u. unfold h2_init in EC, EC'. apply bind_some in EC. destruct EC as [b1 [_ EC]]. apply bind_some in EC'. destruct EC' as [b2 [_ EC']]. cbv zeta in EC, EC'. apply some_eq in EC. apply some_eq in EC'. rewrite <- EC, <- EC'. cbn [h_F].
    assert (DL : dense_leaf (op_linop op' ss (scaled l X) (op_form op' ss (scaled l X) order GS (g_elements (scaled_mesh l g)))) (g_tree g) rc cc (b_c1 B) (b_c2 B) r u = l ^ e * dense_leaf (op_linop op ss X (op_form op ss X order GS (g_elements g))) (g_tree g) rc cc (b_c1 B) (b_c2 B) r u).
    { unfold dense_leaf. cbn [op_linop o_p o_form].
      destruct (elements_of (g_tree g) (b_c1 B)) as [la|] eqn:La; cbn [bind]; [|ring]. destruct (get la _) as [a1|] eqn:Ga; cbn [bind]; [|ring]. destruct (t_store (g_tree g) a1) as [e1|] eqn:Sa; [|ring].
      destruct (elements_of (g_tree g) (b_c2 B)) as [lb|] eqn:Lb; cbn [bind]; [|ring]. destruct (get lb _) as [a2|] eqn:Gb; cbn [bind]; [|ring]. destruct (t_store (g_tree g) a2) as [e2|] eqn:Sb; [|ring].
      destruct (cluster_element X P M g (b_c1 B) la a1 e1 HX Eg C1 La (nth_error_In _ _ Ga) Sa) as [F1 [I1 N1]]. destruct (cluster_element X P M g (b_c2 B) lb a2 e2 HX Eg C2 Lb (nth_error_In _ _ Gb) Sb) as [F2 [I2 N2]]. subst e1 e2.
      assert (Kp : ((ss_p ss + 1) * (ss_p ss + 1) <> 0)%nat) by (rewrite Nat.add_1_r; discriminate).
      assert (Lt : forall c z, (c < op_vd op)%nat -> (c * ((ss_p ss + 1) * (ss_p ss + 1)) + z mod ((ss_p ss + 1) * (ss_p ss + 1)) < op_vd op * ss_n2 ss)%nat).
      { intros c z Hc. unfold ss_n2. pose proof (Nat.mod_upper_bound z _ Kp) as Z. revert Z. generalize (z mod ((ss_p ss + 1) * (ss_p ss + 1)))%nat. generalize ((ss_p ss + 1) * (ss_p ss + 1))%nat. intros k2 z2 Z. apply Nat.lt_le_trans with ((c + 1) * k2)%nat; [lia|]. apply Nat.mul_le_mono_r. lia. }
      apply (C90_entries l X P M g k op' op e ss order rules F1 F2 _ _ Hl HX HS Eg Hop HR SQ I1 I2); apply Lt; assumption. }
    destruct (compare_cluster (g_tree g) near mincl (b_c1 B) (b_c2 B)); [exact DL| |exact DL].
    unfold lowrank_leaf. destruct (t_store (g_tree g) (b_c1 B)) as [e1|]; [|ring]. destruct (t_store (g_tree g) (b_c2 B)) as [e2|]; [|ring].
    unfold interpolate_kernel. cbn [op_linop o_kernel o_nF]. rewrite Nf. apply (proj2 (C90_operators l k op' op e ss X Hl Hop)). }
  assert (MM : h_mom H' = h_mom H /\ h_T H' = h_T H /\ h_mc H' = h_mc H).
  { unfold h2_init in EC, EC'. apply bind_some in EC. destruct EC as [b1 [_ EC]]. apply bind_some in EC'. destruct EC' as [b2 [_ EC']]. cbv zeta in EC, EC'. apply some_eq in EC. apply some_eq in EC'. rewrite <- EC, <- EC'. cbn [h_mom h_T h_mc op_linop o_kinds o_p]. rewrite Kd. auto. }
  destruct MM as [M1 [M2 M3]]. unfold block_entry. cbv zeta. rewrite M1, M2, M3, Tt, T2, T2', T5, T5', T6, T6'. cbn [op_linop o_nF]. rewrite Nf. symmetry.
  destruct (b_cc B); [apply FF| |apply FF]. 
  all: rewrite <- rsum_scal; apply rsum_ext; intros u Hu; rewrite <- rsum_scal; apply rsum_ext; intros v Hv; rewrite FF; ring.
Qed.
Lemma scaled_library : forall l k op' op e, In (op', op, e) (scaled_operators l k) -> exists k', In op (library_operators k').
Proof.
  intros l k op' op e Hop. unfold scaled_operators in Hop. apply in_app_or in Hop. destruct Hop as [Hop|Hop].
  - exists (RtoC 0). unfold library_operators. apply in_or_app. left. unfold scaled_real in Hop. cbn [In] in Hop. destruct Hop as [Q|[Q|[Q|[Q|[]]]]]; injection Q as <- <- <-; cbn [In]; auto.
  - exists (RtoC l * k)%C. unfold library_operators. apply in_or_app. right. apply in_flat_map in Hop. destruct Hop as [[[cop' cop] e'] [Hc Hp]]. cbn [fst snd] in Hp. apply in_flat_map. exists cop. split.
    + unfold scaled_complex in Hc. cbv zeta in Hc. cbn [In] in Hc. destruct Hc as [Q|[Q|[Q|[Q|[Q|[]]]]]]; injection Q as <- <- <-; cbn [In]; auto 10.
    + cbn [In] in Hp |- *. destruct Hp as [Q|[Q|[]]]; injection Q as <- <- <-; auto.
Qed.
(** the product with a vector, whatever the schedules of the two computations; alpha and res are the factor and the vector of the
    destination in res + alpha * H * rhs *)
Theorem C90_product : forall l X P M g k op' op e ss order rules eta mincl n xi w ja jm H H' nd T alpha rhs res z z', 0 < l -> surface_mesh X P -> same_corners l X P -> init_mesh X P M = Some g -> In (op', op, e) (scaled_operators l k) ->
  (forall d, length (fst (rules d)) = length (snd (rules d)) /\ (0 < length (fst (rules d)))%nat) -> same_quadrature l g M (Z.of_nat (ss_p ss)) order rules -> let GS := fun d => tensor_rule (rules d) in (0 <= mincl)%Z -> (0 < n)%nat ->
  compressed_operator op ss X P M order GS eta mincl n xi w ja jm = Some H -> compressed_operator op' ss (scaled l X) P M order GS eta mincl n xi w ja jm = Some H' ->
  let D := (op_vd op * (ss_n2 ss * t_elements (g_tree g)))%nat in h2_product H D nd T alpha rhs res z -> h2_product H' D nd T alpha rhs res z' -> forall i, z' i - res i = l ^ e * (z i - res i).
Proof.
  intros l X P M g k op' op e ss order rules eta mincl n xi w ja jm H H' nd T alpha rhs res z z' Hl HX HS Eg Hop HR SQ GS H0 Hn EC EC' D HP HP' i.
  destruct (C90_compressed l X P M g k op' op e ss order rules eta mincl n xi w ja jm H H' Hl HX HS Eg Hop HR SQ EC EC') as [Tt [Tb TA]].
  destruct (scaled_library l k op' op e Hop) as [k' Il].
  destruct (C88_compressed_exists X P M g k' op ss order GS eta mincl n xi w ja jm HX Eg Il H0 Hn) as [H1 [EC1 [SU [V1 [CS [A [DA _]]]]]]]. rewrite EC in EC1. apply some_eq in EC1. subst H1.
  assert (FR : h_mincl H' = h_mincl H /\ h_k H' = h_k H /\ h_np H' = h_np H /\ h_nF H' = h_nF H /\ h_vd H' = h_vd H /\ h_mc H' = h_mc H).
  { destruct (scaled_vd l k op' op e Hop) as [Vd [Nf Kd]]. unfold compressed_operator in EC, EC'. rewrite Eg in EC. rewrite (C90_mesh l X P M Hl HS), Eg in EC'. cbn [option_map bind] in EC, EC'. unfold h2_init in EC, EC'.
    apply bind_some in EC. destruct EC as [b1 [_ EC]]. apply bind_some in EC'. destruct EC' as [b2 [_ EC']]. cbv zeta in EC, EC'. apply some_eq in EC. apply some_eq in EC'. subst H H'. cbn [h_mincl h_k h_np h_nF h_vd h_mc op_linop o_p o_nF o_vd]. cbn [scaled_mesh g_tree]. auto 10. }
  destruct FR as [F1 [F2 [F3 [F4 [F5 F6]]]]].
  assert (SU' : h2_of_mesh H' P M) by (unfold h2_of_mesh in *; rewrite Tt, Tb, F1, F2, F3, F4, F5, F6; exact SU).
  assert (CS' : comp_size H' P M = comp_size H P M) by (unfold comp_size; rewrite F2; reflexivity).
  assert (ED : D = (h_vd H * comp_size H P M)%nat) by (unfold D; rewrite V1, CS; reflexivity). rewrite ED in *.
  pose proof (C29_product H P M A nd T alpha rhs res z SU DA HP i) as Q. cbv zeta in Q. rewrite Q. clear Q.
  pose proof (C29_product H' P M _ nd T alpha rhs res z' SU' (TA A DA)) as Q. cbv zeta in Q. rewrite F5, CS' in Q. specialize (Q HP' i). rewrite Q. clear Q.
  match goal with |- ?r + alpha * ?S' - ?r = l ^ e * (?r + alpha * ?S0 - ?r) => assert (ES : S' = l ^ e * S0); [|rewrite ES; ring] end.
  rewrite <- rsum_scal. apply rsum_ext. intros q Hq. match goal with |- _ * ?S' = l ^ e * (_ * ?S0) => assert (ES : S' = l ^ e * S0); [|rewrite ES; ring] end.
  rewrite <- rsum_scal. apply rsum_ext. intros q' Hq'. ring.
Qed.
(** both matrices exist or neither *)
Theorem C90_compressed_exists : forall l X P M op' op ss order order' GS GS' eta mincl n xi w ja jm H, 0 < l -> same_corners l X P ->
  compressed_operator op ss X P M order GS eta mincl n xi w ja jm = Some H -> exists H', compressed_operator op' ss (scaled l X) P M order' GS' eta mincl n xi w ja jm = Some H'.
Proof.
  intros l X P M op' op ss order order' GS GS' eta mincl n xi w ja jm H Hl HS EC. unfold compressed_operator in *. rewrite (C90_mesh l X P M Hl HS). apply bind_some in EC. destruct EC as [g [Eg EC]]. rewrite Eg. cbn [option_map bind].
  replace (near_of (mid_of (g_balls (scaled_mesh l g))) (rad_of (g_balls (scaled_mesh l g))) eta) with (near_of (mid_of (g_balls g)) (rad_of (g_balls g)) eta)
    by (symmetry; apply functional_extensionality; intros a; apply functional_extensionality; intros c; apply C90_admissibility; exact Hl).
  change (g_tree (scaled_mesh l g)) with (g_tree g). unfold h2_init in *. apply bind_some in EC. destruct EC as [bt [-> _]]. cbn [bind]. eauto.
Qed.
Example C90_compressed_example : let rules := fun _ : Z => ([/ 2], [1]) in let GS := fun d => tensor_rule (rules d) in let ss := mkSS 0 0 zero_arr zero_arr zero_arr zero_arr in
  exists g H H' B, init_mesh far_sheets 2 0 = Some g /\ same_quadrature 3 g 0 0 (-1) rules /\
  compressed_operator laplace_sl ss far_sheets 2 0 (-1) GS 1 0 4 [/ 2] [1] zero_arr zero_mat = Some H /\ compressed_operator laplace_sl ss (scaled 3 far_sheets) 2 0 (-1) GS 1 0 4 [/ 2] [1] zero_arr zero_mat = Some H' /\
  In B (leaves (h_blocks H)) /\ b_cc B = LowRank.
Proof.
  intros rules GS ss. destruct C90_example as [_ [_ [SC [_ [_ [SQ _]]]]]]. destruct C87_example as [_ [g [Eg [_ EX]]]]. destruct (EX laplace_sl ss (-1)%Z GS) as [H [B [EC [IB Lr]]]].
  destruct (C90_compressed_exists 3 far_sheets 2 0 laplace_sl laplace_sl ss (-1)%Z (-1)%Z GS GS 1 0%Z 4 [/ 2] [1] zero_arr zero_mat H) as [H' EC']; [lra|exact SC|exact EC|].
  exists g, H, H', B. split; [exact Eg|]. split; [exact (SQ g Eg)|]. split; [exact EC|]. split; [exact EC'|]. split; assumption.
Qed.

(* BEGIN ASSUMPTIONS *)
Print Assumptions C90_compressed.
Print Assumptions C90_product.
Print Assumptions C90_compressed_exists.
