(** C60: the near field (evaluateIntegrand) and the far field (evaluateFMMInterpolation, Moment2D) describe the same operator. *)
From Coq Require Import Reals Lra Lia Arith Bool List ZArith QArith Qreals.
From Coquelicot Require Import Coquelicot.
From Verif Require Import RSum SpecBernstein ModelBase ModelBernstein ProofBernstein ModelTree ModelBall ModelBlock ModelH2 ModelInterp ModelH2Init ModelQuad ModelAssembly ModelDuffy SpecTree SpecQuad SpecInterp
  ProofTree ProofTreeWF ProofTreeHist ProofTreeGeo ProofTreeLook ProofPoints PropTree PropBlock PropH2 PropAssembly ProofH2Entry PropInterp SpecDuffy ProofDuffy ProofDuffyInt PropCompare ModelOperators SpecOperators ProofOperators PropOperators ProofNearFar.
Local Close Scope Q_scope.
Import ListNotations.
Local Open Scope R_scope.

Definition real_operators : list (operator mat) := [laplace_sl; laplace_dl; laplace_adl; laplace_hs].
Definition complex_operators (k : Complex.C) : list (operator cmat) := [helmholtz_sl k; helmholtz_dl k; helmholtz_adl k; helmholtz_hs k; maxwell_sl k].

(** entry (rc n2 + i, cc n2 + j): the sum over the far-field components of the interpolated function times the two
    shape functions (or derivatives) belonging to the moments of the components *)
Theorem C60_real : forall op ss p1 p2 m rc cc i j psi, In op real_operators -> shape_values (ss_p ss) psi ->
  p_kappa p1 <> 0 -> p_kappa p2 <> 0 -> (rc < op_vd op)%nat -> (cc < op_vd op)%nat -> (i < ss_n2 ss)%nat -> (j < ss_n2 ss)%nat ->
  op_integrand op ss p1 p2 m (rc * ss_n2 ss + i)%nat (cc * ss_n2 ss + j)%nat =
  m (rc * ss_n2 ss + i)%nat (cc * ss_n2 ss + j)%nat + p_w p1 * p_w p2 *
    rsum (fun c1 => rsum (fun c2 => op_fmm op p1 p2 (rc * op_nF op + c1)%nat (cc * op_nF op + c2)%nat *
      component (ss_p ss) (ss_h ss) psi (op_kinds op rc c1) i (p_s p1) * component (ss_p ss) (ss_h ss) psi (op_kinds op cc c2) j (p_s p2)) (op_nF op)) (op_nF op).
Proof.
  intros op ss p1 p2 m rc cc i j psi Ho P K1 K2 Hrc Hcc Hi Hj.
  assert (V : op_vd op = 1%nat) by (destruct Ho as [<-|[<-|[<-|[<-|[]]]]]; reflexivity).
  assert (rc = 0%nat) by lia. assert (cc = 0%nat) by lia. subst rc cc. rewrite !Nat.mul_0_l, !Nat.add_0_l.
  destruct Ho as [<-|[<-|[<-|[<-|[]]]]]; cbn [op_integrand op_fmm op_kinds op_nF laplace_sl laplace_dl laplace_adl laplace_hs rsum plain_kinds curl_kinds Nat.add Nat.mul].
  - rewrite !component_plain by assumption. unfold laplace_sl_integrand. rewrite interaction_value by assumption. unfold laplace_sl_fmm. ring.
  - rewrite !component_plain by assumption. unfold laplace_dl_integrand. rewrite interaction_value by assumption. unfold laplace_dl_fmm.
    rewrite <- (normalized_kappa (p_n p2)). fold (p_kappa p2). ring.
  - rewrite !component_plain by assumption. unfold laplace_adl_integrand. rewrite interaction_value by assumption. unfold laplace_adl_fmm. ring.
  - rewrite !component_dx, !component_dy by assumption. unfold laplace_hs_integrand. cbv zeta. rewrite curl_value by assumption.
    pose proof (curl_dot ss p1 p2 i j K1 K2) as E. pose proof (h_pos ss) as Hh. unfold laplace_hs_fmm, updm. cbn [Nat.eqb andb].
    set (K := laplace_kernel (p_f p1) (p_f p2)).
    transitivity (m i j + p_w p1 * p_w p2 * K * (p_kappa p1 * p_kappa p2 * vdot (surface_curl ss p1 i) (surface_curl ss p2 j)) / ss_h ss / ss_h ss); [field; lra|].
    rewrite E. field. lra.
Qed.
Lemma csum_S : forall f n, csum f (S n) = (csum f n + f n)%C.
Proof. intros. unfold csum. cbn [rsum]. unfold Cplus. cbn [fst snd]. reflexivity. Qed.
Lemma csum_0 : forall f, csum f 0 = RtoC 0.
Proof. reflexivity. Qed.
Lemma csum_1 : forall f, csum f 1 = f 0%nat.
Proof. intros f. rewrite csum_S, csum_0. ring. Qed.
Lemma ccurl : forall ss p1 p2 w m i j, (i < ss_n2 ss)%nat -> (j < ss_n2 ss)%nat ->
  on_parts (fun w => addScaledSurfaceCurlInteraction ss w p1 p2) w m i j = (m i j + w * RtoC (vdot (surface_curl ss p1 i) (surface_curl ss p2 j)))%C.
Proof. intros. apply on_parts_value. intros. apply curl_value; assumption. Qed.
Lemma vector_value : forall ss w s t xdx xdy ydx ydy m rc cc i j, (rc < 2)%nat -> (cc < 2)%nat -> (i < ss_n2 ss)%nat -> (j < ss_n2 ss)%nat ->
  addScaledVectorBasisInteraction ss w s t xdx xdy ydx ydy m (rc * ss_n2 ss + i)%nat (cc * ss_n2 ss + j)%nat =
  m (rc * ss_n2 ss + i)%nat (cc * ss_n2 ss + j)%nat + w * (vdot (match rc with O => xdx | _ => xdy end) (match cc with O => ydx | _ => ydy end) * (shape (ss_p ss) i s * shape (ss_p ss) j t)).
Proof.
  intros ss w s t xdx xdy ydx ydy m rc cc i j Hrc Hcc Hi Hj. unfold addScaledVectorBasisInteraction. cbv zeta. rewrite !block_value.
  set (n := ss_n2 ss) in *.
  assert (B : forall a b, (a < n)%nat -> (b < n)%nat -> basisInteraction ss s t a b = shape (ss_p ss) a s * shape (ss_p ss) b t).
  { intros a b Ha Hb. unfold basisInteraction. rewrite interaction_value by assumption. ring. }
  destruct rc as [|[|rc]]; [| |lia]; (destruct cc as [|[|cc]]; [| |lia]); rewrite ?Nat.mul_0_l, ?Nat.mul_1_l, ?Nat.add_0_l;
  repeat match goal with
  | |- context [(?a <=? ?b)%nat] => destruct (Nat.leb_spec a b); try lia
  | |- context [(?a <? ?b)%nat] => destruct (Nat.ltb_spec a b); try lia
  end; cbn [andb]; rewrite ?Nat.sub_0_r; rewrite ?(Nat.add_comm n i), ?(Nat.add_comm n j), ?Nat.add_sub; rewrite B by assumption; ring.
Qed.
Lemma cvector : forall ss s t xdx xdy ydx ydy w m rc cc i j, (rc < 2)%nat -> (cc < 2)%nat -> (i < ss_n2 ss)%nat -> (j < ss_n2 ss)%nat ->
  on_parts (fun w => addScaledVectorBasisInteraction ss w s t xdx xdy ydx ydy) w m (rc * ss_n2 ss + i)%nat (cc * ss_n2 ss + j)%nat =
  (m (rc * ss_n2 ss + i)%nat (cc * ss_n2 ss + j)%nat + w * RtoC (vdot (match rc with O => xdx | _ => xdy end) (match cc with O => ydx | _ => ydy end) * (shape (ss_p ss) i s * shape (ss_p ss) j t)))%C.
Proof. intros. apply on_parts_value. intros. apply vector_value; assumption. Qed.
Definition grad_shape (ss : sspace) (s : R * R) (c i : nat) : R := match c with O => basisDx ss s i | _ => basisDy ss s i end.
Lemma div_value : forall ss w s t m rc cc i j, (rc < 2)%nat -> (cc < 2)%nat -> (i < ss_n2 ss)%nat -> (j < ss_n2 ss)%nat ->
  addScaledVectorBasisDivergenceInteraction ss w s t m (rc * ss_n2 ss + i)%nat (cc * ss_n2 ss + j)%nat =
  m (rc * ss_n2 ss + i)%nat (cc * ss_n2 ss + j)%nat + w * (grad_shape ss s rc i * grad_shape ss t cc j).
Proof.
  intros ss w s t m rc cc i j Hrc Hcc Hi Hj. unfold addScaledVectorBasisDivergenceInteraction, grad_shape.
  destruct (split_index _ i Hi) as [Ei [A1 A2]]. destruct (split_index _ j Hj) as [Ej [B1 B2]].
  pose proof (Div_Phi_times_Div_Phi_spec (ss_j1 ss) (ss_j2 ss) (ss_p ss) m w (fst s) (snd s) (fst t) (snd t) _ _ _ _ (Nat.eqb rc 1) (Nat.eqb cc 1) A1 A2 B1 B2) as X.
  cbv zeta in X. rewrite <- Ei, <- Ej in X. fold (ss_n2 ss) in X.
  destruct rc as [|[|rc]]; [| |lia]; (destruct cc as [|[|cc]]; [| |lia]); cbn [Nat.eqb] in X; rewrite ?Nat.mul_0_l, ?Nat.mul_1_l, ?Nat.add_0_l in *; rewrite X, ?dx_value, ?dy_value by assumption; ring.
Qed.
Lemma cdiv_value : forall ss s t w m rc cc i j, (rc < 2)%nat -> (cc < 2)%nat -> (i < ss_n2 ss)%nat -> (j < ss_n2 ss)%nat ->
  on_parts (fun w => addScaledVectorBasisDivergenceInteraction ss w s t) w m (rc * ss_n2 ss + i)%nat (cc * ss_n2 ss + j)%nat =
  (m (rc * ss_n2 ss + i)%nat (cc * ss_n2 ss + j)%nat + w * RtoC (grad_shape ss s rc i * grad_shape ss t cc j))%C.
Proof. intros. apply on_parts_value. intros. apply div_value; assumption. Qed.
Lemma RtoC_nonzero : forall r, r <> 0 -> RtoC r <> RtoC 0.
Proof. intros r H E. apply H. injection E. trivial. Qed.

Theorem C60_complex : forall k op ss p1 p2 m rc cc i j psi, In op (complex_operators k) -> shape_values (ss_p ss) psi -> k <> RtoC 0 ->
  p_kappa p1 <> 0 -> p_kappa p2 <> 0 -> (rc < op_vd op)%nat -> (cc < op_vd op)%nat -> (i < ss_n2 ss)%nat -> (j < ss_n2 ss)%nat ->
  op_integrand op ss p1 p2 m (rc * ss_n2 ss + i)%nat (cc * ss_n2 ss + j)%nat =
  (m (rc * ss_n2 ss + i)%nat (cc * ss_n2 ss + j)%nat + RtoC (p_w p1 * p_w p2) *
    csum (fun c1 => csum (fun c2 => op_fmm op p1 p2 (rc * op_nF op + c1)%nat (cc * op_nF op + c2)%nat *
      RtoC (component (ss_p ss) (ss_h ss) psi (op_kinds op rc c1) i (p_s p1)) * RtoC (component (ss_p ss) (ss_h ss) psi (op_kinds op cc c2) j (p_s p2))) (op_nF op)) (op_nF op))%C.
Proof.
  intros k op ss p1 p2 m rc cc i j psi Ho P Hk K1 K2 Hrc Hcc Hi Hj. pose proof (h_pos ss) as Hh.
  assert (Hn : RtoC (ss_h ss) <> RtoC 0) by (apply RtoC_nonzero; lra).
  destruct Ho as [<-|[<-|[<-|[<-|[<-|[]]]]]].
  1-4: cbn [op_vd helmholtz_sl helmholtz_dl helmholtz_adl helmholtz_hs] in Hrc, Hcc; assert (rc = 0%nat) by lia; assert (cc = 0%nat) by lia; subst rc cc; rewrite !Nat.mul_0_l, !Nat.add_0_l;
    cbn [op_integrand op_fmm op_kinds op_nF helmholtz_sl helmholtz_dl helmholtz_adl helmholtz_hs plain_kinds Nat.add Nat.mul].
  - rewrite !csum_1. rewrite !component_plain by assumption. unfold helmholtz_sl_integrand. rewrite cinteraction by assumption. unfold helmholtz_sl_fmm. rewrite !RtoC_mult. ring.
  - rewrite !csum_1. rewrite !component_plain by assumption. unfold helmholtz_dl_integrand. rewrite cinteraction by assumption. unfold helmholtz_dl_fmm. rewrite !RtoC_mult. ring.
  - rewrite !csum_1. rewrite !component_plain by assumption. unfold helmholtz_adl_integrand. rewrite cinteraction by assumption. unfold helmholtz_adl_fmm. rewrite !RtoC_mult. ring.
  - rewrite !csum_S, !csum_0. cbn [hs_kinds]. rewrite !component_plain, !component_dx, !component_dy by assumption.
    unfold helmholtz_hs_integrand. cbv zeta. rewrite ccurl, cinteraction by assumption. unfold helmholtz_hs_fmm, updc. cbn [Nat.eqb andb].
    pose proof (curl_dot ss p1 p2 i j K1 K2) as E. apply (f_equal RtoC) in E. rewrite !RtoC_plus, !RtoC_minus, !RtoC_mult in E.
    set (K := helmholtz_kernel k (p_f p1) (p_f p2)). rewrite !RtoC_div by lra. rewrite !RtoC_mult.
    transitivity (m i j + - K * vdot (p_n p1) (p_n p2) * (k * k) * p_w p1 * p_w p2 * (shape (ss_p ss) i (p_s p1) * shape (ss_p ss) j (p_s p2)) +
      p_w p1 * p_w p2 * K * (p_kappa p1 * p_kappa p2 * vdot (surface_curl ss p1 i) (surface_curl ss p2 j)) / ss_h ss / ss_h ss)%C; [field; assumption|].
    rewrite E. field. assumption.
  - cbn [op_vd maxwell_sl] in Hrc, Hcc. cbn [op_integrand op_fmm op_kinds op_nF maxwell_sl]. rewrite !csum_S, !csum_0.
    unfold maxwell_sl_integrand. cbv zeta. rewrite cdiv_value, cvector by assumption. unfold maxwell_sl_fmm, updc.
    set (K := helmholtz_kernel k (p_f p1) (p_f p2)). rewrite !RtoC_mult.
    destruct rc as [|[|rc]]; [| |lia]; (destruct cc as [|[|cc]]; [| |lia]); cbn [Nat.eqb Nat.add Nat.mul andb maxwell_kinds grad_shape];
      rewrite !component_plain, ?component_dx, ?component_dy by assumption; rewrite !RtoC_div by lra; field; split; assumption.
Qed.

(** ** all operators at once: the real ones and both parts of the complex ones *)
Definition scalar_operators (k : Complex.C) : list (operator mat) :=
  real_operators ++ map (part_of fst) (complex_operators k) ++ map (part_of snd) (complex_operators k).
Lemma csum_fst : forall f n, fst (csum f n) = rsum (fun i => fst (f i)) n.
Proof. reflexivity. Qed.
Lemma csum_snd : forall f n, snd (csum f n) = rsum (fun i => snd (f i)) n.
Proof. reflexivity. Qed.
Theorem C60_near_far : forall k op ss p1 p2 m rc cc i j psi, In op (scalar_operators k) -> shape_values (ss_p ss) psi -> k <> RtoC 0 ->
  p_kappa p1 <> 0 -> p_kappa p2 <> 0 -> (rc < op_vd op)%nat -> (cc < op_vd op)%nat -> (i < ss_n2 ss)%nat -> (j < ss_n2 ss)%nat ->
  op_integrand op ss p1 p2 m (rc * ss_n2 ss + i)%nat (cc * ss_n2 ss + j)%nat =
  m (rc * ss_n2 ss + i)%nat (cc * ss_n2 ss + j)%nat + p_w p1 * p_w p2 *
    rsum (fun c1 => rsum (fun c2 => op_fmm op p1 p2 (rc * op_nF op + c1)%nat (cc * op_nF op + c2)%nat *
      component (ss_p ss) (ss_h ss) psi (op_kinds op rc c1) i (p_s p1) * component (ss_p ss) (ss_h ss) psi (op_kinds op cc c2) j (p_s p2)) (op_nF op)) (op_nF op).
Proof.
  intros k op ss p1 p2 m rc cc i j psi Ho P Hk K1 K2 Hrc Hcc Hi Hj. unfold scalar_operators in Ho. apply in_app_or in Ho. destruct Ho as [Ho|Ho]; [apply C60_real; assumption|].
  apply in_app_or in Ho. destruct Ho as [Ho|Ho]; apply in_map_iff in Ho; destruct Ho as [cop [<- Ho]]; cbn [part_of op_vd op_nF op_integrand op_fmm op_kinds] in *;
    rewrite (C60_complex k cop ss p1 p2 zero_cmatrix rc cc i j psi) by assumption; unfold zero_cmatrix; f_equal.
  - unfold Cplus, Cmult. cbn [fst snd RtoC]. rewrite csum_fst, Rplus_0_l, Rmult_0_l, Rminus_0_r. f_equal. apply rsum_ext. intros c1 _. rewrite csum_fst. apply rsum_ext. intros c2 _. cbn [fst snd RtoC]. ring.
  - unfold Cplus, Cmult. cbn [fst snd RtoC]. rewrite csum_snd, Rplus_0_l, Rmult_0_l, Rplus_0_r. f_equal. apply rsum_ext. intros c1 _. rewrite csum_snd. apply rsum_ext. intros c2 _. cbn [fst snd RtoC]. ring.
Qed.
(** bern and its derivatives are shape values *)
Definition some_psi (p : nat) (b : bool) : nat -> R -> R := if b then dbern p else bern p.
Lemma some_psi_ok : forall p, shape_values p (some_psi p).
Proof. intros p. split; [reflexivity|]. intros m s H. apply bern_derivable, H. Qed.
(** the weights enter as a product, the rest depends only on the two points: what ModelDuffy.evaluate_integrand assumes *)
Definition with_weight (w : R) (p : spoint) : spoint := mkSP (p_s p) w (p_f p) (p_dx p) (p_dy p).
Definition same_surface (p q : spoint) : Prop := p_f p = p_f q /\ p_dx p = p_dx q /\ p_dy p = p_dy q.
Lemma fmm_same : forall k op p1 p2 q1 q2, In op (scalar_operators k) -> same_surface p1 q1 -> same_surface p2 q2 -> op_fmm op p1 p2 = op_fmm op q1 q2.
Proof.
  intros k op [s1 w1 f1 x1 y1] [s2 w2 f2 x2 y2] [s1' w1' f1' x1' y1'] [s2' w2' f2' x2' y2'] Ho [A [B C0]] [A' [B' C']]. cbn [p_f p_dx p_dy] in *. subst.
  unfold scalar_operators, real_operators, complex_operators in Ho. cbn [app map In] in Ho. repeat (destruct Ho as [<-|Ho]; [reflexivity|]). destruct Ho.
Qed.
Theorem C60_weights : forall k op ss p1 p2 m rc cc i j, In op (scalar_operators k) -> k <> RtoC 0 ->
  p_kappa p1 <> 0 -> p_kappa p2 <> 0 -> (rc < op_vd op)%nat -> (cc < op_vd op)%nat -> (i < ss_n2 ss)%nat -> (j < ss_n2 ss)%nat ->
  let a := (rc * ss_n2 ss + i)%nat in let b := (cc * ss_n2 ss + j)%nat in
  op_integrand op ss p1 p2 m a b = m a b + p_w p1 * p_w p2 * op_integrand op ss (with_weight 1 p1) (with_weight 1 p2) zero_matrix a b.
Proof.
  intros k op ss p1 p2 m rc cc i j Ho Hk K1 K2 Hrc Hcc Hi Hj a b. unfold a, b.
  rewrite (C60_near_far k op ss p1 p2 m rc cc i j _ Ho (some_psi_ok _) Hk K1 K2 Hrc Hcc Hi Hj).
  rewrite (C60_near_far k op ss (with_weight 1 p1) (with_weight 1 p2) zero_matrix rc cc i j _ Ho (some_psi_ok _) Hk K1 K2 Hrc Hcc Hi Hj).
  rewrite (fmm_same k op (with_weight 1 p1) (with_weight 1 p2) p1 p2 Ho) by (repeat split). unfold zero_matrix. cbn [with_weight p_w p_s]. ring.
Qed.

(** ** the compressed matrix and the quadrature of the near field *)
Lemma norm_kind : forall b h, 0 < h -> norm_factor (kind_of b) h = sqrt h * (if b then 1 / h else 1).
Proof.
  intros [|] h Hh; cbn [kind_of norm_factor]; [|ring]. pose proof (sqrt_lt_R0 h Hh) as S. pose proof (sqrt_sqrt h (Rlt_le _ _ Hh)) as SS.
  apply Rmult_eq_reg_l with (sqrt h); [|lra]. rewrite Rinv_r by lra. rewrite <- Rmult_assoc, SS. field. lra.
Qed.
Lemma level_patch : forall {Pt : Type} (close : Pt -> Pt -> bool) corners M t a e c cn, (forall q, In q corners -> length q = 4%nat) -> init_tree close corners M = Some t ->
  t_store t a = Some e -> is_leaf t a -> t_store t c = Some cn -> under c a -> n_level e = M /\ n_patch cn = n_patch e.
Proof.
  intros Pt close corners M t a e c cn H4 E Ea La Ec [w U]. destruct (init_tree_ok close corners M H4) as [t' [l [E' [W [P [A ML]]]]]]. rewrite E in E'. injection E' as <-.
  pose proof (wf_node t l W _ e Ea) as Ke. pose proof (wf_node t l W _ cn Ec) as Kc. split; [rewrite (nk_level _ _ Ke); apply A, La|].
  rewrite (nk_patch _ _ Ke), (nk_patch _ _ Kc). subst a. unfold pos_patch. 
  assert (Ne : c <> []) by (eapply wf_nonroot; [eassumption|congruence]).
  destruct (exists_last Ne) as [c' [z ->]]. rewrite app_assoc, !last_last. reflexivity.
Qed.
Lemma quad_tensor : forall xi w F, length xi = length w -> tensor_quad xi w F = quad xi w (fun a => quad xi w (fun b => F a b)).
Proof.
  intros xi w F L. unfold tensor_quad, quad. rewrite ?L. apply rsum_ext. intros k _. rewrite <- rsum_scal. apply rsum_ext. intros l _. ring.
Qed.

Lemma width : forall n, Q2R (get_h n) = 1 / 2 ^ n_level n.
Proof. intros n. unfold get_h. rewrite Q2R_div by apply pow2Q_neq. rewrite Q2R_pow2. f_equal. unfold Q2R; simpl; lra. Qed.
Lemma width_pos : forall n, 0 < Q2R (get_h n).
Proof. intros n. rewrite width. apply Rdiv_lt_0_compat; [lra|apply pow_lt; lra]. Qed.
Lemma rel_same : forall c e s, same_parameter c e s (rel_point c e s).
Proof. intros c e s. pose proof (width_pos c). unfold same_parameter, rel_point. cbn [fst snd]. split; field; lra. Qed.
Lemma surf_same : forall X c e s s' w w', n_patch c = n_patch e -> same_parameter c e s s' -> same_surface (surf_point X c s' w) (surf_point X e s w').
Proof. intros X c e s s' w w' P [S1 S2]. unfold surf_point. rewrite P, S1, S2. repeat split. Qed.
Lemma quad_in : forall xi w f g, length xi = length w -> (forall a, In a xi -> f a = g a) -> quad xi w f = quad xi w g.
Proof. intros xi w f g L H. unfold quad. apply rsum_ext. intros k Hk. rewrite H; [reflexivity|]. apply nth_In. lia. Qed.
Lemma L4_in : forall xi w F G, length xi = length w -> (forall a b e f, In a xi -> In b xi -> In e xi -> In f xi -> F a b e f = G a b e f) -> L4 xi w F = L4 xi w G.
Proof. intros xi w F G L H. unfold L4. do 4 (apply quad_in; [exact L|intros]). apply H; assumption. Qed.
Lemma quad_rsum : forall xi w n (f : nat -> R -> R), quad xi w (fun t => rsum (fun c => f c t) n) = rsum (fun c => quad xi w (f c)) n.
Proof.
  intros xi w n f. unfold quad. rewrite (rsum_ext _ (fun k => rsum (fun c => nth k w 0 * f c (nth k xi 0)) n)) by (intros; rewrite <- rsum_scal; reflexivity).
  rewrite rsum_swap. reflexivity.
Qed.
Lemma L4_rsum : forall xi w n (F : nat -> fun4), L4 xi w (fun a b e f => rsum (fun c => F c a b e f) n) = rsum (fun c => L4 xi w (F c)) n.
Proof.
  intros xi w n F. unfold L4. rewrite <- quad_rsum. apply quad_ext'. intros a. rewrite <- quad_rsum. apply quad_ext'. intros b0. rewrite <- quad_rsum. apply quad_ext'. intros e.
  rewrite <- quad_rsum. reflexivity.
Qed.
Lemma h_sqrt : forall h, 0 < h -> sqrt h * sqrt h * (sqrt h * sqrt h) = h * h.
Proof. intros h Hh. rewrite sqrt_sqrt by lra. reflexivity. Qed.

Lemma components_pos : forall k op, In op (scalar_operators k) -> (0 < op_nF op)%nat /\ (0 < op_vd op)%nat.
Proof.
  intros k op Ho. unfold scalar_operators, real_operators, complex_operators in Ho. cbn [app map In] in Ho.
  repeat (destruct Ho as [Ho|Ho]; [rewrite <- Ho; split; cbn; lia|]). destruct Ho.
Qed.
Lemma rsum_abs_le : forall f B n, (forall i, (i < n)%nat -> Rabs (f i) <= B) -> Rabs (rsum f n) <= INR n * B.
Proof.
  intros f B n H. induction n as [|n IH]; [cbn [rsum INR]; rewrite Rabs_R0; lra|]. cbn [rsum]. rewrite S_INR. eapply Rle_trans; [apply Rabs_triang|].
  pose proof (IH (fun i Hi => H i (Nat.lt_lt_succ_r _ _ Hi))). pose proof (H n (Nat.lt_succ_diag_r n)). lra.
Qed.
Section Compressed.
Variables (Pt : Type) (close : Pt -> Pt -> bool) (corners : list (list Pt)) (M : nat) (t : tree) (k : Complex.C) (op : operator mat) (ss : sspace) (X : surface)
  (form : node -> node -> mat) (near : addr -> addr -> bool) (mincl : Z) (n : nat) (xi w : list R) (ja : arr) (jm : mat) (H : h2) (A : mat).
Hypothesis Hc : corners <> []. Hypothesis H4 : forall c, In c corners -> length c = 4%nat. Hypothesis Et : init_tree close corners M = Some t.
Hypothesis Hr : near [] [] = true. Hypothesis H0 : (0 <= mincl)%Z. Hypothesis Hn : (0 < n)%nat.
Hypothesis Ho : In op (scalar_operators k). Hypothesis Hk : k <> RtoC 0. Hypothesis HM : ss_M ss = M. Hypothesis HL : length xi = length w.
Hypothesis EH : h2_init (op_linop op ss X form) t near mincl n xi w ja jm = Some H.
Hypothesis DA : described_by H (length corners) M A.
Variables (B : btree) (a1 a2 : addr) (E1 E2 : element) (c1 c2 : node) (rc cc i j : nat).
Hypothesis HB : In B (leaves (h_blocks H)). Hypothesis Hlr : b_cc B = LowRank.
Hypothesis S1 : t_store t a1 = Some (e_node E1). Hypothesis S2 : t_store t a2 = Some (e_node E2).
Hypothesis L1 : is_leaf t a1. Hypothesis L2 : is_leaf t a2.
Hypothesis Ec1 : t_store t (b_c1 B) = Some c1. Hypothesis Ec2 : t_store t (b_c2 B) = Some c2.
Hypothesis U1 : under (b_c1 B) a1. Hypothesis U2 : under (b_c2 B) a2.
Hypothesis Hrc : (rc < op_vd op)%nat. Hypothesis Hcc : (cc < op_vd op)%nat. Hypothesis Hi : (i < ss_n2 ss)%nat. Hypothesis Hj : (j < ss_n2 ss)%nat.
Notation psi := (some_psi (ss_p ss)).
Notation comp := (component (ss_p ss) (ss_h ss) psi).
Definition fmm_entry (C1 C2 : nat) (s s' : R * R) : R := op_fmm op (surf_point X c1 s 0) (surf_point X c2 s' 0) (rc * op_nF op + C1)%nat (cc * op_nF op + C2)%nat.

Lemma far_value : A (row_of (ss_n2 ss) (length corners * 4 ^ M) rc i (e_node E1)) (row_of (ss_n2 ss) (length corners * 4 ^ M) cc j (e_node E2)) =
  ss_h ss * ss_h ss * L4 xi w (fun a b e f => rsum (fun C1 => rsum (fun C2 =>
    interpolated n (chebychev n) (fmm_entry C1 C2) (rel_point c1 (e_node E1) (a, b)) (rel_point c2 (e_node E2) (e, f)) *
    comp (op_kinds op rc C1) i (a, b) * comp (op_kinds op cc C2) j (e, f)) (op_nF op)) (op_nF op)).
Proof.
  assert (HF : (0 < op_nF op)%nat /\ (0 < op_vd op)%nat) by exact (components_pos k op Ho).
  destruct HF as [HF Hv]. pose proof (h_pos ss) as Hh.
  destruct (split_index _ i Hi) as [Ei [A1 A2]]. destruct (split_index _ j Hj) as [Ej [B1 B2]].
  pose proof (C54_lowrank_entries Pt close corners M t (op_linop op ss X form) near mincl n xi w ja jm H A Hc H4 Et Hr H0 Hn HF Hv EH DA B a1 a2 (e_node E1) (e_node E2) c1 c2 rc cc
    (i / (ss_p ss + 1)) (i mod (ss_p ss + 1)) (j / (ss_p ss + 1)) (j mod (ss_p ss + 1)) (fun kd => psi (match kd with Plain => false | Deriv => true end))
    (rel_point c1 (e_node E1)) (rel_point c2 (e_node E2)) HB Hlr S1 S2 L1 L2 Ec1 Ec2 U1 U2 Hrc Hcc A1 A2 B1 B2
    (fun m s => eq_refl) (fun m s Hm => bern_derivable _ _ _ Hm) (rel_same _ _) (rel_same _ _)) as F.
  cbv zeta in F. cbn [op_linop o_p o_nF o_kinds o_kernel fst snd] in F. fold (ss_n2 ss) in F. rewrite <- Ei, <- Ej in F. rewrite F. clear F.
  assert (EhM : 1 / 2 ^ M = ss_h ss) by (unfold ss_h; rewrite HM; reflexivity). rewrite EhM.
  rewrite L4_rsum, <- rsum_scal. apply rsum_ext. intros C1 _. rewrite L4_rsum, <- rsum_scal. apply rsum_ext. intros C2 _.
  rewrite !norm_kind by assumption.
  set (dx1 := fst (op_kinds op rc C1)). set (dy1 := snd (op_kinds op rc C1)). set (dx2 := fst (op_kinds op cc C2)). set (dy2 := snd (op_kinds op cc C2)).
  rewrite quad_tensor by exact HL. 
  transitivity ((sqrt (ss_h ss) * sqrt (ss_h ss) * (sqrt (ss_h ss) * sqrt (ss_h ss))) * (((if dx1 then 1 / ss_h ss else 1) * (if dy1 then 1 / ss_h ss else 1) * ((if dx2 then 1 / ss_h ss else 1) * (if dy2 then 1 / ss_h ss else 1))) *
    L4 xi w (fun a b e f => psi dx1 (i mod (ss_p ss + 1))%nat a * psi dy1 (i / (ss_p ss + 1))%nat b * (psi dx2 (j mod (ss_p ss + 1))%nat e * psi dy2 (j / (ss_p ss + 1))%nat f) *
      interpolated n (chebychev n) (fmm_entry C1 C2) (rel_point c1 (e_node E1) (a, b)) (rel_point c2 (e_node E2) (e, f))))).
  - unfold L4. match goal with |- ?u * ?v = ?x * (?y * ?z) => replace v with z; [ring|] end.
    apply quad_ext'. intros a. apply quad_ext'. intros b0. rewrite quad_tensor by exact HL. apply quad_ext'. intros e. apply quad_ext'. intros f.
    f_equal. destruct dx1, dy1, dx2, dy2; reflexivity.
  - rewrite h_sqrt by assumption. f_equal. rewrite <- L4_scal. apply L4_ext. intros a b0 e f. unfold component. fold dx1 dy1 dx2 dy2. cbn [fst snd].
    destruct dx1, dy1, dx2, dy2; ring.
Qed.
Hypothesis K1 : forall a b, In a xi -> In b xi -> p_kappa (surf_point X (e_node E1) (a, b) 1) <> 0.
Hypothesis K2 : forall a b, In a xi -> In b xi -> p_kappa (surf_point X (e_node E2) (a, b) 1) <> 0.
Lemma near_value : integrate1 (op_kern op ss X) E1 E2 (tensor_rule (xi, w)) (rc * ss_n2 ss + i)%nat (cc * ss_n2 ss + j)%nat =
  ss_h ss * ss_h ss * L4 xi w (fun a b e f => rsum (fun C1 => rsum (fun C2 =>
    fmm_entry C1 C2 (rel_point c1 (e_node E1) (a, b)) (rel_point c2 (e_node E2) (e, f)) *
    comp (op_kinds op rc C1) i (a, b) * comp (op_kinds op cc C2) j (e, f)) (op_nF op)) (op_nF op)).
Proof.
  rewrite integrate1_value by exact HL.
  destruct (level_patch close corners M t a1 (e_node E1) (b_c1 B) c1 H4 Et S1 L1 Ec1 U1) as [V1 P1]. destruct (level_patch close corners M t a2 (e_node E2) (b_c2 B) c2 H4 Et S2 L2 Ec2 U2) as [V2 P2].
  assert (Eh : e_h E1 = ss_h ss) by (unfold e_h, ss_h; rewrite width, V1, HM; reflexivity). rewrite Eh. f_equal.
  apply L4_in; [exact HL|]. intros a b0 e f Ha Hb He Hf. unfold cur, entry, op_kern.
  rewrite (C60_near_far k op ss _ _ zero_matrix rc cc i j psi Ho (some_psi_ok _) Hk (K1 a b0 Ha Hb) (K2 e f He Hf) Hrc Hcc Hi Hj).
  unfold zero_matrix. rewrite Rplus_0_l. cbn [p_w surf_point]. rewrite !Rmult_1_l. apply rsum_ext. intros C1 _. apply rsum_ext. intros C2 _. unfold fmm_entry.
  rewrite (fmm_same k op (surf_point X c1 (rel_point c1 (e_node E1) (a, b0)) 0) (surf_point X c2 (rel_point c2 (e_node E2) (e, f)) 0)
    (surf_point X (e_node E1) (a, b0) 1) (surf_point X (e_node E2) (e, f) 1) Ho) by (apply surf_same; [assumption|apply rel_same]). reflexivity.
Qed.
End Compressed.

(** the matrix A represented by the H2 matrix of an operator, at two elements whose clusters form a far-field block,
    compared with the entry computed by integrate1 with the integrand of the operator and the tensor product of the rule
    used for the moments: they differ by at most h^2 nF^2 S^2 eps, where eps bounds the interpolation error on the two
    elements and S the shape functions (and their derivatives divided by h) that occur *)
Theorem C60_compressed_error : forall (Pt : Type) (close : Pt -> Pt -> bool) corners M t k op ss X form near mincl n xi w ja jm H A,
  corners <> [] -> (forall c, In c corners -> length c = 4%nat) -> init_tree close corners M = Some t ->
  near [] [] = true -> (0 <= mincl)%Z -> (0 < n)%nat -> In op (scalar_operators k) -> k <> RtoC 0 -> ss_M ss = M -> length xi = length w ->
  h2_init (op_linop op ss X form) t near mincl n xi w ja jm = Some H -> described_by H (length corners) M A ->
  forall B a1 a2 E1 E2 c1 c2 rc cc i j, In B (leaves (h_blocks H)) -> b_cc B = LowRank ->
  t_store t a1 = Some (e_node E1) -> t_store t a2 = Some (e_node E2) -> is_leaf t a1 -> is_leaf t a2 ->
  t_store t (b_c1 B) = Some c1 -> t_store t (b_c2 B) = Some c2 -> under (b_c1 B) a1 -> under (b_c2 B) a2 ->
  (rc < op_vd op)%nat -> (cc < op_vd op)%nat -> (i < ss_n2 ss)%nat -> (j < ss_n2 ss)%nat ->
  (forall a b, In a xi -> In b xi -> p_kappa (surf_point X (e_node E1) (a, b) 1) <> 0) ->
  (forall a b, In a xi -> In b xi -> p_kappa (surf_point X (e_node E2) (a, b) 1) <> 0) ->
  let N := (length corners * 4 ^ M)%nat in
  forall eps S psi, positive_rule xi w -> shape_values (ss_p ss) psi ->
  (forall C1 C2 s s' t1 t2, (C1 < op_nF op)%nat -> (C2 < op_nF op)%nat -> in_open_square s -> in_open_square s' ->
    same_parameter c1 (e_node E1) s t1 -> same_parameter c2 (e_node E2) s' t2 ->
    let K s s' := op_fmm op (surf_point X c1 s 0) (surf_point X c2 s' 0) (rc * op_nF op + C1)%nat (cc * op_nF op + C2)%nat in
    Rabs (interpolated n (chebychev n) K t1 t2 - K t1 t2) <= eps) ->
  (forall c C q s, (c < op_vd op)%nat -> (C < op_nF op)%nat -> (q < ss_n2 ss)%nat -> in_open_square s -> Rabs (component (ss_p ss) (ss_h ss) psi (op_kinds op c C) q s) <= S) ->
  Rabs (A (row_of (ss_n2 ss) N rc i (e_node E1)) (row_of (ss_n2 ss) N cc j (e_node E2)) -
    integrate1 (op_kern op ss X) E1 E2 (tensor_rule (xi, w)) (rc * ss_n2 ss + i)%nat (cc * ss_n2 ss + j)%nat)
  <= ss_h ss * ss_h ss * (INR (op_nF op) * INR (op_nF op) * (S * S * eps)).
Proof.
  intros Pt close corners M t k op ss X form near mincl n xi w ja jm H A Hc H4 Et Hr H0 Hn Ho Hk HM HL EH DA B a1 a2 E1 E2 c1 c2 rc cc i j HB Hlr S1 S2 L1 L2 Ec1 Ec2 U1 U2 Hrc Hcc Hi Hj K1 K2 N eps S psi HR Ps HE HS.
  rewrite (near_value Pt close corners M t k op ss X xi w H4 Et Ho Hk HM HL B a1 a2 E1 E2 c1 c2 rc cc i j S1 S2 L1 L2 Ec1 Ec2 U1 U2 Hrc Hcc Hi Hj K1 K2).
  unfold N. rewrite (far_value Pt close corners M t k op ss X form near mincl n xi w ja jm H A Hc H4 Et Hr H0 Hn Ho HM HL EH DA B a1 a2 E1 E2 c1 c2 rc cc i j HB Hlr S1 S2 L1 L2 Ec1 Ec2 U1 U2 Hrc Hcc Hi Hj).
  match goal with |- Rabs (?h * ?g * L4 xi w ?F - ?h * ?g * L4 xi w ?G) <= _ =>
    replace (h * g * L4 xi w F - h * g * L4 xi w G) with (h * g * (L4 xi w (fun a b e f => F a b e f + -1 * G a b e f))) by (rewrite L4_plus, L4_scal; ring) end.
  pose proof (h_pos ss) as Hh. rewrite Rabs_mult, (Rabs_pos_eq (ss_h ss * ss_h ss)) by (apply Rmult_le_pos; lra). apply Rmult_le_compat_l; [apply Rmult_le_pos; lra|].
  apply L4_bound; [exact HR|]. intros a b e f Ha Hb He Hf.
  assert (Ep : forall c C q s, (c < op_vd op)%nat -> (C < op_nF op)%nat -> (q < ss_n2 ss)%nat -> in_open_square s -> Rabs (component (ss_p ss) (ss_h ss) (some_psi (ss_p ss)) (op_kinds op c C) q s) <= S).
  { intros c C q s H1 H2 H3 H5. replace (component (ss_p ss) (ss_h ss) (some_psi (ss_p ss)) (op_kinds op c C) q s) with (component (ss_p ss) (ss_h ss) psi (op_kinds op c C) q s); [apply HS; assumption|].
    destruct (split_index _ q H3) as [_ [A1 A2]]. unfold component. 
    assert (Q : forall bb m u, (m <= ss_p ss)%nat -> psi bb m u = some_psi (ss_p ss) bb m u) by (intros [|] m u Hm; [exact (psi_true _ _ _ _ Ps Hm)|apply (proj1 Ps)]).
    rewrite !Q by assumption. reflexivity. }
  rewrite <- rsum_scal, <- rsum_plus.
  rewrite (Rmult_assoc (INR (op_nF op))). apply rsum_abs_le.
  intros C1 HC1. rewrite <- rsum_scal, <- rsum_plus. apply rsum_abs_le. intros C2 HC2.
  set (I := interpolated _ _ _ _ _). set (K := fmm_entry _ _ _ _ _ _ _ _ _ _). set (u := component _ _ _ _ i _). set (v := component _ _ _ _ j _).
  replace (I * u * v + -1 * (K * u * v)) with ((u * v) * (I - K)) by ring. rewrite !Rabs_mult.
  assert (Hu : Rabs u <= S) by (apply Ep; [assumption..|split; assumption]). assert (Hv : Rabs v <= S) by (apply Ep; [assumption..|split; assumption]).
  assert (HI : Rabs (I - K) <= eps).
  { apply (HE C1 C2 (a, b) (e, f) (rel_point c1 (e_node E1) (a, b)) (rel_point c2 (e_node E2) (e, f)) HC1 HC2); [split; assumption..|apply rel_same|apply rel_same]. }
  apply Rmult_le_compat; [apply Rmult_le_pos; apply Rabs_pos|apply Rabs_pos|apply Rmult_le_compat; try apply Rabs_pos; assumption|assumption].
Qed.

(** ** the hypotheses are met *)
Example C60_point_example : exists p1 p2 : spoint, p_kappa p1 <> 0 /\ p_kappa p2 <> 0 /\ p_f p1 <> p_f p2 /\ p_w p1 * p_w p2 <> 0.
Proof.
  exists (mkSP (/ 2, / 2) 1 (0, 0, 0) (1, 0, 0) (0, 1, 0)), (mkSP (/ 2, / 2) 1 (0, 0, 1) (1, 0, 0) (0, 1, 0)).
  assert (K : vnorm (vcross (1, 0, 0) (0, 1, 0)) = 1) by (unfold vnorm, vdot, vcross, vx, vy, vz; cbn [fst snd]; match goal with |- sqrt ?z = _ => replace z with 1 by ring end; apply sqrt_1).
  unfold p_kappa, p_n; cbn [p_dx p_dy p_f p_w]. rewrite K. repeat split; try lra. intro E. injection E. lra.
Qed.
(** three parallel unit squares in the planes z = 0, 10, 20; patches 0 and 2 form a far-field block *)
Definition sheets : surface := fun q st => ((fst st, snd st, 10 * INR q), (1, 0, 0), (0, 1, 0)).
Definition ss_ex : sspace := mkSS 1 2 zero_arr zero_arr zero_arr zero_arr.
Lemma sheets_kappa : forall n s w, p_kappa (surf_point sheets n s w) = 1.
Proof.
  intros n s w. unfold p_kappa, p_n, surf_point, sheets. cbn [p_dx p_dy fst snd]. unfold vnorm, vdot, vcross, vx, vy, vz; cbn [fst snd].
  match goal with |- sqrt ?z = _ => replace z with 1 by ring end; apply sqrt_1.
Qed.
Lemma sheets_kernel : forall c1 c2 s s' w w', n_patch c1 = 0%nat -> n_patch c2 = 2%nat -> 0 <= laplace_kernel (p_f (surf_point sheets c1 s w)) (p_f (surf_point sheets c2 s' w')) <= 1 / 20.
Proof.
  intros c1 c2 s s' w w' P1 P2. unfold laplace_kernel, surf_point, sheets. rewrite P1, P2. cbn [p_f fst snd INR].
  match goal with |- context [vnorm ?v] => assert (N : 20 <= vnorm v) end.
  { unfold vnorm. rewrite <- (sqrt_square 20) by lra. apply sqrt_le_1_alt. unfold vdot, vsub, vadd, vscal, vx, vy, vz; cbn [fst snd].
    match goal with |- _ <= ?x * ?x + ?y * ?y + ?z * ?z => pose proof (Rle_0_sqr x) as Q1; pose proof (Rle_0_sqr y) as Q2; unfold Rsqr in Q1, Q2 end. lra. }
  match goal with |- context [vnorm ?v] => set (r := vnorm v) in * end. clearbody r.
  assert (HPI : 1 <= 4 * PI) by (pose proof PI_RGT_0; pose proof (PI_ineq 0) as Z; pose proof PI2_1; unfold PI2 in *; lra).
  assert (E : 1 / 4 / PI / r = / (4 * PI) * / r) by (field; split; lra). rewrite E.
  assert (0 < / (4 * PI) <= 1) by (split; [apply Rinv_0_lt_compat; lra|rewrite <- Rinv_1; apply Rinv_le_contravar; lra]).
  assert (0 < / r <= / 20) by (split; [apply Rinv_0_lt_compat; lra|apply Rinv_le_contravar; lra]).
  split; [apply Rmult_le_pos; lra|]. replace (1 / 20) with (1 * / 20) by field. apply Rmult_le_compat; lra.
Qed.
Lemma sheets_leaves : exists l,
  (t <- init_tree Nat.eqb strip 2 ;; bt <- block_tree t ex_near 1 ;;
   Some (map (fun B => (b_cc B, (b_c1 B, b_c2 B), (match t_store t (b_c1 B), t_store t (b_c2 B) with Some u, Some v => Some (n_patch u, n_patch v) | _, _ => None end),
     (match t_store t [0; 0; 0]%nat, t_store t [3; 1; 2]%nat with Some u, Some v => n_ref u || n_ref v | _, _ => true end))) (leaves bt))) = Some l
  /\ In (LowRank, ([0], [2]), Some (0, 2), false)%nat l.
Proof. eexists. split; [vm_compute; reflexivity|]. simpl. tauto. Qed.
Example C60_compressed_example : exists t H A B a1 a2 E1 E2 c1 c2,
  init_tree Nat.eqb strip 2 = Some t /\ In laplace_sl (scalar_operators Ci) /\ Ci <> RtoC 0 /\
  h2_init (op_linop laplace_sl ss_ex sheets (fun _ _ _ _ => 0)) t ex_near 1 1 [/ 2] [1] zero_arr zero_mat = Some H /\ described_by H 3 2 A /\
  In B (leaves (h_blocks H)) /\ b_cc B = LowRank /\ t_store t a1 = Some (e_node E1) /\ t_store t a2 = Some (e_node E2) /\ is_leaf t a1 /\ is_leaf t a2 /\
  t_store t (b_c1 B) = Some c1 /\ t_store t (b_c2 B) = Some c2 /\ under (b_c1 B) a1 /\ under (b_c2 B) a2 /\
  positive_rule [/ 2] [1] /\ (forall n a b, p_kappa (surf_point sheets n (a, b) 1) <> 0) /\
  (forall s s' t1 t2, in_open_square s -> in_open_square s' -> same_parameter c1 (e_node E1) s t1 -> same_parameter c2 (e_node E2) s' t2 ->
    let K s s' := op_fmm laplace_sl (surf_point sheets c1 s 0) (surf_point sheets c2 s' 0) 0%nat 0%nat in
    Rabs (interpolated 1 (chebychev 1) K t1 t2 - K t1 t2) <= 1 / 20) /\
  (forall q s, (q < ss_n2 ss_ex)%nat -> in_open_square s -> Rabs (component (ss_p ss_ex) (ss_h ss_ex) (some_psi (ss_p ss_ex)) (op_kinds laplace_sl 0 0) q s) <= 1).
Proof.
  destruct sheets_leaves as [ll [Z X1]].
  apply bind_some in Z. destruct Z as [t [E Z]]. apply bind_some in Z. destruct Z as [bt [Eb Z]]. injection Z as <-.
  apply in_map_iff in X1. destruct X1 as [B [EB HB]].
  pose proof (f_equal (fun z => fst (fst (fst z))) EB) as F1. pose proof (f_equal (fun z => fst (snd (fst (fst z)))) EB) as F2.
  pose proof (f_equal (fun z => snd (snd (fst (fst z)))) EB) as F3. pose proof (f_equal (fun z => snd (fst z)) EB) as F4. pose proof (f_equal snd EB) as F5. cbn [fst snd] in F1, F2, F3, F4, F5. clear EB.
  rewrite F2, F3 in F4. destruct (t_store t [0%nat]) as [c1|] eqn:Ec1; [|discriminate]. destruct (t_store t [2%nat]) as [c2|] eqn:Ec2; [|discriminate].
  destruct (t_store t [0; 0; 0]%nat) as [n1|] eqn:N1; [|discriminate]. destruct (t_store t [3; 1; 2]%nat) as [n2|] eqn:N2; [|discriminate].
  apply orb_false_iff in F5. destruct F5 as [R1 R2]. assert (P1 : n_patch c1 = 0%nat) by congruence. assert (P2 : n_patch c2 = 2%nat) by congruence. clear F4.
  assert (EH : exists H, h2_init (op_linop laplace_sl ss_ex sheets (fun _ _ _ _ => 0)) t ex_near 1 1 [/ 2] [1] zero_arr zero_mat = Some H) by (unfold h2_init; rewrite Eb; cbn [bind]; eauto).
  destruct EH as [H EH].
  assert (H4 : forall c, In c strip -> length c = 4%nat) by (intros c Hc; repeat (destruct Hc as [<-|Hc]; [reflexivity|]); destruct Hc).
  assert (SU : h2_of_mesh H 3 2).
  { apply (C54_setup nat Nat.eqb strip 2 t (op_linop laplace_sl ss_ex sheets (fun _ _ _ _ => 0)) ex_near 1 1 [/ 2] [1] zero_arr zero_mat H).
    - intro Z; discriminate Z. - exact H4. - exact E. - reflexivity. - lia. - lia. - cbn; lia. - cbn; lia. - exact EH. }
  destruct (C29_matrix_exists H 3 2 SU) as [A DA].
  destruct (h2_init_facts _ _ _ _ _ _ _ _ _ _ EH) as [T1 [T2 [T3 _]]]. rewrite Eb in T3. injection T3 as T3.
  exists t, H, A, B, [0; 0; 0]%nat, [3; 1; 2]%nat, (Build_element [0; 0; 0]%nat n1 (0, 0, 0) 1), (Build_element [3; 1; 2]%nat n2 (0, 0, 0) 1), c1, c2. cbn [e_node].
  split; [exact E|]. split; [left; reflexivity|]. split; [intro Q; injection Q; lra|]. split; [exact EH|]. split; [exact DA|]. split; [rewrite <- T3; exact HB|]. split; [exact F1|].
  split; [exact N1|]. split; [exact N2|]. split; [exists n1; split; assumption|]. split; [exists n2; split; assumption|]. rewrite F2, F3. split; [exact Ec1|]. split; [exact Ec2|].
  split; [exists [0; 0]%nat; reflexivity|]. split; [exists [3; 1]%nat; reflexivity|].
  split. { split; [split; [reflexivity|]|split; [|cbn [rsum nth length]; ring]]; intros q Hq; cbn [length] in Hq; assert (q = 0%nat) by lia; subst q; cbn [nth]; lra. }
  split; [intros n a b; rewrite sheets_kappa; lra|]. split.
  - intros s s' t1 t2 _ _ _ _.
    set (K := fun s0 s'0 : R * R => op_fmm laplace_sl (surf_point sheets c1 s0 0) (surf_point sheets c2 s'0 0) 0%nat 0%nat).
    change (Rabs (interpolated 1 (chebychev 1) K t1 t2 - K t1 t2) <= 1 / 20).
    assert (B0 : forall u v, 0 <= K u v <= 1 / 20).
    { intros u v. unfold K. cbn [op_fmm laplace_sl]. unfold laplace_sl_fmm. rewrite !sheets_kappa, !Rmult_1_r. apply sheets_kernel; assumption. }
    assert (Ei : interpolated 1 (chebychev 1) K t1 t2 = K (chebychev 1 0, chebychev 1 0)%nat (chebychev 1 0, chebychev 1 0)%nat).
    { unfold interpolated, lagrange. cbn [rsum rprod Nat.eqb]. ring. }
    rewrite Ei. pose proof (B0 (chebychev 1 0, chebychev 1 0)%nat (chebychev 1 0, chebychev 1 0)%nat). pose proof (B0 t1 t2). apply Rabs_le. lra.
  - intros q s Hq [[A1 A2] [A3 A4]]. cbn [op_kinds laplace_sl plain_kinds]. rewrite component_plain by apply some_psi_ok. unfold shape.
    destruct (split_index _ q Hq) as [_ [I1 I2]].
    assert (U : forall m u, (m <= ss_p ss_ex)%nat -> 0 < u < 1 -> 0 <= bern (ss_p ss_ex) m u <= 1) by (intros m u Hm Hu; split; [apply bern_nonneg; lra|apply bern_le_1; [lra|assumption]]).
    pose proof (U _ (fst s) I2 (conj A1 A2)). pose proof (U _ (snd s) I1 (conj A3 A4)).
    rewrite Rabs_pos_eq by (apply Rmult_le_pos; lra). replace 1 with (1 * 1) by ring. apply Rmult_le_compat; lra.
Qed.

(* BEGIN ASSUMPTIONS *)
Print Assumptions C60_real.
Print Assumptions C60_complex.
Print Assumptions C60_near_far.
Print Assumptions C60_weights.
Print Assumptions C60_compressed_error.
