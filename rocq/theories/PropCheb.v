(** C77: the accuracy of the interpolation behind the compressed far field. *)
From Coq Require Import Reals Lra Lia Arith Bool List ZArith QArith Qreals.
From Coquelicot Require Import Coquelicot.
From Verif Require Import RSum SpecBernstein ModelBase ModelBernstein ProofBernstein ModelTree ModelBall ModelBlock ModelH2 ModelInterp ModelH2Init ModelQuad ModelAssembly ModelDuffy SpecTree SpecQuad SpecInterp
  ProofTree ProofTreeWF ProofTreeHist ProofTreeGeo ProofTreeLook ProofPoints ProofMoment ProofInterp PropTree PropBlock PropH2 PropAssembly ProofH2Entry PropInterp SpecDuffy ProofDuffy ProofDuffyInt PropCompare ModelOperators SpecOperators ProofOperators PropOperators ProofNearFar PropNearFar
  SpecCheb ProofCheb.
Local Close Scope Q_scope.
Import ListNotations.
Local Open Scope R_scope.

(** interpolation at the points and with the polynomials of the code: for a function whose n-th derivative is bounded by B
    on (0,1) the error is at most 2 B / (4^n n!) *)
Theorem C77_interpolation_error : forall n B f t, (0 < n)%nat -> inside t -> derivative_bounded n B f ->
  Rabs (rsum (fun i => f (chebychev n i) * eval_newton n (chebychev n) (column (lagrange_coefs n (chebychev n)) i) t) n - f t) <= 2 * B / (4 ^ n * INR (fact n)).
Proof.
  intros n B f t Hn It D. rewrite Rabs_minus_sym. replace (rsum _ n) with (interpolant n (chebychev n) (fun i => f (chebychev n i)) t); [apply cheb_interpolation; assumption|].
  unfold interpolant. apply rsum_ext. intros i Hi. rewrite newton_lagrange by (assumption || apply cheb_distinct). reflexivity.
Qed.
(** perturbations of the values are amplified by at most 2 n - 1 *)
Theorem C77_stability : forall n t, (0 < n)%nat -> 0 <= t <= 1 ->
  rsum (fun i => Rabs (eval_newton n (chebychev n) (column (lagrange_coefs n (chebychev n)) i) t)) n <= 2 * INR n - 1.
Proof.
  intros n t Hn Ht. rewrite (rsum_ext _ (fun i => Rabs (lagrange n (chebychev n) i t))); [apply lebesgue; assumption|].
  intros i Hi. rewrite newton_lagrange by (assumption || apply cheb_distinct). reflexivity.
Qed.
(** in the four variables of a kernel *)
Theorem C77_kernel_error : forall n B K s t, (0 < n)%nat -> kernel_bounded n B K -> in_open_square s -> in_open_square t ->
  Rabs (interpolated n (chebychev n) K s t - K s t) <= cheb_error4 n B.
Proof. intros n B K s t Hn HK [S1 S2] [T1 T2]. apply interpolated_error; assumption. Qed.

(** points of an element below a cluster are inside the reference square of the cluster *)
Lemma cluster_inside : forall {Pt : Type} (close : Pt -> Pt -> bool) corners M t a e c cn s s', (forall q, In q corners -> length q = 4%nat) -> init_tree close corners M = Some t ->
  t_store t a = Some e -> t_store t c = Some cn -> under c a -> in_open_square s -> same_parameter cn e s s' -> in_open_square s'.
Proof.
  intros Pt close corners M t a e c cn s s' H4 E Ea Ec [w U] [[A1 A2] [A3 A4]] Sp.
  destruct (init_tree_ok close corners M H4) as [t' [l [E' [W [P [A ML]]]]]]. rewrite E in E'. injection E' as <-.
  pose proof (wf_node t l W _ e Ea) as Ke. pose proof (wf_node t l W _ cn Ec) as Kc. assert (Ne : c <> []) by (eapply wf_nonroot; [eassumption|congruence]).
  pose proof (wf_vaddr t l a W ltac:(congruence)) as V. rewrite U in V, Ke. destruct (pos_local _ w Ne V) as [q [Hq [Ei [Ex [Ey El]]]]].
  assert (Er : s' = rel_point cn e s).
  { apply same_parameter_rel; [|exact Sp]. unfold get_h. rewrite Q2R_div by apply pow2Q_neq. rewrite Q2R_pow2. unfold Rdiv. apply Rmult_integral_contrapositive_currified; [unfold Q2R; simpl; lra|].
    apply Rinv_neq_0_compat, pow_nonzero. lra. }
  rewrite Er, (rel_point_ok _ w cn e q s Kc Ke Ex Ey El). destruct (local_bound (length w) q) as [B1 B2].
  assert (P2 : 0 < 2 ^ length w) by (apply pow_lt; lra).
  assert (G : forall i u, (i < 2 ^ length w)%nat -> 0 < u < 1 -> 0 < 1 / 2 ^ length w * (INR i + u) < 1).
  { intros i u Hi Hu. pose proof (pos_INR i). assert (INR i + 1 <= 2 ^ length w). { rewrite <- S_INR. replace (2 ^ length w) with (INR (2 ^ length w)) by (rewrite pow_INR; reflexivity). apply le_INR; lia. }
    split; [apply Rmult_lt_0_compat; [apply Rdiv_lt_0_compat; lra|lra]|]. apply Rmult_lt_reg_l with (2 ^ length w); [exact P2|]. replace (2 ^ length w * (1 / 2 ^ length w * (INR i + u))) with (INR i + u) by (field; lra). lra. }
  split; cbn [fst snd]; apply G; auto.
Qed.
(** the far-field entries: if the interpolated functions of the operator on the pair of clusters have n-th derivatives bounded by D
    in each variable, the compressed matrix and the quadrature of the near-field integrand differ by at most
    h^2 nF^2 S^2 (1 + L + L^2 + L^3) 2 D / (4^n n!), L = 2n - 1 *)
Theorem C77_compressed_error : forall (Pt : Type) (close : Pt -> Pt -> bool) corners M t k op ss X form near mincl n xi w ja jm H A,
  corners <> [] -> (forall c, In c corners -> length c = 4%nat) -> init_tree close corners M = Some t ->
  near [] [] = true -> (0 <= mincl)%Z -> (0 < n)%nat -> In op (scalar_operators k) -> k <> RtoC 0 -> ss_M ss = M -> length xi = length w ->
  h2_init (op_linop op ss X form) t near mincl n xi w ja jm = Some H -> described_by H (length corners) M A ->
  forall B a1 a2 E1 E2 c1 c2 rc cc i j, In B (leaves (h_blocks H)) -> b_cc B = LowRank ->
  t_store t a1 = Some (e_node E1) -> t_store t a2 = Some (e_node E2) -> is_leaf t a1 -> is_leaf t a2 ->
  t_store t (b_c1 B) = Some c1 -> t_store t (b_c2 B) = Some c2 -> under (b_c1 B) a1 -> under (b_c2 B) a2 ->
  (rc < op_vd op)%nat -> (cc < op_vd op)%nat -> (i < ss_n2 ss)%nat -> (j < ss_n2 ss)%nat ->
  (forall a b, In a xi -> In b xi -> p_kappa (surf_point X (e_node E1) (a, b) 1) <> 0) ->
  (forall a b, In a xi -> In b xi -> p_kappa (surf_point X (e_node E2) (a, b) 1) <> 0) ->
  let N := (length corners * 4 ^ M)%nat in
  forall D S psi, positive_rule xi w -> shape_values (ss_p ss) psi ->
  (forall C1 C2, (C1 < op_nF op)%nat -> (C2 < op_nF op)%nat ->
    kernel_bounded n D (fun s s' => op_fmm op (surf_point X c1 s 0) (surf_point X c2 s' 0) (rc * op_nF op + C1)%nat (cc * op_nF op + C2)%nat)) ->
  (forall c C q s, (c < op_vd op)%nat -> (C < op_nF op)%nat -> (q < ss_n2 ss)%nat -> in_open_square s -> Rabs (component (ss_p ss) (ss_h ss) psi (op_kinds op c C) q s) <= S) ->
  Rabs (A (row_of (ss_n2 ss) N rc i (e_node E1)) (row_of (ss_n2 ss) N cc j (e_node E2)) -
    integrate1 (op_kern op ss X) E1 E2 (tensor_rule (xi, w)) (rc * ss_n2 ss + i)%nat (cc * ss_n2 ss + j)%nat)
  <= ss_h ss * ss_h ss * (INR (op_nF op) * INR (op_nF op) * (S * S * cheb_error4 n D)).
Proof.
  intros Pt close corners M t k op ss X form near mincl n xi w ja jm H A Hc H4 Et Hr H0 Hn Ho Hk HM HL EH DA B a1 a2 E1 E2 c1 c2 rc cc i j HB Hlr S1 S2 L1 L2 Ec1 Ec2 U1 U2 Hrc Hcc Hi Hj K1 K2 N D S psi HR Ps HE HS.
  apply (C60_compressed_error Pt close corners M t k op ss X form near mincl n xi w ja jm H A Hc H4 Et Hr H0 Hn Ho Hk HM HL EH DA B a1 a2 E1 E2 c1 c2 rc cc i j HB Hlr S1 S2 L1 L2 Ec1 Ec2 U1 U2 Hrc Hcc Hi Hj K1 K2 (cheb_error4 n D) S psi HR Ps); [|exact HS].
  intros C1 C2 s s' t1 t2 HC1 HC2 Is Is' P1 P2. cbv zeta. apply C77_kernel_error; [exact Hn|apply HE; assumption|..].
  - exact (cluster_inside close corners M t a1 (e_node E1) (b_c1 B) c1 s t1 H4 Et S1 Ec1 U1 Is P1).
  - exact (cluster_inside close corners M t a2 (e_node E2) (b_c2 B) c2 s' t2 H4 Et S2 Ec2 U2 Is' P2).
Qed.

(** a kernel that is not a polynomial: all its derivatives are bounded by exp 4 *)
Example C77_example : kernel_bounded 5 (exp 4) (fun s t => exp (fst s + snd s + fst t + snd t)) /\ inside (1 / 3) /\ derivative_bounded 7 (exp 1) exp.
Proof.
  assert (G : forall n c B, 0 < B -> exp (c + 1) <= B -> derivative_bounded n B (fun a => exp (a + c))).
  { intros n c B HB Hc. exists (fun _ a => exp (a + c)). split; [reflexivity|]. split.
    - intros k x _ _. pose proof (derivable_pt_lim_comp (fun a => a + c) exp x 1 (exp (x + c))) as Dc. rewrite Rmult_1_r in Dc. apply Dc; [|apply derivable_pt_lim_exp].
      replace 1 with (1 + 0) by ring. apply (derivable_pt_lim_plus (fun a => a) (fun _ => c)); [apply derivable_pt_lim_id|apply derivable_pt_lim_const].
    - intros x [X0 X1]. rewrite Rabs_right by (apply Rle_ge, Rlt_le, exp_pos). eapply Rle_trans; [|exact Hc]. apply Rlt_le, exp_increasing. lra. }
  assert (X : forall n B f g, (forall a, f a = g a) -> derivative_bounded n B f -> derivative_bounded n B g).
  { intros n B f g Q [F [F0 R0]]. exists F. split; [intros x Ix; rewrite <- Q; apply F0, Ix|exact R0]. }
  assert (P4 : 0 < exp 4) by apply exp_pos.
  assert (Le : forall c, c < 3 -> exp (c + 1) <= exp 4) by (intros c Hc; apply Rlt_le, exp_increasing; lra).
  split; [|split; [unfold inside; lra|]].
  - split; [|split; [|split]]; intros p q r [P0 P1] [Q0 Q1] [R0 R1]; cbn [fst snd].
    + apply (X _ _ (fun a => exp (a + (p + q + r)))); [intros a; f_equal; ring|apply G; [exact P4|apply Le; lra]].
    + apply (X _ _ (fun a => exp (a + (p + q + r)))); [intros a; f_equal; ring|apply G; [exact P4|apply Le; lra]].
    + apply (X _ _ (fun a => exp (a + (p + q + r)))); [intros a; f_equal; ring|apply G; [exact P4|apply Le; lra]].
    + apply (X _ _ (fun a => exp (a + (p + q + r)))); [intros a; f_equal; ring|apply G; [exact P4|apply Le; lra]].
  - apply (X _ _ (fun a => exp (a + 0))); [intros a; f_equal; ring|apply G; [apply exp_pos|rewrite Rplus_0_l; lra]].
Qed.

(* BEGIN ASSUMPTIONS *)
Print Assumptions C77_interpolation_error.
Print Assumptions C77_stability.
Print Assumptions C77_kernel_error.
Print Assumptions C77_compressed_error.
