(** C93: the Laplace hypersingular operator annihilates the functions which are constant on each element, in exact real arithmetic, whatever the
    quadrature rules and the schedule of the assembly. *)
From Coq Require Import Reals Lra Lia Arith Bool List ZArith QArith Qreals.
From Coquelicot Require Import Complex.
From Verif Require Import RSum ModelBase ModelBernstein SpecBernstein ProofBernstein ModelTree SpecTree SpecMesh ModelGlue SpecGlue ModelDeBoor SpecDeBoor ProofDeBoor ProofDeBoorDer PropDeBoor ProofIndep ProofTopoInfo ProofGlueMat ProofGlueMesh PropTopo PropGlue
  SpecPatch ProofProjection SpecForms ModelBall ModelOperators SpecOperators ModelForms ProofForms PropTree PropAssembly PropForms ModelProj SpecProj ProofPiece ProofProj ProofProjMesh PropProj
  ProofOperators PropUtil ModelAnsatz SpecConform ProofConform ProofAnsatz SpecInterp ProofInterp PropConform PropComplete.
From Verif Require Import ModelBlock ModelQuad ModelDuffy ModelAssembly ModelUtil ModelPipeline PropConstants.
From Verif Require Import ProofNearFar SpecFlat PropFarLaplace PropPipeline PropWhole.
Import ListNotations.
Local Close Scope Q_scope.
Local Open Scope R_scope.

(** ** the surface curls of the shape functions of an element add up to zero *)
Lemma dbern_sum : forall p x, rsum (fun i => dbern p i x) (p + 1) = 0.
Proof.
  intros p x. pose proof (rsum_derivable (fun i y => bern p i y) (fun i y => dbern p i y) (p + 1) x ltac:(intros i Hi; apply bern_derivable; lia)) as D.
  pose proof (derivable_pt_lim_const 1 x) as D1. apply (uniqueness_limite (fun y => rsum (fun i => bern p i y) (p + 1)) x); [exact D|].
  intros eps He. destruct (D1 eps He) as [d Hd]. exists d. intros h Hh Hd'. rewrite !bern_sum. exact (Hd h Hh Hd').
Qed.
Lemma tensor_sum : forall p (f g : nat -> R), rsum (fun i => f (i mod (p + 1)) * g (i / (p + 1))%nat) ((p + 1) * (p + 1)) = rsum f (p + 1) * rsum g (p + 1).
Proof.
  intros p f g. rewrite rsum_flatten. rewrite <- rsum_scal. apply rsum_ext. intros i Hi. rewrite <- rsum_scal_r. apply rsum_ext. intros j Hj.
  rewrite (Nat.add_comm (i * _)), Nat.mod_add, Nat.div_add, Nat.mod_small, Nat.div_small by lia. reflexivity.
Qed.
Lemma dx_sum : forall ss s, rsum (basisDx ss s) (ss_n2 ss) = 0.
Proof.
  intros ss s. rewrite (rsum_ext _ (fun i => dbern (ss_p ss) (i mod (ss_p ss + 1)) (fst s) * bern (ss_p ss) (i / (ss_p ss + 1)) (snd s))) by (intros; apply dx_value; assumption).
  unfold ss_n2. rewrite (tensor_sum (ss_p ss) (fun i => dbern (ss_p ss) i (fst s)) (fun i => bern (ss_p ss) i (snd s))), dbern_sum. ring.
Qed.
Lemma dy_sum : forall ss s, rsum (basisDy ss s) (ss_n2 ss) = 0.
Proof.
  intros ss s. rewrite (rsum_ext _ (fun i => bern (ss_p ss) (i mod (ss_p ss + 1)) (fst s) * dbern (ss_p ss) (i / (ss_p ss + 1)) (snd s))) by (intros; apply dy_value; assumption).
  unfold ss_n2. rewrite (tensor_sum (ss_p ss) (fun i => bern (ss_p ss) i (fst s)) (fun i => dbern (ss_p ss) i (snd s))), dbern_sum. ring.
Qed.
Lemma curl_sum : forall ss p v, rsum (fun i => vdot v (surface_curl ss p i)) (ss_n2 ss) = 0.
Proof.
  intros ss p v. rewrite (rsum_ext _ (fun i => - (vdot v (p_dx p) / p_kappa p) * basisDy ss (p_s p) i + (vdot v (p_dy p) / p_kappa p) * basisDx ss (p_s p) i))
    by (intros; unfold surface_curl, vdot, vadd, vscal, vx, vy, vz; cbn [fst snd]; unfold Rdiv; ring).
  rewrite rsum_plus, !rsum_scal, dx_sum, dy_sum. ring.
Qed.
Lemma hyper_rows : forall ss X e1 x e2 y a, (a < ss_n2 ss)%nat -> rsum (fun b => op_kern laplace_hs ss X e1 x e2 y a b) (ss_n2 ss) = 0 /\ rsum (fun b => op_kern laplace_hs ss X e1 x e2 y b a) (ss_n2 ss) = 0.
Proof.
  intros ss X e1 x e2 y a Ha. unfold op_kern. cbn [op_integrand laplace_hs]. unfold laplace_hs_integrand. cbv zeta. set (p := surf_point X (e_node e1) x 1). set (q := surf_point X (e_node e2) y 1). set (c := laplace_kernel _ _ * _ * _ * _ * _ / _ / _). clearbody c. split.
  - rewrite (rsum_ext _ (fun b => c * vdot (surface_curl ss p a) (surface_curl ss q b))) by (intros; rewrite curl_value by assumption; unfold zero_matrix; ring). rewrite rsum_scal, curl_sum. ring.
  - rewrite (rsum_ext _ (fun b => c * vdot (surface_curl ss q a) (surface_curl ss p b))) by (intros; rewrite curl_value by assumption; unfold zero_matrix, vdot; ring). rewrite rsum_scal, curl_sum. ring.
Qed.

(** ** the matrices of pairs of elements *)
Section Sums.
Variables (K : kern) (a n2 : nat).
Hypothesis HK : forall e1 s e2 t, rsum (fun b => K e1 s e2 t a b) n2 = 0 /\ rsum (fun b => K e1 s e2 t b a) n2 = 0.
Definition sums (z : mat) : Prop := rsum (fun b => z a b) n2 = 0 /\ rsum (fun b => z b a) n2 = 0.
Lemma sums_loop : forall n (f : nat -> mat -> mat) s, (forall i z, sums z -> sums (f i z)) -> sums s -> sums (for_loop n f s).
Proof. intros n f s E E0. induction n as [|n IH]; cbn [for_loop]; auto. Qed.
Lemma sums_zero : sums zero_mat.
Proof. split; apply rsum_zero; reflexivity. Qed.
Lemma sums_evaluate : forall p q z, sums z -> sums (evaluate_integrand K p q z).
Proof.
  intros p q z [E1 E2]. destruct (HK (sp_elem p) (sp_xi p) (sp_elem q) (sp_xi q)) as [K1 K2]. unfold evaluate_integrand.
  split; rewrite rsum_plus, rsum_scal.
  all: change (rsum (z a) n2 = 0) in E1; change (rsum (K (sp_elem p) (sp_xi p) (sp_elem q) (sp_xi q) a) n2 = 0) in K1; rewrite ?E1, ?E2, ?K1, ?K2.
  all: ring.
Qed.
Lemma sums_form : forall p order GS e1 e2 f1 f2 z, evaluate_bilinear_form K p order GS e1 e2 f1 f2 = Some z -> sums z.
Proof.
  intros p order GS e1 e2 f1 f2 z0 Ez0. unfold evaluate_bilinear_form in Ez0. destruct (compare_elements e1 e2) as [[[r1 r2] cs] d]. cbn [fst snd] in Ez0.
  revert Ez0. set (nf := if (farfield_degree p order <=? _)%Z then _ else _). destruct (nf <? max_quadrature_degree)%Z; [|discriminate]. set (Q := GS nf). intros Ez0.
  destruct cs as [|[|[|[|[|cs]]]]]; try discriminate; [destruct (nf =? _)%Z| | |]; injection Ez0 as <-.
  - unfold integrate0. apply sums_loop; [|exact sums_zero]. intros i z Ez. apply sums_loop; [|exact Ez]. intros j y Ey. apply sums_evaluate, Ey.
  - unfold integrate1. cbv zeta. apply sums_loop; [|exact sums_zero]. intros i z Ez. apply sums_loop; [|exact Ez]. intros j y Ey. apply sums_evaluate, Ey.
  - unfold integrate2. cbv zeta. apply sums_loop; [|exact sums_zero]. intros i z Ez. apply sums_loop; [|exact Ez]. intros j y Ey. apply sums_loop; [|exact Ey]. intros k x Ex. do 2 apply sums_evaluate. exact Ex.
  - unfold integrate3. cbv zeta. apply sums_loop; [|exact sums_zero]. intros i z Ez. apply sums_loop; [|exact Ez]. intros j y Ey. do 6 apply sums_evaluate. exact Ey.
  - unfold integrate4. cbv zeta. apply sums_loop; [|exact sums_zero]. intros i z Ez. apply sums_loop; [|exact Ez]. intros j y Ey. do 4 apply sums_evaluate. exact Ey.
Qed.
End Sums.
(** row and column sums of the matrix of every pair of elements, near or far, are zero *)
Theorem C93_local : forall ss X order GS els e1 e2 a, (a < ss_n2 ss)%nat ->
  rsum (fun b => op_form laplace_hs ss X order GS els e1 e2 a b) (ss_n2 ss) = 0 /\ rsum (fun b => op_form laplace_hs ss X order GS els e1 e2 b a) (ss_n2 ss) = 0.
Proof.
  intros ss X order GS els e1 e2 a Ha. change (sums a (ss_n2 ss) (op_form laplace_hs ss X order GS els e1 e2)).
  unfold op_form. cbv zeta. destruct (compute_ffield_qnodes _ els) as [ff|]; [|apply sums_zero]. cbn [bind].
  destruct (get els (n_id e1)) as [E1|]; [|apply sums_zero]. destruct (get els (n_id e2)) as [E2|]; [|apply sums_zero].
  destruct (get ff (n_id e1)) as [f1|]; [|apply sums_zero]. destruct (get ff (n_id e2)) as [f2|]; [|apply sums_zero].
  cbn [bind]. destruct f1 as [f1|]; [|apply sums_zero]. destruct f2 as [f2|]; [|apply sums_zero]. cbn [bind].
  destruct (evaluate_bilinear_form (op_kern laplace_hs ss X) _ _ _ _ _ _ _) as [z|] eqn:Ez; [|apply sums_zero].
  exact (sums_form (op_kern laplace_hs ss X) a (ss_n2 ss) (fun c1 s c2 t => hyper_rows ss X c1 s c2 t a Ha) _ _ _ _ _ _ _ z Ez).
Qed.

(** ** the matrix *)
(** the product of the matrix with the coefficients v of a function whose coefficients on each element are all equal *)
Theorem C93_full : forall ss X P M order GS T A nd v c, (0 < P)%nat -> full_operator laplace_hs ss X P M order GS T A ->
  (forall k i, (k < P * 4 ^ M)%nat -> (i < ss_n2 ss)%nat -> local_coefficient (ss_p ss) (P * 4 ^ M) nd T v 0 k i = c k) ->
  forall u, rsum (fun j => A u j * v j) nd = 0 /\ rsum (fun j => v j * A j u) nd = 0.
Proof.
  intros ss X P M order GS T A nd v c HP F HC u.
  assert (Eg : exists g, init_mesh X P M = Some g) by (destruct F as [g [d [Eg _]]]; eauto). destruct Eg as [g Eg].
  destruct (C88_full laplace_hs ss X P M g order GS T A HP Eg F) as [Re V]. cbv zeta in Re, V. cbn [op_vd laplace_hs] in Re, V. rewrite Nat.mul_1_l in Re, V.
  set (n2 := ss_n2 ss) in *. set (N := (P * 4 ^ M)%nat) in *.
  set (G := fun q q' => match row_element g n2 N q, row_element g n2 N q' with Some e, Some e' => op_form laplace_hs ss X order GS (g_elements g) (e_node e) (e_node e') (row_local n2 N q) (row_local n2 N q') | _, _ => 0 end) in *.
  assert (VG : forall u0 v0, A u0 v0 = rsum (fun q => T q u0 * rsum (fun q' => G q q' * T q' v0) (n2 * N)) (n2 * N)) by (intros; apply V). clear V.
  assert (TC : forall k i, (k < N)%nat -> (i < n2)%nat -> rsum (fun j => T (k * n2 + i)%nat j * v j) nd = c k).
  { intros k i Hk Hi. rewrite <- (HC k i Hk Hi). unfold local_coefficient. rewrite Nat.mul_0_l, Nat.add_0_l. reflexivity. }
  assert (N2 : (0 < n2)%nat) by (unfold n2, ss_n2; lia).
  assert (EL : forall k i, (k < N)%nat -> (i < n2)%nat -> row_element g n2 N (k * n2 + i) = nth_error (g_elements g) k /\ row_local n2 N (k * n2 + i) = i).
  { intros k i Hk Hi. unfold row_element, row_local. rewrite (Nat.add_comm (k * n2)), Nat.div_add, Nat.mod_add, (Nat.div_small i), (Nat.mod_small i) by lia. cbn [Nat.add]. rewrite Nat.mod_small, Nat.div_small by lia. split; [reflexivity|lia]. }
  assert (LOC : forall q, (q < n2 * N)%nat -> (row_local n2 N q < n2)%nat).
  { intros q Hq. unfold row_local. assert (q / n2 < N)%nat by (apply Nat.div_lt_upper_bound; lia). rewrite Nat.div_small by assumption. rewrite Nat.mul_0_l. apply Nat.mod_upper_bound. lia. }
  assert (GS1 : forall q k, (q < n2 * N)%nat -> (k < N)%nat -> rsum (fun i => G q (k * n2 + i)%nat) n2 = 0 /\ rsum (fun i => G (k * n2 + i)%nat q) n2 = 0).
  { intros q k Hq Hk.
    assert (EG : forall i, (i < n2)%nat -> G q (k * n2 + i)%nat = (match row_element g n2 N q, nth_error (g_elements g) k with Some e, Some e' => op_form laplace_hs ss X order GS (g_elements g) (e_node e) (e_node e') (row_local n2 N q) i | _, _ => 0 end)).
    { intros i Hi. unfold G. destruct (EL k i Hk Hi) as [-> ->]. reflexivity. }
    assert (EG' : forall i, (i < n2)%nat -> G (k * n2 + i)%nat q = (match nth_error (g_elements g) k, row_element g n2 N q with Some e, Some e' => op_form laplace_hs ss X order GS (g_elements g) (e_node e) (e_node e') i (row_local n2 N q) | _, _ => 0 end)).
    { intros i Hi. unfold G. destruct (EL k i Hk Hi) as [-> ->]. reflexivity. }
    rewrite (rsum_ext _ _ n2 EG), (rsum_ext _ _ n2 EG'). clear EG EG'.
    destruct (row_element g n2 N q) as [e|], (nth_error (g_elements g) k) as [e'|]; try (split; apply rsum_zero; reflexivity).
    split; [apply (proj1 (C93_local ss X order GS (g_elements g) (e_node e) (e_node e') _ (LOC q Hq)))|apply (proj2 (C93_local ss X order GS (g_elements g) (e_node e') (e_node e) _ (LOC q Hq)))]. }
  clearbody G.
  (* sums over all rows of the function *)
  assert (SW : forall (H : nat -> R), (forall k, (k < N)%nat -> rsum (fun i => H (k * n2 + i)%nat) n2 = 0) -> rsum (fun q => H q * rsum (fun j => T q j * v j) nd) (n2 * N) = 0).
  { intros H HH. rewrite (Nat.mul_comm n2), rsum_flatten. apply rsum_zero. intros k Hk. rewrite (rsum_ext _ (fun i => c k * H (k * n2 + i)%nat)) by (intros i Hi; rewrite TC by assumption; ring). rewrite rsum_scal, HH by exact Hk. ring. }
  split.
  - transitivity (rsum (fun q => T q u * rsum (fun q' => G q q' * rsum (fun j => T q' j * v j) nd) (n2 * N)) (n2 * N)).
    + rewrite (rsum_ext _ (fun j => rsum (fun q => T q u * rsum (fun q' => G q q' * (T q' j * v j)) (n2 * N)) (n2 * N))).
      2:{ intros j _. rewrite VG, <- rsum_scal_r. apply rsum_ext. intros q _. rewrite Rmult_assoc, <- rsum_scal_r. f_equal. apply rsum_ext. intros; ring. }
      rewrite rsum_swap. apply rsum_ext. intros q _. rewrite rsum_scal. f_equal. rewrite rsum_swap. apply rsum_ext. intros q' _. apply rsum_scal.
    + apply rsum_zero. intros q Hq. rewrite SW; [ring|]. intros k Hk. apply (GS1 q k Hq Hk).
  - transitivity (rsum (fun q' => T q' u * rsum (fun q => G q q' * rsum (fun j => T q j * v j) nd) (n2 * N)) (n2 * N)).
    + rewrite (rsum_ext _ (fun j => rsum (fun q' => T q' u * rsum (fun q => G q q' * (T q j * v j)) (n2 * N)) (n2 * N))).
      2:{ intros j _. rewrite VG, <- rsum_scal. rewrite (rsum_ext _ (fun q => rsum (fun q' => v j * (T q j * (G q q' * T q' u))) (n2 * N))) by (intros; rewrite !rsum_scal; reflexivity).
          rewrite rsum_swap. apply rsum_ext. intros q' _. rewrite <- rsum_scal. apply rsum_ext. intros; ring. }
      rewrite rsum_swap. apply rsum_ext. intros q _. rewrite rsum_scal. f_equal. rewrite rsum_swap. apply rsum_ext. intros q' _. apply rsum_scal.
    + apply rsum_zero. intros q Hq. rewrite (SW (fun q0 => G q0 q)); [ring|]. intros k Hk. apply (GS1 q k Hq Hk).
Qed.

(** the spaces of the library with scalar functions, continuous or not, of degree up to 4: row and column sums of the matrix are zero, that is, the product
    with the coefficients of a constant is zero *)
Section Mesh.
Context {Pt : Type} (close : Pt -> Pt -> bool) (corners : list (list Pt)) (M : nat) (t : tree) (els : list node).
Hypothesis Hm : uniform_mesh close corners M t els.
Variables (ws : list R) (junk : mat) (j1 j2 : arr) (solve : nat -> mat -> arr -> arr).
Hypothesis Hw : (20 <= length ws)%nat.
Hypothesis Hs : good_solve solve.
Notation verts := (fst (patch_vertices close [] corners)).
Hypothesis HM : mesh_ok verts.
Hypothesis HO : oriented verts.
Notation n := (2 ^ M)%nat.
Notation P := (length corners).
Lemma space_coefficients : forall p rep S k i a, (p <= 4)%nat -> scalar_space corners M t els ws junk j1 j2 solve p rep S -> (k < P * 4 ^ M)%nat -> (i < (p + 1) * (p + 1))%nat ->
  local_coefficient p (P * 4 ^ M) (as_cols S) (as_T S) (fun _ => a) 0 k i = a.
Proof.
  intros p rep S k i a Hp ES Hk Hi. destruct (glue_ones close corners M t els Hm ws junk j1 j2 solve Hw Hs HM HO p rep S ltac:(lia) ES) as [r [A [Hr [Er [EA V]]]]].
  pose proof (mesh_numbered close corners M t els Hm) as Nb. destruct (mesh_grid close corners M t els Hm) as [_ [Le _]].
  destruct (nth_error els k) as [e|] eqn:Ee; [|apply nth_error_None in Ee; lia]. pose proof (nth_error_In _ _ Ee) as I. destruct (ProofForms.numbered_in _ _ e Nb I) as [Hlt Ek].
  assert (Id : n_id e = k) by (destruct Nb as [Ln Nb']; destruct (Nb' k ltac:(lia)) as [e' [Q1 Q2]]; congruence). subst k.
  pose proof (n_h_pos e) as Ph. pose proof (n_pos M) as Hn.
  apply (tensor_constant p (fun i => local_coefficient p (P * 4 ^ M) (as_cols S) (as_T S) (fun _ => a) 0 (n_id e) i) a); [|exact Hi]. intros s H1 H2.
  pose proof (V a 0%nat (n_id e) (n_h e) s) as Q. pose proof (C25_discontinuous_exact close corners M t els Hm ws junk j1 j2 solve Hw Hs p rep A (fun _ => a) _ e s Hp ltac:(lia) EA Ek H1 H2) as G.
  change (Q2R (get_h e)) with (n_h e) in G. rewrite <- Q in G. unfold discrete_value in G. destruct (cell_unit close corners M t els Hm ws Hw e s I H1 H2) as [U1 U2].
  change (Q2R (get_h e)) with (n_h e) in U1, U2. rewrite (spline_ones p n (Nat.min rep (p + 1)) 0 _ a _ _ Hn ltac:(lia) U1 U2) in G. etransitivity; [|exact G]. field. lra.
Qed.
Theorem C93_space : forall p rep S ss X order GS A, (p <= 4)%nat -> scalar_space corners M t els ws junk j1 j2 solve p rep S -> ss_p ss = p -> (0 < P)%nat ->
  full_operator laplace_hs ss X P M order GS (as_T S) A -> forall u, rsum (fun j => A u j) (as_cols S) = 0 /\ rsum (fun j => A j u) (as_cols S) = 0.
Proof.
  intros p rep S ss X order GS A Hp ES Ep HP F u. subst p.
  destruct (C93_full ss X P M order GS (as_T S) A (as_cols S) (fun _ => 1) (fun _ => 1) HP F ltac:(intros k i Hk Hi; apply (space_coefficients _ rep S k i 1 Hp ES Hk Hi)) u) as [E1 E2].
  split; [rewrite <- E1|rewrite <- E2]; apply rsum_ext; intros; ring.
Qed.
End Mesh.

(** ** not vacuous *)
Example C93_example : let GS := fun d : Z => tensor_rule ([/ 2], [1]) in let ss := mkSS 1 0 zero_arr zero_arr zero_arr zero_arr in let T : mat := fun q j => if Nat.eqb q j then 1 else 0 in
  exists A, full_operator laplace_hs ss far_sheets 2 0 0 GS T A /\
  (forall k i, (k < 2 * 4 ^ 0)%nat -> (i < ss_n2 ss)%nat -> local_coefficient (ss_p ss) (2 * 4 ^ 0) 8 T (fun _ => 1) 0 k i = 1) /\ forall u, rsum (fun j => A u j * 1) 8 = 0.
Proof.
  intros GS ss T. destruct far_fits as [MO FI]. assert (SM : surface_mesh far_sheets 2) by (split; [lia|]; rewrite sheet_numbers; split; assumption).
  destruct (C88_full_exists laplace_hs ss far_sheets 2 0 0 GS T SM) as [A F]. exists A. split; [exact F|].
  assert (L : forall k i, (k < 2 * 4 ^ 0)%nat -> (i < ss_n2 ss)%nat -> local_coefficient (ss_p ss) (2 * 4 ^ 0) 8 T (fun _ => 1) 0 k i = 1).
  { intros k i Hk Hi. unfold local_coefficient, T. cbn [ss_p ss ss_n2] in *. change (2 * 4 ^ 0)%nat with 2%nat in *. change (ss_n2 ss) with 4%nat in Hi. assert (Q : (k * 4 + i < 8)%nat) by lia.
    rewrite (rsum_ext _ (fun j => if Nat.eqb ((0 * 2 + k) * ((1 + 1) * (1 + 1)) + i) j then 1 else 0)) by (intros j _; destruct (Nat.eqb _ j); ring).
    replace ((0 * 2 + k) * ((1 + 1) * (1 + 1)) + i)%nat with (k * 4 + i)%nat by lia. rewrite (rsum_single _ 8 (k * 4 + i)%nat Q); [rewrite Nat.eqb_refl; reflexivity|]. intros j Hj Nj. destruct (Nat.eqb_spec (k * 4 + i) j); [congruence|reflexivity]. }
  split; [exact L|]. intros u. apply (proj1 (C93_full ss far_sheets 2 0 0 GS T A 8 (fun _ => 1) (fun _ => 1) ltac:(lia) F L u)).
Qed.

(* BEGIN ASSUMPTIONS *)
Print Assumptions C93_local.
Print Assumptions C93_full.
Print Assumptions C93_space.
