(** C86: functions determine their coefficients; the systems of the mass matrix are uniquely solvable. *)
From Coq Require Import Reals Lra Lia Arith Bool List ZArith QArith Qreals Permutation Relations.
From Verif Require Import RSum ModelBase ModelBernstein SpecBernstein ProofBernstein ModelTree SpecTree SpecMesh ModelGlue SpecGlue ModelDeBoor SpecDeBoor ProofDeBoor ProofDeBoorDer PropDeBoor ProofIndep ProofTopoInfo ProofGlueMat ProofGlueMesh PropTopo PropGlue
  SpecPatch ProofProjection SpecForms ModelBall ModelOperators SpecOperators ModelForms ProofForms PropTree PropAssembly PropForms ModelProj SpecProj ProofPiece ProofProj ProofProjMesh PropProj
  ProofOperators PropUtil ModelAnsatz SpecConform ProofConform ProofAnsatz SpecInterp ProofInterp PropConform PropComplete PropConstants ModelQuad ModelDuffy ModelL2 SpecQuad PropQuad PropL2 ProofLin.
Import ListNotations.
Local Close Scope Q_scope.
Local Open Scope R_scope.

(** ** one element *)
(** a combination of tensor product Bernstein polynomials which is zero at a grid of (p + 1)^2 points is zero *)
Lemma tensor_nodes : forall p (c : nat -> R) (x : nat -> R), distinct (p + 1) x ->
  (forall k l, (k < p + 1)%nat -> (l < p + 1)%nat -> rsum (fun i => c i * tensor_bernstein p i (x k, x l)) ((p + 1) * (p + 1)) = 0) ->
  forall i, (i < (p + 1) * (p + 1))%nat -> c i = 0.
Proof.
  intros p c x Dx Hc i Hi.
  assert (One : forall z, bernstein_form p (fun _ => 0) z = 0) by (intros z; unfold bernstein_form; rewrite rsum_scal; ring).
  assert (Row : forall iy k, (iy <= p)%nat -> (k < p + 1)%nat -> bernstein_form p (fun ix => c (iy * (p + 1) + ix)%nat) (x k) = 0).
  { intros iy k Hy Hk. apply (bern_indep p (fun iy => bernstein_form p (fun ix => c (iy * (p + 1) + ix)%nat) (x k)) (fun _ => 0) x Dx); [|exact Hy].
    intros l Hl. rewrite One. rewrite <- (Hc k l Hk Hl). rewrite rsum_flatten. unfold bernstein_form. apply rsum_ext. intros jy Hjy. rewrite <- rsum_scal_r. apply rsum_ext. intros jx Hjx.
    unfold tensor_bernstein. rewrite (Nat.add_comm (jy * _)), Nat.mod_add, Nat.div_add, Nat.mod_small, Nat.div_small by lia. cbn [Nat.add fst snd]. ring. }
  rewrite (Nat.div_mod i (p + 1)) by lia. assert (Q1 : (i / (p + 1) < p + 1)%nat) by (apply Nat.div_lt_upper_bound; lia). assert (Q2 : (i mod (p + 1) < p + 1)%nat) by (apply Nat.mod_upper_bound; lia).
  rewrite (Nat.mul_comm (p + 1)).
  apply (bern_indep p (fun ix => c (i / (p + 1) * (p + 1) + ix)%nat) (fun _ => 0) x Dx); [|lia]. intros k Hk. rewrite One. apply Row; [lia|exact Hk].
Qed.
(** tensor product splines are linearly independent *)
Lemma tensor_indep : forall kx ky n rep off q v, (1 <= n)%nat -> (1 <= rep)%nat -> (rep <= kx + 1)%nat -> (rep <= ky + 1)%nat ->
  (forall X Y z z', (X < n)%nat -> (Y < n)%nat -> 0 < z < 1 -> 0 < z' < 1 -> tensor_spline kx ky n rep off q v (at_el n X z) (at_el n Y z') = 0) ->
  forall dx dy, (dx < spline_dim kx n rep)%nat -> (dy < spline_dim ky n rep)%nat -> v (spline_dof kx ky n rep off q dx dy) = 0.
Proof.
  intros kx ky n rep off q v Hn Hr Hx Hy Z dx dy Dx Dy.
  apply (uspline_indep kx n rep Hn Hr (fun dx => v (spline_dof kx ky n rep off q dx dy)) Hx); [|exact Dx]. intros X z HX Hz.
  apply (uspline_indep ky n rep Hn Hr (fun dy => rsum (fun dx => v (spline_dof kx ky n rep off q dx dy) * uspline kx n rep dx (at_el n X z)) (spline_dim kx n rep)) Hy); [|exact Dy].
  intros Y z' HY Hz'. rewrite <- (Z X Y z z' HX HY Hz Hz'). unfold tensor_spline. apply rsum_ext. intros d _. rewrite <- rsum_scal_r. apply rsum_ext. intros; ring.
Qed.
Lemma dof_of : forall kx ky n rep off P j, (j < P * (spline_dim kx n rep * spline_dim ky n rep))%nat ->
  exists q dx dy, (q < P)%nat /\ (dx < spline_dim kx n rep)%nat /\ (dy < spline_dim ky n rep)%nat /\ (off + j)%nat = spline_dof kx ky n rep off q dx dy.
Proof.
  intros kx ky n rep off P j Hj. unfold spline_dof. pose proof (dim_pos kx n rep) as P1. pose proof (dim_pos ky n rep) as P2. set (a := spline_dim kx n rep) in *. set (b := spline_dim ky n rep) in *. clearbody a b.
  assert (ab : (a * b <> 0)%nat) by (intros F; apply Nat.eq_mul_0 in F; lia).
  exists (j / (a * b))%nat, ((j mod (a * b)) mod a)%nat, ((j mod (a * b)) / a)%nat. pose proof (Nat.div_mod j (a * b) ab) as D1. pose proof (Nat.mod_upper_bound j (a * b) ab) as U1.
  pose proof (Nat.div_mod (j mod (a * b)) a ltac:(lia)) as D2. split; [apply Nat.div_lt_upper_bound; [exact ab|]; rewrite Nat.mul_comm; exact Hj|]. split; [apply Nat.mod_upper_bound; lia|]. split; [apply Nat.div_lt_upper_bound; [lia|exact U1]|].
  rewrite D1 at 1. rewrite D2 at 1. rewrite (Nat.mul_comm (j / (a * b))%nat). ring.
Qed.
(** the glue matrix loses nothing: every coefficient occurs on some patch *)
Lemma pins : forall A G S ids trips, product A G = Some S -> G = (sm_cols A, as_cols S, trips) -> glues (sm_cols A) (as_cols S) ids trips -> (forall r c z, In (r, c, z) trips -> z <> 0%Z) ->
  forall w, (forall j, (j < sm_cols A)%nat -> glued_vector trips (as_cols S) w j = 0) -> forall q, (q < as_cols S)%nat -> w q = 0.
Proof.
  intros A G S ids trips EP EG Gl Nz w Z q Hq. destruct (proj1 (gl_cols _ _ _ _ Gl q) Hq) as [r [z I]].
  assert (Hr : (r < sm_cols A)%nat).
  { assert (Q : In r (map (fun t : triplet => fst (fst t)) trips)) by (apply in_map_iff; exists (r, q, z); auto). apply (Permutation_in _ (gl_rows _ _ _ _ Gl)) in Q. apply in_seq in Q. lia. }
  specialize (Z r Hr). rewrite (glued_value _ _ _ _ w r q z Gl I) in Z. apply Rmult_integral in Z. destruct Z as [Z|Z]; [|exact Z]. exfalso. apply (Nz _ _ _ I). apply eq_IZR. exact Z.
Qed.

Section Mesh.
Context {Pt : Type} (close : Pt -> Pt -> bool) (corners : list (list Pt)) (M : nat) (t : tree) (els : list node).
Hypothesis Hm : uniform_mesh close corners M t els.
Variables (ws : list R) (junk : mat) (j1 j2 : arr) (solve : nat -> mat -> arr -> arr).
Hypothesis Hw : (20 <= length ws)%nat.
Hypothesis Hs : good_solve solve.
Notation verts := (fst (patch_vertices close [] corners)).
Hypothesis HM : mesh_ok verts.
Hypothesis HO : oriented verts.
Notation n := (2 ^ M)%nat.
Notation P := (length corners).
Notation scalar_space := (scalar_space corners M t els ws junk j1 j2 solve).

Lemma product_discrete : forall A G S trips, product A G = Some S -> G = (sm_cols A, as_cols S, trips) -> forall w p c k h s,
  discrete_value p (P * 4 ^ M) (as_cols S) (as_T S) w c k h s = discrete_value p (P * 4 ^ M) (sm_cols A) (sm_entry A) (glued_vector trips (as_cols S) w) c k h s.
Proof.
  intros A G S trips EP EG w p c k h s. destruct (product_value A G S EP) as [tr [EG' [_ V]]]. assert (tr = trips) by congruence. subst tr.
  unfold discrete_value, local_coefficient. f_equal. apply rsum_ext. intros i _. f_equal. rewrite V. reflexivity.
Qed.
Lemma scalar_pins : forall p rep S, (p <= 19)%nat -> scalar_space p rep S -> exists r A, (1 <= r <= p + 1)%nat /\ r = Nat.min rep (p + 1) /\ (1 <= rep)%nat /\
  projector_discontinuous ws junk j1 j2 solve p M P rep els = Some A /\ sm_cols A = (P * (spline_dim p n r * spline_dim p n r))%nat /\
  forall w, exists v, (forall c k h s, discrete_value p (P * 4 ^ M) (as_cols S) (as_T S) w c k h s = discrete_value p (P * 4 ^ M) (sm_cols A) (sm_entry A) v c k h s) /\
    ((forall j, (j < sm_cols A)%nat -> v j = 0) -> forall q, (q < as_cols S)%nat -> w q = 0).
Proof.
  intros p rep S Hp ES. assert (Hr1 : (1 <= rep)%nat) by (destruct ES as [[Hr _]|[Hr _]]; lia).
  destruct (disc_run close corners M t els Hm ws junk j1 j2 solve Hw Hs p rep Hp Hr1) as [A [EA [ER [Ec _]]]].
  exists (Nat.min rep (p + 1)), A. split; [lia|]. split; [reflexivity|]. split; [exact Hr1|]. split; [exact EA|]. split; [exact Ec|].
  destruct ES as [[Hr ES]|[Hr ES]].
  - assert (Mn : rep = Nat.min rep (p + 1)) by lia. rewrite <- Mn in Ec.
    destruct (over_mesh close corners M t els Hm) as [npts [HN HR]]. pose proof (verts_length close corners) as VL.
    destruct (C22_mesh verts npts t p rep M HM HO HN HR ltac:(lia)) as [edges [groups [stored [Ee [Iff [Eg H]]]]]].
    change (one_d_dim p rep M) with (spline_dim p n rep) in *. set (D := spline_dim p n rep) in *. rewrite VL in *. rewrite <- Ec in *.
    unfold ansatz_continuous in ES. rewrite cont_run in ES by lia. rewrite EA in ES. cbn [bind] in ES. rewrite Ee in ES. cbn [bind] in ES. apply bind_some in ES. destruct ES as [ids [Ei ES]]. apply bind_some in ES. destruct ES as [G [Ea ES]].
    assert (NG : no_gap groups).
    { unfold cont_identification in Ei. destruct (assert (1 <=? p)%nat); [|discriminate]. cbn [bind] in Ei. change (one_d_dim p rep M) with D in Ei. rewrite Eg in Ei. cbn [bind fst] in Ei.
      apply (proj2 (C23_cleanup groups) ids Ei). apply (assemble_nonempty _ _ _ Ea). }
    destruct (H NG) as [ids' [post [trips [Ei' [Same [Ea' [Gl One]]]]]]]. assert (ids' = ids) by congruence. subst ids'.
    destruct (product_value A G S ES) as [tr [EG [Er V]]]. assert (Ps : post = as_cols S) by congruence. subst post. assert (tr = trips) by congruence. subst tr.
    intros w. exists (glued_vector trips (as_cols S) w). split; [intros; apply (product_discrete A G S trips ES EG)|].
    apply (pins A G S ids trips ES EG Gl). intros r c z I. rewrite (One _ _ _ I). discriminate.
  - destruct (C64_discontinuous close corners M t els Hm ws junk j1 j2 solve Hw Hs HM p rep Hp Hr) as [S' [A' [ES' [EA' [_ [C' V]]]]]]. rewrite ES in ES'. injection ES' as <-. assert (A' = A) by congruence. subst A'.
    intros w. exists w. split; [intros; apply V|]. rewrite C'. auto.
Qed.

(** a function with the value zero at a grid of (p + 1)^2 points of every element has coefficients zero *)
Lemma scalar_zero : forall p rep S v, (p <= 4)%nat -> scalar_space p rep S ->
  (forall e, In e els -> exists x, distinct (p + 1) x /\ forall k l, (k < p + 1)%nat -> (l < p + 1)%nat -> discrete_value p (P * 4 ^ M) (as_cols S) (as_T S) v 0 (n_id e) (n_h e) (x k, x l) = 0) ->
  forall q, (q < as_cols S)%nat -> v q = 0.
Proof.
  intros p rep S v Hp ES Z. destruct (scalar_pins p rep S ltac:(lia) ES) as [r [A [Hr [Er [Hr1 [EA [Ec Pin]]]]]]]. destruct (Pin v) as [u [V Fin]]. apply Fin. clear Pin Fin.
  pose proof (mesh_numbered close corners M t els Hm) as Nb. pose proof (n_pos M) as Hn.
  intros j Hj. rewrite Ec in Hj. destruct (dof_of p p n r 0 P j Hj) as [q [dx [dy [Hq [Dx [Dy Ej]]]]]]. cbn [Nat.add] in Ej. rewrite Ej.
  apply (tensor_indep p p n r 0 q u Hn ltac:(lia) ltac:(lia) ltac:(lia)); [|exact Dx|exact Dy]. intros X Y z z' HX HY Hz Hz'.
  destruct (cell_element close corners M t els Hm ws Hw q X Y Hq HX HY) as [k [e [Ek [C Pe]]]]. pose proof (nth_error_In _ _ Ek) as I. pose proof (n_h_pos e) as Ph.
  destruct (ProofForms.numbered_in _ _ e Nb I) as [_ Ek']. destruct (Z e I) as [x [Dx' Zx]].
  pose proof (C25_discontinuous_exact close corners M t els Hm ws junk j1 j2 solve Hw Hs p rep A u _ e (z, z') Hp Hr1 EA Ek' ltac:(cbn [fst]; lra) ltac:(cbn [snd]; lra)) as G.
  rewrite <- Er, Pe in G. destruct (cell_point M ws Hw e X Y (z, z') C) as [C1 C2]. cbn [fst snd] in C1, C2, G. rewrite <- C1, <- C2 in G. unfold at_el. rewrite <- G. rewrite <- V.
  unfold discrete_value. rewrite rsum_zero; [unfold Rdiv; ring|]. intros i Hi.
  rewrite (tensor_nodes p (fun i => local_coefficient p (P * 4 ^ M) (as_cols S) (as_T S) v 0 (n_id e) i) x Dx'); [ring| |exact Hi].
  intros a b Ha Hb. specialize (Zx a b Ha Hb). unfold discrete_value in Zx. apply Rmult_integral in Zx. destruct Zx as [Zx|Zx]; [exact Zx|]. exfalso. revert Zx. apply Rinv_neq_0_compat. lra.
Qed.
(** Two functions of a scalar space of degree at most 4 with the same values at a grid of (p + 1)^2 points of every element have the
    same coefficients. *)
Theorem C86_scalar : forall p rep S X ss v w E E', (p <= 4)%nat -> scalar_space p rep S -> ss_p ss = p ->
  evaluator_of t X ss 1 (as_cols S) (as_T S) v E -> evaluator_of t X ss 1 (as_cols S) (as_T S) w E' ->
  (forall e, In e els -> exists x, distinct (p + 1) x /\ forall k l, (k < p + 1)%nat -> (l < p + 1)%nat ->
    exists pt, p_s pt = (x k, x l) /\ evaluate_scalar ss E e pt = evaluate_scalar ss E' e pt) ->
  forall q, (q < as_cols S)%nat -> v q = w q.
Proof.
  intros p rep S X ss v w E E' Hp ES Ep HE HE' Z q Hq. enough (v q + -1 * w q = 0) by lra.
  apply (scalar_zero p rep S (fun q => v q + -1 * w q) Hp ES); [|exact Hq]. intros e I. destruct (Z e I) as [x [Dx Zx]]. exists x. split; [exact Dx|]. intros k l Hk Hl. destruct (Zx k l Hk Hl) as [pt [Eqp E1]].
  rewrite (C61_scalar close corners M t els Hm X ss _ _ _ E e pt HE I), (C61_scalar close corners M t els Hm X ss _ _ _ E' e pt HE' I) in E1. apply some_inj in E1.
  pose proof (dvalue_linear t ss (as_cols S) (as_T S) v w (-1) e (x k, x l)) as L. rewrite Eqp in E1. rewrite E1 in L. rewrite Ep, (elements_count close corners M t els Hm ws Hw) in L. rewrite L. ring.
Qed.

(** ** the mass matrix *)
Notation mass ss X Q S := (local_operator identity_integrand ss X Q 1 (t_elements t) (as_T S) els).
(** a one-dimensional rule with at least p + 1 points, all different, and positive weights *)
Definition resolves (p : nat) (r : rule) : Prop :=
  length (fst r) = length (snd r) /\ (p + 1 <= length (fst r))%nat /\ distinct (length (fst r)) (fun k => nth k (fst r) 0) /\ forall k, (k < length (fst r))%nat -> 0 < nth k (snd r) 0.
Lemma nth_map_seq' : forall {A : Type} (f : nat -> A) m q d, (q < m)%nat -> nth q (map f (seq 0 m)) d = f q.
Proof. intros A f m q d Hq. rewrite (nth_indep _ d (f 0%nat)) by (rewrite map_length, seq_length; exact Hq). rewrite map_nth, seq_nth by exact Hq. reflexivity. Qed.
Lemma tensor_points : forall p r, resolves p r -> (forall q, (q < q_size (tensor_rule r))%nat -> 0 < q_w (tensor_rule r) q) /\
  forall k l, (k < length (fst r))%nat -> (l < length (fst r))%nat -> exists q, (q < q_size (tensor_rule r))%nat /\ q_xi (tensor_rule r) q = (nth k (fst r) 0, nth l (fst r) 0).
Proof.
  intros p [x w] [L [_ [_ Pw]]]. cbn [fst snd] in *. unfold q_size, q_w, q_xi, tensor_rule. cbn [fst snd]. rewrite <- L. set (m := length x) in *. rewrite map_length, seq_length. split.
  - intros q Hq. assert (Pm : (m <> 0)%nat) by (intros Z; rewrite Z in Hq; simpl in Hq; lia).
    rewrite nth_map_seq' by exact Hq.
    apply Rmult_lt_0_compat; apply Pw; [apply Nat.div_lt_upper_bound; lia|apply Nat.mod_upper_bound; exact Pm].
  - intros k l Hk Hl. pose proof (pair_lt k l m m Hk Hl) as B. exists (k * m + l)%nat. split; [exact B|].
    rewrite nth_map_seq' by exact B.
    destruct (divmod_pair k l m Hl) as [-> ->]. reflexivity.
Qed.
(** The mass matrix is positive definite. *)
Theorem C86_mass_definite : forall p rep S X ss r v, (p <= 4)%nat -> scalar_space p rep S -> ss_p ss = p -> resolves p r ->
  (forall e s, In e els -> p_kappa (surf_point X e s 1) <> 0) -> (exists q, (q < as_cols S)%nat /\ v q <> 0) ->
  0 < dotp (as_cols S) v (times (as_cols S) (mass ss X (tensor_rule r) S) v).
Proof.
  intros p rep S X ss r v Hp ES Ep Hr Hk [q [Hq Nv]]. destruct (tensor_points p r Hr) as [Pw Pts]. set (Q := tensor_rule r) in *.
  pose proof (C62_mass_positive close corners M t els Hm ss X Q (as_cols S) (as_T S) v ltac:(intros; left; apply Pw; assumption)) as Ge.
  destruct (Req_dec (dotp (as_cols S) v (times (as_cols S) (mass ss X Q S) v)) 0) as [Z|Z]; [|lra]. exfalso. apply Nv.
  destruct (C61_evaluator_exists close corners M t els Hm X ss 1 (as_cols S) (as_T S) v) as [E HE].
  assert (Hv : forall e pt, In e els -> evaluate_scalar ss E e pt = Some (discrete_value (ss_p ss) (t_elements t) (as_cols S) (as_T S) v 0 (n_id e) (n_h e) (p_s pt))) by (intros e pt I; apply (C61_scalar close corners M t els Hm X); assumption).
  rewrite (C62_mass close corners M t els Hm ss X Q (as_cols S) (as_T S) v v E E _ _ HE HE Hv Hv) in Z. cbv zeta in Z.
  apply (scalar_zero p rep S v Hp ES); [|exact Hq]. intros e I. destruct Hr as [_ [Hl [Dx _]]]. exists (fun k => nth k (fst r) 0). split; [intros i j Hi Hj; apply Dx; lia|]. intros k l Hk1 Hl1.
  destruct (Pts k l ltac:(lia) ltac:(lia)) as [i [Hi Ei]].
  pose proof (surface_sum_zero els Q (fun e s => discrete_value (ss_p ss) (t_elements t) (as_cols S) (as_T S) v 0 (n_id e) (n_h e) s * discrete_value (ss_p ss) (t_elements t) (as_cols S) (as_T S) v 0 (n_id e) (n_h e) s * p_kappa (surf_point X e s 1)) Pw
    ltac:(intros e' s'; apply Rmult_le_pos; [apply Rle_0_sqr|apply sqrt_pos]) Z e i I Hi) as G. cbv beta in G. rewrite Ei in G. rewrite Ep, (elements_count close corners M t els Hm ws Hw) in G.
  apply Rmult_integral in G. destruct G as [G|G]; [|exfalso; exact (Hk _ _ I G)]. apply Rmult_integral in G. destruct G; assumption.
Qed.
(** A linear system with the mass matrix has exactly one solution. *)
Theorem C86_mass_solvable : forall p rep S X ss r b, (p <= 4)%nat -> scalar_space p rep S -> ss_p ss = p -> resolves p r ->
  (forall e s, In e els -> p_kappa (surf_point X e s 1) <> 0) ->
  exists u, (forall i, (i < as_cols S)%nat -> times (as_cols S) (mass ss X (tensor_rule r) S) u i = b i) /\
    forall u', (forall i, (i < as_cols S)%nat -> times (as_cols S) (mass ss X (tensor_rule r) S) u' i = b i) -> forall i, (i < as_cols S)%nat -> u' i = u i.
Proof.
  intros p rep S X ss r b Hp ES Ep Hr Hk. set (N := as_cols S). set (A := mass ss X (tensor_rule r) S).
  assert (Inj : forall x, (forall i, (i < N)%nat -> rsum (fun j => A i j * x j) N = 0) -> forall j, (j < N)%nat -> x j = 0).
  { intros x Hx j Hj. destruct (Req_dec (x j) 0) as [Z|Z]; [exact Z|]. exfalso.
    pose proof (C86_mass_definite p rep S X ss r x Hp ES Ep Hr Hk ltac:(exists j; split; assumption)) as Ps. fold N A in Ps. unfold dotp in Ps.
    rewrite rsum_zero in Ps; [lra|]. intros i Hi. unfold times. rewrite (Hx i Hi). ring. }
  destruct (square_solvable N A Inj b) as [u Hu]. exists u. split; [exact Hu|]. intros u' Hu' i Hi. enough (u' i - u i = 0) by lra. apply (Inj (fun j => u' j - u j)); [|exact Hi].
  intros k Hk'. rewrite (rsum_ext _ (fun j => A k j * u' j - A k j * u j)) by (intros; ring). rewrite rsum_minus. pose proof (Hu k Hk') as E1. pose proof (Hu' k Hk') as E2. unfold times in E2. lra.
Qed.

(** ** the L2 projection *)
Lemma bilinear_square : forall N (A : mat) u w, dotp N u (times N A w) = dotp N w (times N A u) ->
  dotp N (fun i => w i - u i) (times N A (fun i => w i - u i)) = dotp N w (times N A w) - 2 * dotp N w (times N A u) + dotp N u (times N A u).
Proof.
  intros N A u w Sy. assert (T : forall i, times N A (fun i => w i - u i) i = times N A w i - times N A u i).
  { intros i. unfold times. rewrite <- rsum_minus. apply rsum_ext. intros; ring. }
  unfold dotp at 1. rewrite (rsum_ext _ (fun i => (w i * times N A w i - w i * times N A u i) - (u i * times N A w i - u i * times N A u i))) by (intros; rewrite T; ring).
  rewrite !rsum_minus. fold (dotp N w (times N A w)) (dotp N w (times N A u)) (dotp N u (times N A w)) (dotp N u (times N A u)). rewrite Sy. ring.
Qed.
(** squared error of the function with coefficients w *)
Lemma error_square : forall S X ss Q g w b, linear_form (dirichlet_trace g) ss X Q 1 (t_elements t) (as_T S) els = Some b ->
  surface_sum els Q (l2_integrand t X ss (as_cols S) (as_T S) g w)
  = surface_sum els Q (fun e s => let p := surf_point X e s 1 in p_kappa p * g (p_f p) ^ 2) - 2 * dotp (as_cols S) w b + dotp (as_cols S) w (times (as_cols S) (mass ss X Q S) w).
Proof.
  intros S X ss Q g w b Eb. destruct (C61_evaluator_exists close corners M t els Hm X ss 1 (as_cols S) (as_T S) w) as [E HE].
  assert (Hv : forall e pt, In e els -> evaluate_scalar ss E e pt = Some (discrete_value (ss_p ss) (t_elements t) (as_cols S) (as_T S) w 0 (n_id e) (n_h e) (p_s pt))) by (intros e pt I; apply (C61_scalar close corners M t els Hm X); assumption).
  rewrite (C62_mass close corners M t els Hm ss X Q (as_cols S) (as_T S) w w E E _ _ HE HE Hv Hv), (C62_dirichlet close corners M t els Hm g ss X Q _ _ _ E _ b HE Hv Eb). cbv zeta.
  set (f1 := fun e s => p_kappa (surf_point X e s 1) * g (p_f (surf_point X e s 1)) ^ 2).
  set (f2 := fun e s => g (p_f (surf_point X e s 1)) * discrete_value (ss_p ss) (t_elements t) (as_cols S) (as_T S) w 0 (n_id e) (n_h e) (p_s (surf_point X e s 1)) * p_kappa (surf_point X e s 1)).
  match goal with |- _ = _ + surface_sum els Q ?f => set (f3 := f) end.
  transitivity (surface_sum els Q (fun e s => (f1 e s + (-2) * f2 e s) + 1 * f3 e s)).
  - apply surface_sum_ext. intros e q I Hq. unfold l2_integrand, f1, f2, f3. cbv zeta. change (p_s (surf_point X e (q_xi Q q) 1)) with (q_xi Q q). ring.
  - rewrite (surface_sum_linear els Q (fun e s => f1 e s + -2 * f2 e s) f3), (surface_sum_linear els Q f1 f2). ring.
Qed.
(** The solution of the system of the mass matrix and the load vector of g minimises the L2 error; it is the only minimiser. *)
Theorem C86_projection : forall p rep S X ss qr deg g b u w ru rw, (p <= 4)%nat -> (deg <= 50)%nat -> scalar_space p rep S -> ss_p ss = p -> resolves p (qr (deg + 1)%nat) ->
  (forall e s, In e els -> p_kappa (surf_point X e s 1) <> 0) ->
  linear_form (dirichlet_trace g) ss X (tensor_rule (qr (deg + 1)%nat)) 1 (t_elements t) (as_T S) els = Some b ->
  (forall i, (i < as_cols S)%nat -> times (as_cols S) (mass ss X (tensor_rule (qr (deg + 1)%nat)) S) u i = b i) ->
  surfaceL2error qr t X ss (as_cols S) (as_T S) u g deg = Some ru -> surfaceL2error qr t X ss (as_cols S) (as_T S) w g deg = Some rw ->
  ru <= rw /\ (ru = rw -> forall i, (i < as_cols S)%nat -> w i = u i).
Proof.
  intros p rep S X ss qr deg g b u w ru rw Hp Hd ES Ep Hr Hk Eb Hu E1 E2.
  rewrite (error_sqrt close corners M t els Hm qr X ss (as_cols S) (as_T S) deg Hd) in E1, E2. apply some_inj in E1, E2. subst ru rw.
  set (Q := tensor_rule (qr (deg + 1)%nat)) in *. set (N := as_cols S) in *. set (A := mass ss X Q S) in *.
  destruct (tensor_points p _ Hr) as [Pw _]. fold Q in Pw.
  assert (D : surface_sum els Q (l2_integrand t X ss N (as_T S) g w) = surface_sum els Q (l2_integrand t X ss N (as_T S) g u) + dotp N (fun i => w i - u i) (times N A (fun i => w i - u i))).
  { unfold N. rewrite !(error_square S X ss Q g _ b Eb). fold N A.
    rewrite (bilinear_square N A u w) by (apply (C62_mass_symmetric close corners M t els Hm ss X Q N (as_T S) u w)).
    assert (B : forall z, dotp N z (times N A u) = dotp N z b) by (intros z; unfold dotp; apply rsum_ext; intros i Hi; rewrite Hu by exact Hi; reflexivity). rewrite !B. ring. }
  assert (Ge : 0 <= dotp N (fun i => w i - u i) (times N A (fun i => w i - u i))) by (apply (C62_mass_positive close corners M t els Hm ss X Q N (as_T S)); intros; left; apply Pw; assumption).
  assert (Pu : 0 <= surface_sum els Q (l2_integrand t X ss N (as_T S) g u)) by (apply surface_sum_pos; [intros; left; apply Pw; assumption|intros; apply integrand_pos]).
  split; [apply sqrt_le_1; lra|]. intros Eq i Hi. apply sqrt_inj in Eq; [|lra|lra].
  destruct (Req_dec (w i - u i) 0) as [Z|Z]; [lra|]. exfalso.
  pose proof (C86_mass_definite p rep S X ss _ (fun i => w i - u i) Hp ES Ep Hr Hk ltac:(exists i; split; assumption)) as Ps. fold Q N A in Ps. lra.
Qed.
(** It gives back the functions of the space. *)
Theorem C86_reproduces : forall p rep S X ss r g b u v, (p <= 4)%nat -> scalar_space p rep S -> ss_p ss = p -> resolves p r ->
  (forall e s, In e els -> p_kappa (surf_point X e s 1) <> 0) ->
  linear_form (dirichlet_trace g) ss X (tensor_rule r) 1 (t_elements t) (as_T S) els = Some b ->
  (forall i, (i < as_cols S)%nat -> times (as_cols S) (mass ss X (tensor_rule r) S) u i = b i) ->
  (forall E e q, evaluator_of t X ss 1 (as_cols S) (as_T S) v E -> In e els -> (q < q_size (tensor_rule r))%nat ->
     let pt := surf_point X e (q_xi (tensor_rule r) q) 1 in evaluate_scalar ss E e pt = Some (g (p_f pt))) ->
  forall i, (i < as_cols S)%nat -> u i = v i.
Proof.
  intros p rep S X ss r g b u v Hp ES Ep Hr Hk Eb Hu Hg. destruct (C86_mass_solvable p rep S X ss r b Hp ES Ep Hr Hk) as [u0 [_ Un]].
  intros i Hi. rewrite (Un u Hu i Hi). symmetry. apply Un; [|exact Hi]. clear i Hi. intros i Hi. set (Q := tensor_rule r) in *.
  destruct (C61_evaluator_exists close corners M t els Hm X ss 1 (as_cols S) (as_T S) v) as [E HE].
  destruct (scalar_function close corners M t els Hm X ss (as_cols S) (as_T S) (fun j => if Nat.eqb j i then 1 else 0)) as [E' [wh [HE' Hwh]]].
  assert (Hv : forall e pt, In e els -> evaluate_scalar ss E e pt = Some (discrete_value (ss_p ss) (t_elements t) (as_cols S) (as_T S) v 0 (n_id e) (n_h e) (p_s pt))) by (intros e pt I; apply (C61_scalar close corners M t els Hm X); assumption).
  rewrite <- (unit_dot (as_cols S) i b Hi), <- (unit_dot (as_cols S) i (times _ _ _) Hi).
  rewrite (C62_mass close corners M t els Hm ss X Q _ _ _ _ E' E wh _ HE' HE Hwh Hv), (C62_dirichlet close corners M t els Hm g ss X Q _ _ _ E' wh b HE' Hwh Eb). cbv zeta.
  apply surface_sum_ext. intros e q I Hq. pose proof (Hg E e q HE I Hq) as G. cbv zeta in G. rewrite (Hv e _ I) in G. apply some_inj in G. rewrite G. ring.
Qed.
(** ** div-conforming spaces *)
Lemma div_pins : forall p rep S, (1 <= rep <= p)%nat -> (p <= 19)%nat -> ansatz_div ws junk j1 j2 solve p M P rep t els = Some S ->
  exists A, projector_div ws junk j1 j2 solve p M P rep els = Some A /\ sm_cols A = (2 * (P * (spline_dim p n rep * spline_dim (p - 1) n rep)))%nat /\
  forall w, exists v, (forall c k h s, discrete_value p (P * 4 ^ M) (as_cols S) (as_T S) w c k h s = discrete_value p (P * 4 ^ M) (sm_cols A) (sm_entry A) v c k h s) /\
    ((forall j, (j < sm_cols A)%nat -> v j = 0) -> forall q, (q < as_cols S)%nat -> w q = 0).
Proof.
  intros p rep S Hr Hp ES. destruct (div_run close corners M t els Hm ws junk j1 j2 solve Hw Hs p rep Hr Hp) as [A [EA [_ [Ec _]]]]. exists A. split; [exact EA|]. split; [exact Ec|].
  unfold ansatz_div in ES. rewrite EA in ES. cbn [bind] in ES. apply bind_some in ES. destruct ES as [edges [Ee ES]]. apply bind_some in ES. destruct ES as [ids [Ei ES]]. apply bind_some in ES. destruct ES as [G [Eg ES]].
  destruct (over_mesh close corners M t els Hm) as [npts [HN HR]]. pose proof (verts_length close corners) as VL.
  destruct (C24_mesh_sides verts npts t HM HN HR) as [edges' [Ee' [Eok ND]]]. assert (edges' = edges) by congruence. subst edges'. rewrite VL in *.
  assert (HP : (1 <= P)%nat) by (destruct Hm as [Hc _]; destruct corners; [congruence|simpl; lia]).
  destruct (C24_div_identification p rep M P edges ltac:(lia) HP Eok ND) as [ids' [Ei' [K [Gr [post [trips [Ea' Gl]]]]]]].
  set (Sd := (p + rep * (n - 1))%nat) in *. assert (E1 : spline_dim (p - 1) n rep = Sd) by (unfold spline_dim, Sd; clear -Hr; generalize (rep * (n - 1))%nat; lia).
  assert (E2 : spline_dim p n rep = (Sd + 1)%nat) by (unfold spline_dim, Sd; clear; generalize (rep * (n - 1))%nat; lia). clearbody Sd.
  assert (Ec' : sm_cols A = (2 * P * (Sd * (Sd + 1)))%nat) by (rewrite Ec, E1, E2; ring). rewrite Ec' in Ei, Eg. assert (ids' = ids) by congruence. subst ids'.
  destruct (product_value A G S ES) as [tr [EG [Er V]]]. assert (EG' : G = (2 * P * (Sd * (Sd + 1)), as_cols S, tr)%nat) by (rewrite EG, Ec'; reflexivity).
  assert (Q : (2 * P * (Sd * (Sd + 1)), as_cols S, tr)%nat = (2 * P * (Sd * (Sd + 1)), post, trips)%nat) by congruence. pose proof (f_equal snd Q) as Q1. pose proof (f_equal (fun x => snd (fst x)) Q) as Q2. cbn [fst snd] in Q1, Q2. subst tr. rewrite <- Q2 in Gl. clear Q Q2 post Ea' Eg.
  assert (Fl : forall i, out_flux i = 1%Z \/ out_flux i = (-1)%Z) by (intros [|[|[|i]]]; cbn; auto).
  intros w. exists (glued_vector trips (as_cols S) w). split; [intros; apply (product_discrete A G S trips ES EG)|]. rewrite <- Ec' in Gl. apply (pins A G S ids trips ES EG Gl). intros r c z I.
  destruct (in_dec Nat.eq_dec r (flat_map (fun g => tl (fst g)) ids)) as [D|D].
  - apply in_flat_map in D. destruct D as [g [Ig Hg]]. rewrite (gl_coef _ _ _ _ Gl r c z g I Ig Hg). apply Gr in Ig. destruct Ig as [x [y [z' [Fx ->]]]]. cbn [snd].
    destruct Fx as [a [b [i [j [d [d' [X [Y [X' [Y' [_ [_ [_ [_ [_ [_ Hz]]]]]]]]]]]]]]]]. destruct (Fl i) as [Fi|Fi], (Fl j) as [Fj|Fj]; rewrite Fi, Fj in Hz; lia.
  - rewrite (gl_one _ _ _ _ Gl r c z I); [discriminate|]. intros [g [Ig Hg]]. apply D. apply in_flat_map. exists g. split; assumption.
Qed.
Lemma nodes_value : forall p N nd T v c k h x s, 0 < h -> distinct (p + 1) x -> (forall a b, (a < p + 1)%nat -> (b < p + 1)%nat -> discrete_value p N nd T v c k h (x a, x b) = 0) -> discrete_value p N nd T v c k h s = 0.
Proof.
  intros p N nd T v c k h x s Ph Dx Zx. unfold discrete_value. rewrite rsum_zero; [unfold Rdiv; ring|]. intros i Hi.
  rewrite (tensor_nodes p (fun i => local_coefficient p N nd T v c k i) x Dx); [ring| |exact Hi].
  intros a b Ha Hb. specialize (Zx a b Ha Hb). unfold discrete_value in Zx. apply Rmult_integral in Zx. destruct Zx as [Zx|Zx]; [exact Zx|]. exfalso. revert Zx. apply Rinv_neq_0_compat. lra.
Qed.
Lemma div_zero : forall p rep S v, (1 <= rep <= p)%nat -> (p <= 4)%nat -> ansatz_div ws junk j1 j2 solve p M P rep t els = Some S ->
  (forall e, In e els -> exists x, distinct (p + 1) x /\ forall c k l, (c < 2)%nat -> (k < p + 1)%nat -> (l < p + 1)%nat -> discrete_value p (P * 4 ^ M) (as_cols S) (as_T S) v c (n_id e) (n_h e) (x k, x l) = 0) ->
  forall q, (q < as_cols S)%nat -> v q = 0.
Proof.
  intros p rep S v Hr Hp ES Z. destruct (div_pins p rep S Hr ltac:(lia) ES) as [A [EA [Ec Pin]]]. destruct (Pin v) as [u [V Fin]]. apply Fin. clear Pin Fin.
  pose proof (mesh_numbered close corners M t els Hm) as Nb. pose proof (n_pos M) as Hn.
  assert (Ze : forall q X Y z z', (q < P)%nat -> (X < n)%nat -> (Y < n)%nat -> 0 < z < 1 -> 0 < z' < 1 ->
    tensor_spline p (p - 1) n rep 0 q u (at_el n X z) (at_el n Y z') = 0 /\ tensor_spline (p - 1) p n rep (second_component corners M p rep) q u (at_el n X z) (at_el n Y z') = 0).
  { intros q X Y z z' Hq HX HY Hz Hz'. destruct (cell_element close corners M t els Hm ws Hw q X Y Hq HX HY) as [k [e [Ek [C Pe]]]]. pose proof (nth_error_In _ _ Ek) as I. pose proof (n_h_pos e) as Ph.
    destruct (ProofForms.numbered_in _ _ e Nb I) as [_ Ek']. destruct (Z e I) as [x [Dx' Zx]].
    destruct (C25_div_exact close corners M t els Hm ws junk j1 j2 solve Hw Hs p rep A u _ e (z, z') Hp ltac:(lia) EA Ek' ltac:(cbn [fst]; lra) ltac:(cbn [snd]; lra)) as [G1 G2].
    rewrite Pe in G1, G2. destruct (cell_point M ws Hw e X Y (z, z') C) as [C1 C2]. cbn [fst snd] in C1, C2, G1, G2. rewrite <- C1, <- C2 in G1, G2. unfold at_el. rewrite <- G1, <- G2, <- !V. change (Q2R (get_h e)) with (n_h e).
    split; (rewrite (nodes_value _ _ _ _ _ _ _ _ x _ Ph Dx'); [ring|intros; apply Zx; lia]). }
  intros j Hj. rewrite Ec in Hj. set (m := (P * (spline_dim p n rep * spline_dim (p - 1) n rep))%nat) in *.
  destruct (le_lt_dec m j) as [L|L].
  - destruct (dof_of (p - 1) p n rep m P (j - m)) as [q [dx [dy [Hq [Dx [Dy Ej]]]]]]; [rewrite (Nat.mul_comm (spline_dim (p - 1) n rep)); fold m; lia|]. replace j with (m + (j - m))%nat by lia. rewrite Ej.
    apply (tensor_indep (p - 1) p n rep m q u Hn ltac:(lia) ltac:(lia) ltac:(lia)); [|exact Dx|exact Dy]. intros X Y z z' HX HY Hz Hz'. apply Ze; assumption.
  - destruct (dof_of p (p - 1) n rep 0 P j L) as [q [dx [dy [Hq [Dx [Dy Ej]]]]]]. cbn [Nat.add] in Ej. rewrite Ej.
    apply (tensor_indep p (p - 1) n rep 0 q u Hn ltac:(lia) ltac:(lia) ltac:(lia)); [|exact Dx|exact Dy]. intros X Y z z' HX HY Hz Hz'. apply Ze; assumption.
Qed.
Lemma tangent_combination : forall a b (d1 d2 : vec3), vnorm (vcross d1 d2) <> 0 -> vadd (vscal a d1) (vscal b d2) = (0, 0, 0) -> a = 0 /\ b = 0.
Proof.
  intros a b d1 d2 N E.
  assert (Nz : vdot (vcross d1 d2) (vcross d1 d2) <> 0) by (intros Z; apply N; unfold vnorm; rewrite Z; apply sqrt_0).
  assert (Ea : vdot (vcross (vadd (vscal a d1) (vscal b d2)) d2) (vcross d1 d2) = a * vdot (vcross d1 d2) (vcross d1 d2)) by (unfold vdot, vcross, vadd, vscal, vx, vy, vz; cbn [fst snd]; ring).
  assert (Eb : vdot (vcross d1 (vadd (vscal a d1) (vscal b d2))) (vcross d1 d2) = b * vdot (vcross d1 d2) (vcross d1 d2)) by (unfold vdot, vcross, vadd, vscal, vx, vy, vz; cbn [fst snd]; ring).
  rewrite E in Ea, Eb. assert (Za : a * vdot (vcross d1 d2) (vcross d1 d2) = 0) by (rewrite <- Ea; unfold vdot, vcross, vx, vy, vz; cbn [fst snd]; ring).
  assert (Zb : b * vdot (vcross d1 d2) (vcross d1 d2) = 0) by (rewrite <- Eb; unfold vdot, vcross, vx, vy, vz; cbn [fst snd]; ring).
  apply Rmult_integral in Za. apply Rmult_integral in Zb. tauto.
Qed.
(** Two fields of a div-conforming space of degree at most 4 with the same values at such a grid, where the tangents are not parallel. *)
Theorem C86_div : forall p rep S X ss v w E E', (1 <= rep <= p)%nat -> (p <= 4)%nat -> ansatz_div ws junk j1 j2 solve p M P rep t els = Some S -> ss_p ss = p ->
  evaluator_of t X ss 2 (as_cols S) (as_T S) v E -> evaluator_of t X ss 2 (as_cols S) (as_T S) w E' ->
  (forall e, In e els -> exists x, distinct (p + 1) x /\ forall k l, (k < p + 1)%nat -> (l < p + 1)%nat ->
    exists pt, p_s pt = (x k, x l) /\ p_kappa pt <> 0 /\ evaluate_vector ss E e pt = evaluate_vector ss E' e pt) ->
  forall q, (q < as_cols S)%nat -> v q = w q.
Proof.
  intros p rep S X ss v w E E' Hr Hp ES Ep HE HE' Z q Hq. enough (v q + -1 * w q = 0) by lra.
  apply (div_zero p rep S (fun q => v q + -1 * w q) Hr Hp ES); [|exact Hq]. intros e I. destruct (Z e I) as [x [Dx Zx]]. exists x. split; [exact Dx|]. intros c k l Hc Hk Hl. destruct (Zx k l Hk Hl) as [pt [Eqp [Kp E1]]].
  rewrite (C61_vector close corners M t els Hm X ss _ _ _ E e pt HE I), (C61_vector close corners M t els Hm X ss _ _ _ E' e pt HE' I) in E1. apply some_inj in E1. rewrite Eqp, Ep, (elements_count close corners M t els Hm ws Hw) in E1.
  assert (L : forall c, discrete_value p (P * 4 ^ M) (as_cols S) (as_T S) (fun q => v q + -1 * w q) c (n_id e) (n_h e) (x k, x l) = discrete_value p (P * 4 ^ M) (as_cols S) (as_T S) v c (n_id e) (n_h e) (x k, x l) - discrete_value p (P * 4 ^ M) (as_cols S) (as_T S) w c (n_id e) (n_h e) (x k, x l)).
  { intros d. unfold discrete_value, Rdiv. rewrite <- Rmult_minus_distr_r, <- rsum_minus. f_equal. apply rsum_ext. intros i Hi. rewrite <- Rmult_minus_distr_r. f_equal. unfold local_coefficient. rewrite <- rsum_minus. apply rsum_ext. intros j Hj. ring. }
  rewrite L. set (a := fun d => discrete_value p (P * 4 ^ M) (as_cols S) (as_T S) v d (n_id e) (n_h e) (x k, x l)) in *. set (b := fun d => discrete_value p (P * 4 ^ M) (as_cols S) (as_T S) w d (n_id e) (n_h e) (x k, x l)) in *.
  symmetry in E1. change (vadd (vscal (a 0%nat) (p_dx pt)) (vscal (a 1%nat) (p_dy pt)) = vadd (vscal (b 0%nat) (p_dx pt)) (vscal (b 1%nat) (p_dy pt))) in E1. change (a c - b c = 0).
  destruct (tangent_combination (a 0%nat - b 0%nat) (a 1%nat - b 1%nat) (p_dx pt) (p_dy pt) Kp) as [A0 A1].
  - clearbody a b. destruct (p_dx pt) as [[d1 d2] d3], (p_dy pt) as [[g1 g2] g3]. unfold vadd, vscal, vx, vy, vz in *. cbn [fst snd] in *. pose proof (f_equal (fun z => fst (fst z)) E1) as F1. pose proof (f_equal (fun z => snd (fst z)) E1) as F2. pose proof (f_equal snd E1) as F3. cbn [fst snd] in F1, F2, F3.
    f_equal; [f_equal|]; lra.
  - destruct c as [|[|c]]; [exact A0|exact A1|lia].
Qed.
End Mesh.

(** ** the quadrature rules of the library have this property: far field degree p + 1 for the mass matrix *)
Lemma increasing_distinct : forall m (x : nat -> R), (forall k, (Datatypes.S k < m)%nat -> x k < x (Datatypes.S k)) -> distinct m x.
Proof.
  intros m x Inc. assert (G : forall d i, (i + Datatypes.S d < m)%nat -> x i < x (i + Datatypes.S d)%nat).
  { induction d as [|d IH]; intros i Hi; [replace (i + 1)%nat with (Datatypes.S i) by lia; apply Inc; lia|].
    apply Rlt_trans with (x (i + Datatypes.S d)%nat); [apply IH; lia|]. replace (i + Datatypes.S (Datatypes.S d))%nat with (Datatypes.S (i + Datatypes.S d)) by lia. apply Inc. lia. }
  intros i j Hi Hj Ne. destruct (lt_eq_lt_dec i j) as [[L|L]|L]; [|lia|].
  - pose proof (G (j - i - 1)%nat i ltac:(lia)) as Q. replace (i + Datatypes.S (j - i - 1))%nat with j in Q by lia. lra.
  - pose proof (G (i - j - 1)%nat j ltac:(lia)) as Q. replace (j + Datatypes.S (i - j - 1))%nat with i in Q by lia. lra.
Qed.
Theorem C86_rules : forall p m r, (p + 1 <= m <= 20)%nat -> gauss_rule m = Some r -> resolves p r.
Proof.
  intros p m r Hmm E. destruct (C37_tables m ltac:(lia)) as [x [w [E' [Lx [Lw [Pos [Inc _]]]]]]]. rewrite E in E'. injection E' as ->. unfold resolves. cbn [fst snd]. rewrite Lx, Lw. split; [reflexivity|]. split; [lia|].
  split; [apply increasing_distinct; exact Inc|]. intros k Hk. apply Pos. exact Hk.
Qed.

(* BEGIN ASSUMPTIONS *)
Print Assumptions C86_scalar.
Print Assumptions C86_mass_definite.
Print Assumptions C86_mass_solvable.
Print Assumptions C86_projection.
Print Assumptions C86_reproduces.
Print Assumptions C86_div.
Print Assumptions C86_rules.
