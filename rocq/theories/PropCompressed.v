(** C85: the compressed matrix as a whole, compared with the dense matrix of the same operator. *)
From Coq Require Import Reals Lra Lia Arith Bool List ZArith QArith Qreals.
From Coquelicot Require Import Coquelicot.
From Verif Require Import RSum SpecBernstein ModelBase ModelBernstein ProofBernstein ModelTree ModelBall ModelBlock ModelH2 ModelInterp ModelH2Init ModelQuad ModelAssembly ModelDuffy SpecTree SpecMesh SpecBall SpecQuad SpecInterp
  ProofTree ProofTreeWF ProofTreeHist ProofTreeGeo ProofTreeLook ProofPoints ProofMoment ProofInterp ProofBall PropTree PropBlock PropTopo PropConform PropBall PropH2 PropAssembly ProofH2Entry PropInterp SpecDuffy ProofDuffy ProofDuffyInt PropCompare ModelOperators SpecOperators ProofOperators PropOperators ProofNearFar PropNearFar
  SpecBlock SpecCheb ProofCheb ProofLegendre PropCheb SpecFlat ProofGegenbauer PropFarLaplace PropFarDouble ProofH2.
Local Close Scope Q_scope.
Import ListNotations.
Local Open Scope R_scope.

(** every entry of the matrix belongs to two elements of the mesh below the two clusters of one leaf of the block tree *)
Lemma entries_cover : forall (Pt : Type) (close : Pt -> Pt -> bool) corners M t o near mincl n xi w ja jm H els,
  corners <> [] -> (forall c, In c corners -> length c = 4%nat) -> init_tree close corners M = Some t ->
  near [] [] = true -> (0 <= mincl)%Z -> (0 < n)%nat -> (0 < o_nF o)%nat -> (0 < o_vd o)%nat ->
  h2_init o t near mincl n xi w ja jm = Some H -> mesh_elements t els ->
  let k := ((o_p o + 1) * (o_p o + 1))%nat in let N := (length corners * 4 ^ M)%nat in
  forall i j, (i < o_vd o * k * t_elements t)%nat -> (j < o_vd o * k * t_elements t)%nat ->
  exists B a1 a2 e1 e2 rc cc m1 m2, In B (leaves (h_blocks H)) /\ t_store t a1 = Some e1 /\ t_store t a2 = Some e2 /\ is_leaf t a1 /\ is_leaf t a2 /\
    under (b_c1 B) a1 /\ under (b_c2 B) a2 /\ (rc < o_vd o)%nat /\ (cc < o_vd o)%nat /\ (m1 < k)%nat /\ (m2 < k)%nat /\ In e1 els /\ In e2 els /\
    i = row_of k N rc m1 e1 /\ j = row_of k N cc m2 e2 /\
    (b_cc B = Dense \/ (b_cc B = LowRank /\ exists c1 c2, t_store t (b_c1 B) = Some c1 /\ t_store t (b_c2 B) = Some c2)).
Proof.
  intros Pt close corners M t o near mincl n xi w ja jm H els Hc H4 E Hr H0 Hn HF Hv EH Me k N i j Hi Hj.
  destruct (C33_rows_covered Pt close corners M t els _ k i Hc H4 E Me Hi) as [rc [m1 [e1 [Hrc [Hm1 [I1 ->]]]]]].
  destruct (C33_rows_covered Pt close corners M t els _ k j Hc H4 E Me Hj) as [cc [m2 [e2 [Hcc [Hm2 [I2 ->]]]]]].
  destruct (uniform_ids close corners M t els Hc H4 E Me) as [Le [En _]].
  destruct (init_tree_ok close corners M H4) as [t' [l [E' [Wt [P [Al ML]]]]]]. rewrite E in E'. apply some_eq in E'. subst t'.
  assert (HP : (0 < t_patches t)%nat) by (rewrite P; destruct corners; [congruence|simpl; lia]).
  assert (I : forall e, In e els -> exists a, t_store t a = Some e /\ is_leaf t a /\ (pos_id a < length corners * 4 ^ M)%nat).
  { intros e Ie. destruct Me as [l' [El Em]]. rewrite (traverse_ok t l Wt HP) in El. apply some_eq in El. subst l'. destruct (els_length t l els Em) as [L Hx].
    destruct (In_nth_error els e Ie) as [q Nq]. assert (Lq : (q < length l)%nat) by (rewrite <- L; apply nth_error_Some; congruence).
    destruct (Hx q Lq) as [e' [Ne Se]]. assert (e' = e) by congruence. subst e'. exists (nth q l []). split; [assumption|].
    assert (Lf : is_leaf t (nth q l [])) by (apply (wf_leaf t l Wt), nth_In; assumption). split; [assumption|].
    destruct (uniform_list t l M Wt Al) as [Ll _]. rewrite <- P, <- Ll. apply nth_error_Some. rewrite (element_index t l M _ Wt Al Lf). discriminate. }
  destruct (I e1 I1) as [a1 [E1 [L1 B1]]]. destruct (I e2 I2) as [a2 [E2 [L2 B2]]].
  destruct (h2_init_facts _ _ _ _ _ _ _ _ _ _ EH) as [T1 [T2 [T3 [T4 [T5 [T6 T7]]]]]].
  pose proof (C54_setup Pt close corners M t o near mincl n xi w ja jm H Hc H4 E Hr H0 Hn HF Hv EH) as SU.
  destruct (setup_wf H _ M SU) as [l0 [nr [_ [_ [_ [_ [_ [_ [_ [_ [_ [_ [_ [_ [_ Cov]]]]]]]]]]]]]]].
  assert (Kp : (0 < k)%nat) by (unfold k; nia).
  destruct (Cov (k * pos_id a1 + m1)%nat (k * pos_id a2 + m2)%nat) as [u [B [v [Eq [IB _]]]]].
  { unfold comp_size. rewrite T4. apply idx_lt; assumption. } { unfold comp_size. rewrite T4. apply idx_lt; assumption. }
  assert (HB : In B (leaves (h_blocks H))) by (rewrite Eq; apply in_or_app; right; left; reflexivity).
  destruct (block_tree_ok t l near mincl Wt HP) as [bt' [Eb' Hleaf]]. rewrite T3 in Eb'. apply some_eq in Eb'. subst bt'.
  destruct (Hleaf B HB) as [C1 [C2 [Len [Cc [Nr _]]]]]. rewrite T1, T4 in IB. fold k in IB.
  destruct (divmod_mul (pos_id a1) m1 k Hm1) as [D1 _]. destruct (divmod_mul (pos_id a2) m2 k Hm2) as [D2 _].
  rewrite (Nat.mul_comm _ k) in D1. rewrite (Nat.mul_comm _ k) in D2.
  assert (UU : under (b_c1 B) a1 /\ under (b_c2 B) a2).
  { apply (in_block_under t l k (k * pos_id a1 + m1)%nat (k * pos_id a2 + m2)%nat B a1 a2 Wt HP Kp C1 C2); [rewrite D1|rewrite D2|exact IB]; apply (element_index t l M); assumption. }
  destruct UU as [U1 U2]. exists B, a1, a2, e1, e2, rc, cc, m1, m2. rewrite En. fold N. repeat (split; [first [assumption|reflexivity]|]).
  destruct (b_cc B) eqn:Eb; [congruence|right|left; reflexivity]. split; [reflexivity|].
  assert (Hne : b_c1 B <> [] /\ b_c2 B <> []).
  { split; intro Q; rewrite Q in *; cbn [length] in Len; [symmetry in Len|]; apply length_zero_iff_nil in Len; rewrite Len in Cc; unfold compare_cluster in Cc; rewrite Hr in Cc; destruct (_ <=? _)%Z in Cc; discriminate. }
  destruct C1 as [C1|C1]; [tauto|]. destruct C2 as [C2|C2]; [tauto|].
  destruct (t_store t (b_c1 B)) as [c1|]; [|congruence]. destruct (t_store t (b_c2 B)) as [c2|]; [|congruence]. exists c1, c2. split; reflexivity.
Qed.
(** if the far-field blocks differ from the dense matrix by at most eps, so does every entry *)
Theorem C85_entries : forall (Pt : Type) (close : Pt -> Pt -> bool) corners M t o near mincl n xi w ja jm H A els m eps,
  corners <> [] -> (forall c, In c corners -> length c = 4%nat) -> init_tree close corners M = Some t ->
  near [] [] = true -> (0 <= mincl)%Z -> (0 < n)%nat -> (0 < o_nF o)%nat -> (0 < o_vd o)%nat ->
  h2_init o t near mincl n xi w ja jm = Some H -> described_by H (length corners) M A ->
  let k := ((o_p o + 1) * (o_p o + 1))%nat in let N := (length corners * 4 ^ M)%nat in
  mesh_elements t els -> assembled (o_vd o) k (t_elements t) (o_form o) els m -> 0 <= eps ->
  (forall B a1 a2 e1 e2 c1 c2 rc cc m1 m2, In B (leaves (h_blocks H)) -> b_cc B = LowRank -> t_store t a1 = Some e1 -> t_store t a2 = Some e2 ->
     is_leaf t a1 -> is_leaf t a2 -> t_store t (b_c1 B) = Some c1 -> t_store t (b_c2 B) = Some c2 -> under (b_c1 B) a1 -> under (b_c2 B) a2 ->
     (rc < o_vd o)%nat -> (cc < o_vd o)%nat -> (m1 < k)%nat -> (m2 < k)%nat ->
     Rabs (A (row_of k N rc m1 e1) (row_of k N cc m2 e2) - o_form o e1 e2 (rc * k + m1)%nat (cc * k + m2)%nat) <= eps) ->
  forall i j, (i < o_vd o * k * t_elements t)%nat -> (j < o_vd o * k * t_elements t)%nat -> Rabs (A i j - m i j) <= eps.
Proof.
  intros Pt close corners M t o near mincl n xi w ja jm H A els m eps Hc H4 E Hr H0 Hn HF Hv EH DA k N Me Am He Low i j Hi Hj.
  destruct (entries_cover Pt close corners M t o near mincl n xi w ja jm H els Hc H4 E Hr H0 Hn HF Hv EH Me i j Hi Hj)
    as [B [a1 [a2 [e1 [e2 [rc [cc [m1 [m2 [HB [E1 [E2 [L1 [L2 [U1 [U2 [Hrc [Hcc [Hm1 [Hm2 [I1 [I2 [-> [-> [Hd|[Hl [c1 [c2 [Ec1 Ec2]]]]]]]]]]]]]]]]]]]]]]]]]]]]].
  - rewrite (C54_dense_entries_agree Pt close corners M t o near mincl n xi w ja jm H A els m Hc H4 E EH DA Me Am B a1 a2 e1 e2 rc cc m1 m2) by assumption.
    rewrite Rminus_eq_0, Rabs_R0. exact He.
  - pose proof (C33_assembly Pt close corners M t els (o_vd o) k (o_form o) m Hc H4 E Me Am rc cc e1 e2 m1 m2 Hrc Hcc I1 I2 Hm1 Hm2) as Q.
    destruct (uniform_ids close corners M t els Hc H4 E Me) as [_ [En _]]. rewrite En in Q. fold k N. fold N in Q. rewrite Q. eapply Low; eassumption.
Qed.
(** the l1 norm of the first D entries *)
Definition norm1 (D : nat) (x : arr) : R := rsum (fun q => Rabs (x q)) D.
Lemma norm1_nonneg : forall D x, 0 <= norm1 D x.
Proof. intros D x. unfold norm1. replace 0 with (rsum (fun _ => 0) D) by (rewrite rsum_const; ring). apply rsum_le. intros; apply Rabs_pos. Qed.
Lemma bilinear_error : forall D (A m : mat) eps u v, (forall i j, (i < D)%nat -> (j < D)%nat -> Rabs (A i j - m i j) <= eps) ->
  Rabs (rsum (fun q => u q * rsum (fun q' => A q q' * v q') D) D - rsum (fun q => u q * rsum (fun q' => m q q' * v q') D) D) <= eps * norm1 D u * norm1 D v.
Proof.
  intros D A m eps u v Hm. rewrite <- rsum_minus. eapply Rle_trans; [apply rsum_abs|].
  replace (eps * norm1 D u * norm1 D v) with (rsum (fun q => Rabs (u q) * (eps * norm1 D v)) D) by (rewrite rsum_scal_r; unfold norm1; ring).
  apply rsum_le. intros q Hq. rewrite <- Rmult_minus_distr_l, Rabs_mult. apply Rmult_le_compat_l; [apply Rabs_pos|].
  rewrite <- rsum_minus. eapply Rle_trans; [apply rsum_abs|]. unfold norm1. rewrite <- rsum_scal. apply rsum_le. intros q' Hq'.
  replace (A q q' * v q' - m q q' * v q') with ((A q q' - m q q') * v q') by ring. rewrite Rabs_mult. apply Rmult_le_compat_r; [apply Rabs_pos|apply Hm; assumption].
Qed.
(** ** the product: the result of H2Matrix * rhs differs from that of the dense matrix, T^T m T rhs, by at most
    |alpha| eps |column i of T|_1 |T rhs|_1 *)
Theorem C85_product : forall H P M A n TM alpha rhs res res' m eps, h2_of_mesh H P M -> described_by H P M A ->
  let D := (h_vd H * comp_size H P M)%nat in
  (forall i j, (i < D)%nat -> (j < D)%nat -> Rabs (A i j - m i j) <= eps) -> h2_product H D n TM alpha rhs res res' ->
  forall i, Rabs (res' i - (res i + alpha * rsum (fun q => TM q i * rsum (fun q' => m q q' * rsum (fun j => TM q' j * rhs j) n) D) D))
    <= Rabs alpha * (eps * norm1 D (fun q => TM q i) * norm1 D (fun q => rsum (fun j => TM q j * rhs j) n)).
Proof.
  intros H P M A n TM alpha rhs res res' m eps HS DA D Hm HP i. rewrite (C29_product H P M A n TM alpha rhs res res' HS DA HP i). fold D.
  match goal with |- Rabs (?r + alpha * ?x - (?r + alpha * ?y)) <= _ => replace (r + alpha * x - (r + alpha * y)) with (alpha * (x - y)) by ring end.
  rewrite Rabs_mult. apply Rmult_le_compat_l; [apply Rabs_pos|]. apply (bilinear_error D A m eps (fun q => TM q i) (fun q' => rsum (fun j => TM q' j * rhs j) n) Hm).
Qed.
Lemma norm1_sq : forall D x, norm1 D x * norm1 D x <= INR D * rsum (fun q => x q * x q) D.
Proof.
  intros D x. induction D as [|D IH]; [unfold norm1; cbn; lra|]. unfold norm1 in *. cbn [rsum]. set (s := rsum (fun q => Rabs (x q)) D) in *. set (r := rsum (fun q => x q * x q) D) in *.
  assert (Hs : 0 <= s) by (apply (norm1_nonneg D x)). pose proof (Rabs_pos (x D)) as Ha.
  assert (Ea : x D * x D = Rabs (x D) * Rabs (x D)) by (rewrite <- Rabs_mult; symmetry; apply Rabs_right; nra). rewrite Ea. set (a := Rabs (x D)) in *.
  rewrite S_INR. assert (HD : 0 <= INR D) by apply pos_INR.
  assert (K : 2 * s * a <= r + INR D * (a * a)).
  { destruct (Nat.eq_dec D 0) as [->|Ne]; [unfold s, r; cbn; lra|]. assert (D1 : 0 < INR D) by (apply lt_0_INR; lia).
    pose proof (Rle_0_sqr (s - INR D * a)) as Q. unfold Rsqr in Q. apply Rmult_le_reg_l with (INR D); [exact D1|]. nra. }
  nra.
Qed.
(** ** positive definite operators: if the dense matrix is positive definite with constant c on the coefficients of the discontinuous basis,
    then the product y = H2Matrix * x satisfies x . y >= (c - eps D) |T x|^2 *)
Theorem C85_definite : forall H P M A n TM x y m eps c, h2_of_mesh H P M -> described_by H P M A ->
  let D := (h_vd H * comp_size H P M)%nat in
  0 <= eps -> (forall i j, (i < D)%nat -> (j < D)%nat -> Rabs (A i j - m i j) <= eps) ->
  (forall v, c * rsum (fun q => v q * v q) D <= rsum (fun q => v q * rsum (fun q' => m q q' * v q') D) D) ->
  h2_product H D n TM 1 x zero_arr y ->
  let Tx := fun q => rsum (fun j => TM q j * x j) n in
  (c - eps * INR D) * rsum (fun q => Tx q * Tx q) D <= rsum (fun i => x i * y i) n.
Proof.
  intros H P M A n TM x y m eps c HS DA D He Hm Hc HP Tx.
  assert (Eq : rsum (fun i => x i * y i) n = rsum (fun q => Tx q * rsum (fun q' => A q q' * Tx q') D) D).
  { rewrite (rsum_ext (fun i => x i * y i) (fun i => rsum (fun q => x i * (TM q i * rsum (fun q' => A q q' * Tx q') D)) D)).
    - rewrite rsum_swap. apply rsum_ext. intros q _. unfold Tx at 2. rewrite (Rmult_comm (rsum _ n)), <- rsum_scal. apply rsum_ext. intros i _. fold (Tx). ring.
    - intros i _. rewrite (C29_product H P M A n TM 1 x zero_arr y HS DA HP i). fold D. unfold zero_arr. rewrite Rplus_0_l, Rmult_1_l, rsum_scal. reflexivity. }
  rewrite Eq. pose proof (bilinear_error D A m eps Tx Tx Hm) as B. apply Rabs_le_between in B. destruct B as [B _].
  pose proof (norm1_sq D Tx) as Q. pose proof (Hc Tx) as C. apply (Rmult_le_compat_l eps) in Q; [|exact He]. nra.
Qed.
(** ** ... and the compressed equation has at most one solution: equal products come from equal vectors T x *)
Theorem C85_unique : forall H P M A n TM x1 x2 y1 y2 m eps c, h2_of_mesh H P M -> described_by H P M A ->
  let D := (h_vd H * comp_size H P M)%nat in
  0 <= eps -> (forall i j, (i < D)%nat -> (j < D)%nat -> Rabs (A i j - m i j) <= eps) ->
  (forall v, c * rsum (fun q => v q * v q) D <= rsum (fun q => v q * rsum (fun q' => m q q' * v q') D) D) -> eps * INR D < c ->
  h2_product H D n TM 1 x1 zero_arr y1 -> h2_product H D n TM 1 x2 zero_arr y2 -> (forall i, (i < n)%nat -> y1 i = y2 i) ->
  forall q, (q < D)%nat -> rsum (fun j => TM q j * x1 j) n = rsum (fun j => TM q j * x2 j) n.
Proof.
  intros H P M A n TM x1 x2 y1 y2 m eps c HS DA D He Hm Hc Hlt P1 P2 Ey q Hq.
  set (x := fun j => 1 * x1 j + -1 * x2 j). destruct (C28_execution_exists H D n TM 1 x zero_arr) as [y Py].
  pose proof (C29_linear H P M n TM 1 x1 x2 1 (-1) y1 y2 y HS P1 P2 Py) as L.
  pose proof (C85_definite H P M A n TM x y m eps c HS DA He Hm Hc Py) as G. cbv zeta in G. fold D in G.
  set (Tx := fun q => rsum (fun j => TM q j * x j) n) in *.
  assert (Z : rsum (fun i => x i * y i) n = 0).
  { replace 0 with (rsum (fun _ => 0) n) by (rewrite rsum_const; ring). apply rsum_ext. intros i Hi. rewrite L, (Ey i Hi). ring. }
  rewrite Z in G. assert (Sq : rsum (fun q => Tx q * Tx q) D <= 0) by nra.
  assert (Tq : Tx q * Tx q <= 0).
  { eapply Rle_trans; [|exact Sq]. clear - Hq. induction D as [|k IH]; [lia|]. cbn [rsum]. assert (N : 0 <= rsum (fun q => Tx q * Tx q) k) by (replace 0 with (rsum (fun _ => 0) k) by (rewrite rsum_const; ring); apply rsum_le; intros; apply Rle_0_sqr).
    destruct (Nat.eq_dec q k) as [ -> |Ne]; [lra|]. specialize (IH ltac:(lia)). pose proof (Rle_0_sqr (Tx k)) as K. unfold Rsqr in K. lra. }
  assert (T0 : Tx q = 0) by nra. unfold Tx, x in T0.
  rewrite (rsum_ext _ (fun j => TM q j * x1 j + -1 * (TM q j * x2 j))) in T0 by (intros; ring). rewrite rsum_plus, rsum_scal in T0. lra.
Qed.
(** ** the Laplace operators on flat surfaces *)
Section Whole.
Variables (Pt : Type) (close : Pt -> Pt -> bool) (corners : list (list Pt)) (M : nat) (t : tree) (X : surface) (O U V : nat -> vec3)
  (P : list (option vec3)) (b : balls) (mid : addr -> vec3) (rad : addr -> option R).
Hypothesis FS : far_setting close corners M t X O U V P b mid rad.
Lemma lowrank_clusters : forall eta mincl bt B, block_tree t (near_of mid rad eta) mincl = Some bt -> In B (leaves bt) -> b_cc B = LowRank ->
  exists c1 c2, t_store t (b_c1 B) = Some c1 /\ t_store t (b_c2 B) = Some c2.
Proof.
  intros eta mincl bt B Eb HB Hl. destruct (reachable_wf t (fs_reach close corners M t X O U V P b mid rad FS)) as [[l Wt] HP].
  destruct (block_tree_ok t l (near_of mid rad eta) mincl Wt HP) as [bt' [Eb' Hleaf]]. rewrite Eb in Eb'. apply some_eq in Eb'. subst bt'.
  destruct (Hleaf B HB) as [C1 [C2 [Len [Cc _]]]]. rewrite Hl in Cc.
  assert (Hne : b_c1 B <> [] /\ b_c2 B <> []).
  { split; intro Q; rewrite Q in *; cbn [length] in Len; [symmetry in Len|]; apply length_zero_iff_nil in Len; rewrite Len in Cc; unfold compare_cluster in Cc; rewrite (root_near close corners M t X O U V P b mid rad FS) in Cc; destruct (_ <=? _)%Z in Cc; discriminate. }
  destruct C1 as [C1|C1]; [tauto|]. destruct C2 as [C2|C2]; [tauto|].
  destruct (t_store t (b_c1 B)) as [c1|]; [|congruence]. destruct (t_store t (b_c2 B)) as [c2|]; [|congruence]. exists c1, c2. split; reflexivity.
Qed.
(** d0 is a lower bound of the distance of the balls of every far-field block *)
Definition far_distance (bt : btree) (d0 : R) : Prop := 0 < d0 /\
  forall B m1 r1 m2 r2, In B (leaves bt) -> b_cc B = LowRank -> b (b_c1 B) = Some (m1, r1) -> b (b_c2 B) = Some (m2, r2) -> d0 <= dist3 m1 m2 - r1 - r2.
Lemma distance_exists : forall eta mincl bt, 0 < eta -> block_tree t (near_of mid rad eta) mincl = Some bt -> exists d0, far_distance bt d0.
Proof.
  intros eta mincl bt He Eb.
  assert (EH : exists H, h2_init (op_linop laplace_sl (mkSS 1 0 zero_arr zero_arr zero_arr zero_arr) X (fun _ _ _ _ => 0)) t (near_of mid rad eta) mincl 1 [] [] zero_arr zero_mat = Some H) by (unfold h2_init; rewrite Eb; cbn [bind]; eauto).
  destruct EH as [H EH]. destruct (h2_init_facts _ _ _ _ _ _ _ _ _ _ EH) as [_ [_ [T3 _]]]. rewrite Eb in T3. apply some_eq in T3.
  assert (G : forall l, (forall B, In B l -> In B (leaves bt)) -> exists d0, 0 < d0 /\ forall B m1 r1 m2 r2, In B l -> b_cc B = LowRank -> b (b_c1 B) = Some (m1, r1) -> b (b_c2 B) = Some (m2, r2) -> d0 <= dist3 m1 m2 - r1 - r2).
  { induction l as [|B l IH]; intros Sub; [exists 1; split; [lra|intros ? ? ? ? ? []]|].
    destruct IH as [d1 [D1 Hd1]]; [intros B' HB'; apply Sub; right; exact HB'|]. pose proof (Sub B (or_introl eq_refl)) as HB.
    destruct (b_cc B) eqn:Cc; [exists d1; split; [exact D1|]| |exists d1; split; [exact D1|]].
    - intros B' m1 r1 m2 r2 [<-|HB'] Hl; [congruence|]. apply Hd1; assumption.
    - destruct (lowrank_clusters eta mincl bt B Eb HB Cc) as [c1 [c2 [Ec1 Ec2]]].
      assert (HB' : In B (leaves (h_blocks H))) by (rewrite <- T3; exact HB).
      destruct (block_kernel close corners M t X O U V P b mid rad FS _ eta mincl 1 [] [] zero_arr zero_mat H B c1 c2 EH HB' Cc Ec1 Ec2 He) as [x1 [x2 [B1 [B2 [Hd _]]]]].
      exists (Rmin d1 (dist3 (fst x1) (fst x2) - snd x1 - snd x2)). split; [apply Rmin_glb_lt; assumption|].
      intros B' m1 r1 m2 r2 [<-|Hin] Hl Q1 Q2.
      + rewrite B1 in Q1. rewrite B2 in Q2. apply some_eq in Q1. apply some_eq in Q2. subst x1 x2. apply Rmin_r.
      + eapply Rle_trans; [apply Rmin_l|]. apply (Hd1 B'); assumption.
    - intros B' m1 r1 m2 r2 [<-|HB'] Hl; [congruence|]. apply Hd1; assumption. }
  destruct (G (leaves bt) (fun B HB => HB)) as [d0 [D0 Hd0]]. exists d0. split; [exact D0|exact Hd0].
Qed.
Lemma patch_bound : forall a e, t_store t a = Some e -> (n_patch e < length corners)%nat.
Proof.
  intros a e Ea. destruct (init_tree_ok close corners M (fs_four _ _ _ _ _ _ _ _ _ _ _ _ FS)) as [t' [l [E' [Wt [HP [Al ML]]]]]]. rewrite (fs_tree _ _ _ _ _ _ _ _ _ _ _ _ FS) in E'. apply some_eq in E'. subst t'.
  rewrite (nk_patch _ _ (wf_node t l Wt a e Ea)), <- HP. apply (wf_addr_patch t l a Wt). congruence.
Qed.
(** the forms of the pairs of elements in far-field blocks are computed with the rule xi, w up to delta *)
Definition far_quadrature (op : operator mat) (ss : sspace) (form : node -> node -> mat) (xi w : list R) (bt : btree) (delta : R) : Prop :=
  forall B a1 a2 E1 E2 i j, In B (leaves bt) -> b_cc B = LowRank -> t_store t a1 = Some (e_node E1) -> t_store t a2 = Some (e_node E2) ->
    is_leaf t a1 -> is_leaf t a2 -> under (b_c1 B) a1 -> under (b_c2 B) a2 -> (i < ss_n2 ss)%nat -> (j < ss_n2 ss)%nat ->
    Rabs (form (e_node E1) (e_node E2) i j - integrate1 (op_kern op ss X) E1 E2 (tensor_rule (xi, w)) i j) <= delta.
Lemma whole_matrix : forall op ss form eta mincl n xi w ja jm H A els m a0 d0 delta e k, op_vd op = 1%nat -> (0 < op_nF op)%nat ->
  0 < eta -> (0 <= mincl)%Z -> (0 < n)%nat -> 0 <= k ->
  h2_init (op_linop op ss X form) t (near_of mid rad eta) mincl n xi w ja jm = Some H -> described_by H (length corners) M A ->
  mesh_elements t els -> assembled 1 (ss_n2 ss) (t_elements t) form els m ->
  (forall p, (p < length corners)%nat -> area U V p <= a0) -> far_distance (h_blocks H) d0 -> far_quadrature op ss form xi w (h_blocks H) delta -> 0 <= delta ->
  (forall B a1 a2 E1 E2 c1 c2 i j, In B (leaves (h_blocks H)) -> b_cc B = LowRank ->
    t_store t a1 = Some (e_node E1) -> t_store t a2 = Some (e_node E2) -> is_leaf t a1 -> is_leaf t a2 ->
    t_store t (b_c1 B) = Some c1 -> t_store t (b_c2 B) = Some c2 -> under (b_c1 B) a1 -> under (b_c2 B) a2 -> (i < ss_n2 ss)%nat -> (j < ss_n2 ss)%nat ->
    let N := (length corners * 4 ^ M)%nat in
    exists m1 r1 m2 r2, b (b_c1 B) = Some (m1, r1) /\ b (b_c2 B) = Some (m2, r2) /\ let d := dist3 m1 m2 - r1 - r2 in 0 < d /\
    Rabs (A (row_of (ss_n2 ss) N 0 i (e_node E1)) (row_of (ss_n2 ss) N 0 j (e_node E2)) - integrate1 (op_kern op ss X) E1 E2 (tensor_rule (xi, w)) i j)
    <= ss_h ss * ss_h ss * (area U V (n_patch (e_node E1)) * area U V (n_patch (e_node E2)) / (4 * PI)) * growth n * (k / d ^ e) * (eta / 2) ^ n) ->
  forall i j, (i < ss_n2 ss * t_elements t)%nat -> (j < ss_n2 ss * t_elements t)%nat ->
    Rabs (A i j - m i j) <= ss_h ss * ss_h ss * (a0 * a0 / (4 * PI)) * growth n * (k / d0 ^ e) * (eta / 2) ^ n + delta.
Proof.
  intros op ss form eta mincl n xi w ja jm H A els m a0 d0 delta e k Vd NF He H0 Hn Hk EH DA Me Am Ha [D0 Hd0] HQ Hdel Low.
  pose proof PI_RGT_0 as Pp. pose proof (growth_nonneg n Hn) as HG. assert (HG' : 0 <= growth n) by (unfold growth; cbv zeta; exact HG). clear HG.
  assert (Hh : 0 <= ss_h ss * ss_h ss) by (apply Rle_0_sqr).
  assert (Hp : 0 < (eta / 2) ^ n) by (apply pow_lt; lra). assert (Hde : 0 < d0 ^ e) by (apply pow_lt, D0).
  assert (Hkd : 0 <= k / d0 ^ e) by (apply Rmult_le_pos; [exact Hk|apply Rlt_le, Rinv_0_lt_compat, Hde]).
  assert (Haa : 0 <= a0 * a0 / (4 * PI)) by (apply Rmult_le_pos; [apply Rle_0_sqr|apply Rlt_le, Rinv_0_lt_compat; lra]).
  intros i j Hi Hj.
  apply (C85_entries Pt close corners M t (op_linop op ss X form) (near_of mid rad eta) mincl n xi w ja jm H A els m); try assumption.
  - apply (fs_ne _ _ _ _ _ _ _ _ _ _ _ _ FS). - apply (fs_four _ _ _ _ _ _ _ _ _ _ _ _ FS). - apply (fs_tree _ _ _ _ _ _ _ _ _ _ _ _ FS).
  - apply (root_near close corners M t X O U V P b mid rad FS). - cbn [o_vd op_linop]. lia. - cbn [o_vd op_linop o_p o_form]. rewrite Vd. exact Am.
  - apply Rplus_le_le_0_compat; [|exact Hdel]. apply Rmult_le_pos; [|lra]. apply Rmult_le_pos; [|exact Hkd]. apply Rmult_le_pos; [|exact HG']. apply Rmult_le_pos; assumption.
  - intros B a1 a2 e1 e2 c1 c2 rc cc q1 q2 HB Hl S1 S2 L1 L2 Ec1 Ec2 U1 U2 Hrc Hcc Hq1 Hq2. cbn [o_vd op_linop o_p o_form] in Hrc, Hcc, Hq1, Hq2 |- *. rewrite Vd in Hrc, Hcc.
    assert (rc = 0%nat) by lia. assert (cc = 0%nat) by lia. subst rc cc. rewrite !Nat.mul_0_l, !Nat.add_0_l.
    set (E1 := Build_element a1 e1 (0, 0, 0) 0). set (E2 := Build_element a2 e2 (0, 0, 0) 0).
    destruct (Low B a1 a2 E1 E2 c1 c2 q1 q2 HB Hl S1 S2 L1 L2 Ec1 Ec2 U1 U2 Hq1 Hq2) as [m1 [r1 [m2 [r2 [B1 [B2 [Hd F]]]]]]]. cbn [e_node E1 E2] in F.
    pose proof (HQ B a1 a2 E1 E2 q1 q2 HB Hl S1 S2 L1 L2 U1 U2 Hq1 Hq2) as Q. cbn [e_node E1 E2] in Q. pose proof (Hd0 B m1 r1 m2 r2 HB Hl B1 B2) as Dd. set (d := dist3 m1 m2 - r1 - r2) in *.
    fold (ss_n2 ss). set (x := A _ _) in *. set (y := integrate1 _ _ _ _ _ _) in *. set (z := form _ _ _ _) in *.
    replace (x - z) with ((x - y) + (y - z)) by ring. eapply Rle_trans; [apply Rabs_triang|]. apply Rplus_le_compat; [|rewrite Rabs_minus_sym; exact Q].
    eapply Rle_trans; [exact F|]. apply Rmult_le_compat_r; [lra|].
    assert (A1 : 0 <= area U V (n_patch e1) <= a0) by (split; [apply vnorm_nonneg|apply Ha, (patch_bound a1), S1]).
    assert (A2 : 0 <= area U V (n_patch e2) <= a0) by (split; [apply vnorm_nonneg|apply Ha, (patch_bound a2), S2]).
    assert (G1 : area U V (n_patch e1) * area U V (n_patch e2) / (4 * PI) <= a0 * a0 / (4 * PI)).
    { apply Rmult_le_compat_r; [apply Rlt_le, Rinv_0_lt_compat; lra|]. apply Rmult_le_compat; lra. }
    assert (G0 : 0 <= area U V (n_patch e1) * area U V (n_patch e2) / (4 * PI)) by (apply Rmult_le_pos; [apply Rmult_le_pos; lra|apply Rlt_le, Rinv_0_lt_compat; lra]).
    assert (G2 : k / d ^ e <= k / d0 ^ e).
    { apply Rmult_le_compat_l; [exact Hk|]. apply Rinv_le_contravar; [exact Hde|]. apply pow_incr. lra. }
    assert (G3 : 0 <= k / d ^ e) by (apply Rmult_le_pos; [exact Hk|apply Rlt_le, Rinv_0_lt_compat, pow_lt, Hd]).
    apply Rmult_le_compat; [|exact G3| |exact G2].
    + apply Rmult_le_pos; [|exact HG']. apply Rmult_le_pos; assumption.
    + apply Rmult_le_compat_r; [exact HG'|]. apply Rmult_le_compat_l; assumption.
  - cbn [o_vd op_linop o_p]. rewrite Vd, Nat.mul_1_l. exact Hi.
  - cbn [o_vd op_linop o_p]. rewrite Vd, Nat.mul_1_l. exact Hj.
Qed.
End Whole.
(** ** C85: every entry of the compressed single layer matrix *)
Theorem C85_single_layer : forall (Pt : Type) (close : Pt -> Pt -> bool) corners M t X O U V P b mid rad, far_setting close corners M t X O U V P b mid rad ->
  forall ss form eta mincl n xi w ja jm H A els m a0 d0 delta, 0 < eta -> (0 <= mincl)%Z -> (0 < n)%nat -> ss_M ss = M -> positive_rule xi w ->
  h2_init (op_linop laplace_sl ss X form) t (near_of mid rad eta) mincl n xi w ja jm = Some H -> described_by H (length corners) M A ->
  mesh_elements t els -> assembled 1 (ss_n2 ss) (t_elements t) form els m ->
  (forall p, (p < length corners)%nat -> area U V p <= a0) -> far_distance b (h_blocks H) d0 ->
  far_quadrature t X laplace_sl ss form xi w (h_blocks H) delta -> 0 <= delta ->
  forall i j, (i < ss_n2 ss * t_elements t)%nat -> (j < ss_n2 ss * t_elements t)%nat ->
  Rabs (A i j - m i j) <= ss_h ss * ss_h ss * (a0 * a0 / (4 * PI)) * growth n * (2 / d0) * (eta / 2) ^ n + delta.
Proof.
  intros Pt close corners M t X O U V P b mid rad FS ss form eta mincl n xi w ja jm H A els m a0 d0 delta He H0 Hn HM HR EH DA Me Am Ha Hd HQ Hdel i j Hi Hj.
  assert (G := whole_matrix Pt close corners M t X O U V P b mid rad FS laplace_sl ss form eta mincl n xi w ja jm H A els m a0 d0 delta 1%nat 2 eq_refl ltac:(cbn; lia) He H0 Hn ltac:(lra) EH DA Me Am Ha Hd HQ Hdel).
  rewrite pow_1 in G. apply G; try assumption. intros B a1 a2 E1 E2 c1 c2 i' j' HB Hl S1 S2 L1 L2 Ec1 Ec2 U1 U2 Hi' Hj' N. rewrite ?pow_1.
  destruct (C78_single_layer Pt close corners M t X O U V P b mid rad FS ss form eta mincl n xi w ja jm H A He H0 Hn HM HR EH DA B a1 a2 E1 E2 c1 c2 i' j' HB Hl S1 S2 L1 L2 Ec1 Ec2 U1 U2 Hi' Hj') as [m1 [r1 [m2 [r2 [B1 [B2 [D F]]]]]]].
  exists m1, r1, m2, r2. split; [exact B1|]. split; [exact B2|]. cbv zeta. split; [exact D|]. rewrite pow_1. exact F.
Qed.
Lemma dl_shape : forall y g n d x, y * g * (2 * (INR n + 1) ^ 2 / d ^ 2) * x = y * g * ((2 * (INR n + 1) ^ 2) / d ^ 2) * x. Proof. reflexivity. Qed.
Theorem C85_double_layers : forall (Pt : Type) (close : Pt -> Pt -> bool) corners M t X O U V P b mid rad, far_setting close corners M t X O U V P b mid rad ->
  forall op ss form eta mincl n xi w ja jm H A els m a0 d0 delta, op = laplace_dl \/ op = laplace_adl -> 0 < eta -> (0 <= mincl)%Z -> (0 < n)%nat -> ss_M ss = M -> positive_rule xi w ->
  h2_init (op_linop op ss X form) t (near_of mid rad eta) mincl n xi w ja jm = Some H -> described_by H (length corners) M A ->
  mesh_elements t els -> assembled 1 (ss_n2 ss) (t_elements t) form els m ->
  (forall p, (p < length corners)%nat -> area U V p <= a0) -> far_distance b (h_blocks H) d0 ->
  far_quadrature t X op ss form xi w (h_blocks H) delta -> 0 <= delta ->
  forall i j, (i < ss_n2 ss * t_elements t)%nat -> (j < ss_n2 ss * t_elements t)%nat ->
  Rabs (A i j - m i j) <= ss_h ss * ss_h ss * (a0 * a0 / (4 * PI)) * growth n * (2 * (INR n + 1) ^ 2 / d0 ^ 2) * (eta / 2) ^ n + delta.
Proof.
  intros Pt close corners M t X O U V P b mid rad FS op ss form eta mincl n xi w ja jm H A els m a0 d0 delta Hop He H0 Hn HM HR EH DA Me Am Ha Hd HQ Hdel i j Hi Hj.
  assert (Hk : 0 <= 2 * (INR n + 1) ^ 2) by (pose proof (pow2_ge_0 (INR n + 1)); lra).
  apply (whole_matrix Pt close corners M t X O U V P b mid rad FS op ss form eta mincl n xi w ja jm H A els m a0 d0 delta 2%nat (2 * (INR n + 1) ^ 2)); try assumption.
  - destruct Hop as [ -> | -> ]; reflexivity. - destruct Hop as [ -> | -> ]; cbn; lia.
  - intros B a1 a2 E1 E2 c1 c2 i' j' HB Hl S1 S2 L1 L2 Ec1 Ec2 U1 U2 Hi' Hj' N. destruct Hop as [ -> | -> ].
    + exact (C78_double_layer Pt close corners M t X O U V P b mid rad FS ss form eta mincl n xi w ja jm H A He H0 Hn HM HR EH DA B a1 a2 E1 E2 c1 c2 i' j' HB Hl S1 S2 L1 L2 Ec1 Ec2 U1 U2 Hi' Hj').
    + exact (C78_adjoint_double_layer Pt close corners M t X O U V P b mid rad FS ss form eta mincl n xi w ja jm H A He H0 Hn HM HR EH DA B a1 a2 E1 E2 c1 c2 i' j' HB Hl S1 S2 L1 L2 Ec1 Ec2 U1 U2 Hi' Hj').
Qed.
(** a distance as required exists: it depends on the block tree only, not on the number of interpolation points *)
Theorem C85_distance : forall (Pt : Type) (close : Pt -> Pt -> bool) corners M t X O U V P b mid rad, far_setting close corners M t X O U V P b mid rad ->
  forall eta mincl bt, 0 < eta -> block_tree t (near_of mid rad eta) mincl = Some bt -> exists d0, far_distance b bt d0.
Proof.
  intros Pt close corners M t X O U V P b mid rad FS eta mincl bt He Eb.
  exact (distance_exists Pt close corners M t X O U V P b mid rad FS eta mincl bt He Eb).
Qed.
Lemma geometric : forall q n, 0 <= q < 1 -> INR n * q ^ n <= / (1 - q).
Proof.
  intros q n Hq. assert (G : INR n * q ^ n * (1 - q) <= 1 - q ^ n).
  { induction n as [|n IH]; [cbn; lra|]. rewrite S_INR. cbn [pow]. assert (P0 : 0 <= q ^ n) by (apply pow_le; lra). assert (P1 : q ^ n <= 1) by (rewrite <- (pow1 n); apply pow_incr; lra).
    assert (IH' : q * (INR n * q ^ n * (1 - q)) <= q * (1 - q ^ n)) by (apply Rmult_le_compat_l; lra).
    assert (K : q * q ^ n * (1 - q) <= 1 - q) by (rewrite <- (Rmult_1_l (1 - q)) at 2; apply Rmult_le_compat_r; [lra|nra]). nra. }
  assert (P0 : 0 <= q ^ n) by (apply pow_le; lra). apply Rmult_le_reg_r with (1 - q); [lra|]. rewrite Rinv_l by lra. lra.
Qed.
(** the powers of a number below 1 beat the growth of the interpolation error *)
Lemma exponential : forall r, 0 <= r < 1 -> exists c q, 0 <= c /\ 0 <= q < 1 /\ forall n, (0 < n)%nat -> growth n * (INR n + 1) ^ 2 * r ^ n <= c * q ^ n.
Proof.
  intros r Hr. set (s := sqrt (sqrt (sqrt r))).
  assert (Q : forall x, 0 <= x < 1 -> 0 <= sqrt x < 1 /\ sqrt x * sqrt x = x).
  { intros x Hx. split; [split; [apply sqrt_pos|rewrite <- sqrt_1; apply sqrt_lt_1; lra]|apply sqrt_sqrt; lra]. }
  destruct (Q r Hr) as [Q1 E1]. destruct (Q _ Q1) as [Q2 E2]. destruct (Q _ Q2) as [Q3 E3]. fold s in Q3, E3.
  assert (Er : r = s ^ 8) by (rewrite <- E1, <- E2, <- E3; ring).
  exists (128 * (/ (1 - s)) ^ 5), (s ^ 3). assert (Hi : 0 < / (1 - s)) by (apply Rinv_0_lt_compat; lra). split; [apply Rmult_le_pos; [lra|apply pow_le; lra]|]. 
  split. { split; [apply pow_le; lra|]. assert (s ^ 3 <= s ^ 1) by (apply Rle_pow_le || (cbn; nra)). lra. }
  intros n Hn. assert (N1 : 1 <= INR n) by (change 1 with (INR 1); apply le_INR; lia).
  assert (G : growth n * (INR n + 1) ^ 2 <= 128 * INR n ^ 5).
  { set (x := INR n) in *. assert (G1 : growth n <= 32 * x ^ 3).
    { unfold growth. fold x. cbv zeta. assert (L1 : 1 <= 2 * x - 1) by lra. set (L := 2 * x - 1) in *. assert (L2 : L * 1 <= L * L) by (apply Rmult_le_compat_l; lra). assert (L3 : L * L * 1 <= L * L * L) by (apply Rmult_le_compat_l; [nra|lra]).
      assert (L ^ 3 <= (2 * x) ^ 3) by (apply pow_incr; unfold L; lra). replace (32 * x ^ 3) with (4 * (2 * x) ^ 3) by ring. cbn [pow] in *. lra. }
    assert (G2 : (x + 1) ^ 2 <= 4 * x ^ 2) by (replace (4 * x ^ 2) with ((2 * x) ^ 2) by ring; apply pow_incr; lra).
    replace (128 * x ^ 5) with (32 * x ^ 3 * (4 * x ^ 2)) by ring. apply Rmult_le_compat; [apply growth_nonneg, Hn|apply pow2_ge_0|exact G1|exact G2]. }
  apply Rle_trans with (128 * INR n ^ 5 * r ^ n); [apply Rmult_le_compat_r; [apply pow_le; lra|exact G]|].
  rewrite Er, <- pow_mult. replace (8 * n)%nat with (n * 5 + 3 * n)%nat by lia. rewrite pow_add, pow_mult, (pow_mult s 3).
  replace (128 * INR n ^ 5 * ((s ^ n) ^ 5 * (s ^ 3) ^ n)) with (128 * ((INR n * s ^ n) ^ 5) * (s ^ 3) ^ n) by (rewrite Rpow_mult_distr; ring).
  apply Rmult_le_compat_r; [apply pow_le, pow_le; lra|]. apply Rmult_le_compat_l; [lra|]. apply pow_incr. split; [apply Rmult_le_pos; [lra|apply pow_le; lra]|apply geometric, Q3].
Qed.
(** ** convergence: with the default admissibility, or any eta below 2, the compressed matrices converge exponentially to the dense matrix
    (up to the quadrature error delta of the far field) as the number n of interpolation points per direction grows; c and q depend only on the mesh and eta *)
Theorem C85_converges : forall (Pt : Type) (close : Pt -> Pt -> bool) corners M t X O U V P b mid rad, far_setting close corners M t X O U V P b mid rad ->
  forall op ss form eta mincl els m, op = laplace_sl \/ op = laplace_dl \/ op = laplace_adl -> 0 < eta < 2 -> (0 <= mincl)%Z -> ss_M ss = M ->
  mesh_elements t els -> assembled 1 (ss_n2 ss) (t_elements t) form els m ->
  exists c q, 0 <= c /\ 0 <= q < 1 /\ forall n xi w ja jm H A delta, (0 < n)%nat -> positive_rule xi w -> 0 <= delta ->
    h2_init (op_linop op ss X form) t (near_of mid rad eta) mincl n xi w ja jm = Some H -> described_by H (length corners) M A ->
    far_quadrature t X op ss form xi w (h_blocks H) delta ->
    forall i j, (i < ss_n2 ss * t_elements t)%nat -> (j < ss_n2 ss * t_elements t)%nat -> Rabs (A i j - m i j) <= c * q ^ n + delta.
Proof.
  intros Pt close corners M t X O U V P b mid rad FS op ss form eta mincl els m Hop He H0 HM Me Am.
  destruct (reachable_wf t (fs_reach close corners M t X O U V P b mid rad FS)) as [[l Wt] HP].
  destruct (block_tree_ok t l (near_of mid rad eta) mincl Wt HP) as [bt [Eb _]].
  destruct (C85_distance Pt close corners M t X O U V P b mid rad FS eta mincl bt (proj1 He) Eb) as [d0 Hd0].
  assert (AX : exists a0, forall p, (p < length corners)%nat -> area U V p <= a0).
  { induction (length corners) as [|k [a Ha]]; [exists 0; intros; lia|]. exists (Rmax a (area U V k)). intros p Hp. destruct (Nat.eq_dec p k) as [->|Ne]; [apply Rmax_r|]. eapply Rle_trans; [apply Ha; lia|apply Rmax_l]. }
  destruct AX as [a0 Ha]. destruct (exponential (eta / 2) ltac:(lra)) as [c [q [Hc [Hq HE]]]].
  set (f := ss_h ss * ss_h ss * (a0 * a0 / (4 * PI)) * 2). pose proof (proj1 Hd0) as D0. pose proof PI_RGT_0 as Pp.
  assert (Hf : 0 <= f). { unfold f. apply Rmult_le_pos; [|lra]. apply Rmult_le_pos; [apply Rle_0_sqr|]. apply Rmult_le_pos; [apply Rle_0_sqr|apply Rlt_le, Rinv_0_lt_compat; lra]. }
  assert (D1 : 0 < / d0) by (apply Rinv_0_lt_compat, D0). assert (D2 : 0 < / d0 ^ 2) by (apply Rinv_0_lt_compat, pow_lt, D0).
  exists (f * (/ d0 + / d0 ^ 2) * c), q. split; [apply Rmult_le_pos; [apply Rmult_le_pos; lra|exact Hc]|]. split; [exact Hq|].
  intros n xi w ja jm H A delta Hn HR Hdel EH DA HQ i j Hi Hj.
  destruct (h2_init_facts _ _ _ _ _ _ _ _ _ _ EH) as [_ [_ [T3 _]]]. rewrite Eb in T3. apply some_eq in T3. rewrite T3 in Hd0.
  pose proof (HE n Hn) as En. pose proof (growth_nonneg n Hn) as HG. change (0 <= growth n) in HG. assert (Pn : 0 <= (eta / 2) ^ n) by (apply pow_le; lra).
  assert (Sq : 1 <= (INR n + 1) ^ 2) by (pose proof (pos_INR n); replace 1 with (1 ^ 2) at 1 by ring; apply pow_incr; lra).
  assert (En1 : growth n * (eta / 2) ^ n <= c * q ^ n).
  { eapply Rle_trans; [|exact En]. apply Rmult_le_compat_r; [exact Pn|]. rewrite <- (Rmult_1_r (growth n)) at 1. apply Rmult_le_compat_l; assumption. }
  assert (Cq : 0 <= c * q ^ n) by (apply Rmult_le_pos; [exact Hc|apply pow_le; lra]).
  assert (Hs : op = laplace_sl \/ (op = laplace_dl \/ op = laplace_adl)) by tauto. destruct Hs as [ -> | Hs ].
  - eapply Rle_trans; [apply (C85_single_layer Pt close corners M t X O U V P b mid rad FS ss form eta mincl n xi w ja jm H A els m a0 d0 delta); try assumption; apply He|].
    apply Rplus_le_compat_r. replace (_ * growth n * (2 / d0) * (eta / 2) ^ n) with (f * / d0 * (growth n * (eta / 2) ^ n)) by (unfold f; field; split; lra).
    replace (f * (/ d0 + / d0 ^ 2) * c * q ^ n) with (f * / d0 * (c * q ^ n) + f * / d0 ^ 2 * (c * q ^ n)) by ring.
    assert (f * / d0 * (growth n * (eta / 2) ^ n) <= f * / d0 * (c * q ^ n)) by (apply Rmult_le_compat_l; [apply Rmult_le_pos; lra|exact En1]).
    assert (0 <= f * / d0 ^ 2 * (c * q ^ n)) by (apply Rmult_le_pos; [apply Rmult_le_pos; lra|exact Cq]). lra.
  - eapply Rle_trans; [apply (C85_double_layers Pt close corners M t X O U V P b mid rad FS op ss form eta mincl n xi w ja jm H A els m a0 d0 delta Hs); try assumption; apply He|].
    apply Rplus_le_compat_r. replace (_ * growth n * (2 * (INR n + 1) ^ 2 / d0 ^ 2) * (eta / 2) ^ n) with (f * / d0 ^ 2 * (growth n * (INR n + 1) ^ 2 * (eta / 2) ^ n)) by (unfold f; field; split; lra).
    replace (f * (/ d0 + / d0 ^ 2) * c * q ^ n) with (f * / d0 * (c * q ^ n) + f * / d0 ^ 2 * (c * q ^ n)) by ring.
    assert (f * / d0 ^ 2 * (growth n * (INR n + 1) ^ 2 * (eta / 2) ^ n) <= f * / d0 ^ 2 * (c * q ^ n)) by (apply Rmult_le_compat_l; [apply Rmult_le_pos; lra|exact En]).
    assert (0 <= f * / d0 * (c * q ^ n)) by (apply Rmult_le_pos; [apply Rmult_le_pos; lra|exact Cq]). lra.
Qed.
(** ** the hypotheses hold: two sheets far from each other, the far field computed with the rule of the moments, so delta = 0;
    the block of the two sheets is compressed *)
Definition exact_form (op : operator mat) (ss : sspace) (X : surface) (xi w : list R) (e1 e2 : node) : mat :=
  integrate1 (op_kern op ss X) (Build_element [] e1 (0, 0, 0) 0) (Build_element [] e2 (0, 0, 0) 0) (tensor_rule (xi, w)).
Lemma exact_quadrature : forall t X op ss xi w bt, far_quadrature t X op ss (exact_form op ss X xi w) xi w bt 0.
Proof.
  intros t X op ss xi w bt B a1 a2 E1 E2 i j _ _ _ _ _ _ _ _ _ _. replace (exact_form op ss X xi w (e_node E1) (e_node E2) i j) with (integrate1 (op_kern op ss X) E1 E2 (tensor_rule (xi, w)) i j) by reflexivity.
  rewrite Rminus_eq_0, Rabs_R0. lra.
Qed.
Example C85_example : forall op, op = laplace_sl \/ op = laplace_dl \/ op = laplace_adl -> exists t P b mid rad, far_setting Nat.eqb far_corners 0 t far_sheets far_O far_U far_V P b mid rad /\
  exists els m, let ss := mkSS 1 0 zero_arr zero_arr zero_arr zero_arr in let form := exact_form op ss far_sheets [/ 2] [1] in
  mesh_elements t els /\ assembled 1 (ss_n2 ss) (t_elements t) form els m /\ positive_rule [/ 2] [1] /\ (0 < ss_n2 ss * t_elements t)%nat /\
  forall n, (0 < n)%nat -> exists H A B, h2_init (op_linop op ss far_sheets form) t (near_of mid rad 1) 0 n [/ 2] [1] zero_arr zero_mat = Some H /\
    described_by H 2 0 A /\ In B (leaves (h_blocks H)) /\ b_cc B = LowRank.
Proof.
  intros op Hop. destruct C78_example as [t [P [b [mid [rad [FS [H0 [A0 [B [_ [_ [_ [_ [EH0 [_ [HR [HB [Cc _]]]]]]]]]]]]]]]]]].
  exists t, P, b, mid, rad. split; [exact FS|].
  destruct (h2_init_facts _ _ _ _ _ _ _ _ _ _ EH0) as [_ [_ [Ebt _]]]. set (sse := mkSS 1 0 zero_arr zero_arr zero_arr zero_arr).
  destruct (reachable_wf t (fs_reach _ _ _ _ _ _ _ _ _ _ _ _ FS)) as [[l Wt] HP]. pose proof (fs_four _ _ _ _ _ _ _ _ _ _ _ _ FS) as H4. pose proof (fs_tree _ _ _ _ _ _ _ _ _ _ _ _ FS) as Et.
  assert (ME : exists els, mesh_elements t els).
  { assert (Q : exists els, map_opt (t_store t) l = Some els).
    { assert (G : forall a, In a l -> t_store t a <> None) by (intros a Ha; apply (wf_leaf t l Wt) in Ha; destruct Ha as [n0 [En _]]; congruence).
      clear - G. induction l as [|a r IH]; [exists []; reflexivity|]. destruct IH as [els Ee]; [intros; apply G; right; assumption|].
      cbn [map_opt]. destruct (t_store t a) as [e|] eqn:Ea; [|exfalso; apply (G a); [left; reflexivity|exact Ea]]. cbn [bind]. rewrite Ee. cbn [bind]. eauto. }
    destruct Q as [els Ee]. exists els, l. split; [apply (traverse_ok t l Wt HP)|exact Ee]. }
  destruct ME as [els Me]. destruct (C33_assembly_exists 1 (ss_n2 sse) (t_elements t) (exact_form op sse far_sheets [/ 2] [1]) els) as [m Am].
  exists els, m. cbv zeta. fold sse. split; [exact Me|]. split; [exact Am|]. split; [exact HR|].
  split. { destruct (uniform_ids Nat.eqb far_corners 0 t els ltac:(intro K; discriminate K) H4 Et Me) as [_ [-> _]]. cbn. lia. }
  intros n Hn.
  assert (EH : exists H, h2_init (op_linop op sse far_sheets (exact_form op sse far_sheets [/ 2] [1])) t (near_of mid rad 1) 0 n [/ 2] [1] zero_arr zero_mat = Some H) by (unfold h2_init; rewrite Ebt; cbn [bind]; eauto).
  destruct EH as [H EH].
  assert (SU : h2_of_mesh H 2 0).
  { apply (C54_setup nat Nat.eqb far_corners 0 t (op_linop op sse far_sheets (exact_form op sse far_sheets [/ 2] [1])) (near_of mid rad 1) 0 n [/ 2] [1] zero_arr zero_mat H).
    - intro K; discriminate K. - exact H4. - exact Et. - apply (root_near _ _ _ _ _ _ _ _ _ _ _ _ FS). - lia. - lia.
    - destruct Hop as [ -> | [ -> | -> ] ]; cbn; lia. - destruct Hop as [ -> | [ -> | -> ] ]; cbn; lia. - exact EH. }
  destruct (C29_matrix_exists H 2 0 SU) as [A DA]. destruct (h2_init_facts _ _ _ _ _ _ _ _ _ _ EH) as [_ [_ [T3 _]]]. rewrite Ebt in T3. apply some_eq in T3.
  exists H, A, B. split; [exact EH|]. split; [exact DA|]. split; [rewrite <- T3; exact HB|exact Cc].
Qed.

(* BEGIN ASSUMPTIONS *)
Print Assumptions C85_entries.
Print Assumptions C85_product.
Print Assumptions C85_definite.
Print Assumptions C85_unique.
Print Assumptions C85_single_layer.
Print Assumptions C85_double_layers.
Print Assumptions C85_distance.
Print Assumptions C85_converges.
