(** C31, C32, C53, C54: interpolation, moments and the entries of the H2 matrix. *)
From Coq Require Import List Arith Bool Lia ZArith Reals Lra QArith Qreals.
From Verif Require Import ModelBase ModelBernstein RSum ModelTree ModelBlock ModelH2 ModelInterp ModelH2Init ModelAssembly SpecBernstein SpecTree SpecBlock SpecInterp SpecH2
  ProofBernstein ProofTree ProofTreeWF ProofTreeHist ProofTreeGeo ProofTreeLook ProofPoints ProofBlock ProofAssembly ProofH2 ProofH2Prod ProofInterp ProofMoment ProofH2Entry
  PropTree PropBlock PropH2 PropAssembly.
Import ListNotations.
Local Close Scope Q_scope.
Local Open Scope nat_scope.

(** ** C31 *)
(** the i-th column of computeLagrangePolynomials, evaluated by evaluatePolynomial, is the i-th Lagrange polynomial *)
Theorem C31_lagrange : forall n x i t, distinct n x -> i < n ->
  eval_newton n x (column (lagrange_coefs n x) i) t = lagrange n x i t.
Proof. intros. apply newton_lagrange; assumption. Qed.
Theorem C31_cardinal : forall n x i j, distinct n x -> i < n -> j < n ->
  eval_newton n x (column (lagrange_coefs n x) i) (x j) = if j =? i then 1%R else 0%R.
Proof. intros. rewrite newton_lagrange by assumption. apply lagrange_node; assumption. Qed.
(** interpolation reproduces every polynomial of degree less than n *)
Theorem C31_reproduces_polynomials : forall n x p t, distinct n x -> polynomial n p ->
  rsum (fun i => p (x i) * eval_newton n x (column (lagrange_coefs n x) i) t)%R n = p t.
Proof.
  intros n x p t D Hp. rewrite <- (interpolation_exact n x p D Hp t). unfold interpolant. apply rsum_ext. intros i Hi.
  rewrite newton_lagrange by assumption. reflexivity.
Qed.
(** the points used by the code qualify: they increase strictly inside the unit interval *)
Theorem C31_chebychev_points : forall n, distinct n (chebychev n) /\
  (forall i, i < n -> (0 < chebychev n i < 1)%R) /\ (forall i j, i < j -> j < n -> (chebychev n i < chebychev n j)%R).
Proof. intros n. split; [apply cheb_distinct|]. split; [intros; apply cheb_range; assumption|intros; apply cheb_lt; assumption]. Qed.

(** ** C32 *)
(** for every cluster of a uniformly refined mesh, the k-th element of the cluster (in the order of its iterator)
    lies index_s(k) element widths to the right of and index_t(k) above the lower left corner of the cluster *)
Theorem C32_positions : forall (Pt : Type) (close : Pt -> Pt -> bool) corners M t a c r,
  corners <> [] -> (forall q, In q corners -> length q = 4) -> init_tree close corners M = Some t ->
  t_store t a = Some c -> n_level c + r = M ->
  exists m, cluster_elements t a = Some m /\ length m = 4 ^ r /\
  forall k, k < 4 ^ r -> exists e, t_store t (nth k m []) = Some e /\
    (fst (n_llc e) == fst (n_llc c) + inject_Z (Z.of_nat (fst (index_st r) k)) * get_h e)%Q /\
    (snd (n_llc e) == snd (n_llc c) + inject_Z (Z.of_nat (snd (index_st r) k)) * get_h e)%Q.
Proof.
  intros Pt close corners M t a c r Hc H4 E Ec Hr.
  destruct (init_tree_ok close corners M H4) as [t' [l [E' [W [P [A ML]]]]]]. rewrite E in E'. injection E' as <-.
  assert (HP : 0 < t_patches t) by (rewrite P; destruct corners; [congruence|simpl; lia]).
  assert (Ha : t_store t a <> None) by congruence.
  destruct (cluster_split t l a W Ha HP) as [l1 [m [l2 [El [Em [_ [Hm Ct]]]]]]].
  pose proof (wf_node t l W a c Ec) as Kc. pose proof (nk_level _ _ Kc) as Lc.
  assert (Hlev : forall b, In b m -> pos_level b = M) by (intros b Hb; apply A, Hm, Hb).
  assert (HS : forall x, In x (map idlev m) -> snd x = M).
  { intros x Hx. apply in_map_iff in Hx. destruct Hx as [b [<- Hb]]. simpl. auto. }
  rewrite ML in Ct. destruct (contiguous_uniform M (map idlev m) _ _ HS Ct) as [CL CN].
  unfold lo, hi in CL, CN. rewrite map_length in CL, CN. replace (M - pos_level a) with r in CL, CN by lia.
  exists m. split; [assumption|]. split; [lia|]. intros k Hk.
  assert (Lm : length m = 4 ^ r) by lia.
  set (b := nth k m []). assert (Hb : In b m) by (apply nth_In; lia).
  destruct (proj1 (Hm b) Hb) as [[e [Ee _]] [x Ex]]. exists e. split; [assumption|].
  pose proof (wf_node t l W b e Ee) as Ke. pose proof (wf_vaddr t l b W ltac:(congruence)) as Vb.
  assert (Hne : a <> []) by (eapply wf_nonroot; eauto). rewrite Ex in Vb.
  destruct (pos_local a x Hne Vb) as [k' [Hk' [Ei [Epx [Epy Epl]]]]]. rewrite <- Ex in Ei, Epx, Epy, Epl.
  assert (Lx : length x = r) by (specialize (Hlev b Hb); lia). rewrite Lx in *.
  assert (Ek : k' = k).
  { specialize (CN k ltac:(lia)). rewrite map_map in CN. rewrite (nth_indep _ 0 (pos_id [])) in CN by (rewrite map_length; lia).
    change (nth k (map pos_id m) (pos_id []) = pos_id a * 4 ^ r + k) in CN. rewrite map_nth in CN. fold b in CN. lia. }
  rewrite Ek in *. destruct (index_st r) as [s0 t0] eqn:Es. destruct (index_ok r s0 t0 Es k Hk) as [Es1 Es2]. cbn [fst snd]. rewrite Es1, Es2.
  destruct (nk_llc _ _ Ke) as [F1 F2]. destruct (nk_llc _ _ Kc) as [G1 G2].
  assert (Hh : (get_h e == 1 / pow2Q M)%Q) by (unfold get_h; rewrite (nk_level _ _ Ke), (Hlev b Hb); reflexivity).
  rewrite F1, F2, G1, G2, Hh, (Hlev b Hb), Epx, Epy.
  assert (PM : (pow2Q M == pow2Q (pos_level a) * inject_Z (Z.of_nat (2 ^ r)))%Q).
  { unfold pow2Q. rewrite <- inject_Z_mult, <- Nat2Z.inj_mul, <- Nat.pow_add_r. replace (pos_level a + r) with M by lia. reflexivity. }
  rewrite PM, !Nat2Z.inj_add, !Nat2Z.inj_mul, !inject_Z_plus, !inject_Z_mult.
  assert (Hz : ~ (inject_Z (Z.of_nat (2 ^ r)) == 0)%Q) by apply (pow2Q_neq r). pose proof (pow2Q_neq (pos_level a)).
  split; field; auto.
Qed.

(** ** C53: nestedness *)
Lemma rsum_prod2 : forall c d f g n, (c * rsum f n * (d * rsum g n) = rsum (fun i => rsum (fun j => c * f i * (d * g j)) n) n)%R.
Proof.
  intros c d f g n. rewrite <- (rsum_scal c), <- rsum_scal_r. apply rsum_ext. intros i _. rewrite <- (rsum_scal d), <- rsum_scal. reflexivity.
Qed.
(** the moments of the functions of a cluster with cluster_refinements r + 1 are the transferred moments of its sons:
    column q of son s (the 4^r s + q-th element), function (a, b) *)
Theorem C53_transfer_exact : forall k1 k2 p cl r n xi w ja jm jm' J s q a b,
  0 < n -> J < n * n -> s < 4 -> q < 4 ^ r -> a <= p -> b <= p ->
  let mom cl r := moment2D p r n (moment1D k1 ja p cl r n (chebychev n) xi w) (moment1D k2 ja p cl r n (chebychev n) xi w) jm in
  mom cl (S r) J ((p + 1) * (p + 1) * (s * 4 ^ r + q) + a * (p + 1) + b) =
  rsum (fun I => transfer_matrices n (chebychev n) jm jm' J (s * (n * n) + I)%nat *
                 mom (S cl) r I ((p + 1) * (p + 1) * q + a * (p + 1) + b)%nat)%R (n * n).
Proof.
  intros k1 k2 p cl r n xi w ja jm jm' J s q a b Hn HJ Hs Hq Ha Hb mom. pose proof (cheb_distinct n) as D.
  set (i := J / n). set (j := J mod n). assert (EJ : J = i * n + j) by (unfold i, j; rewrite Nat.mul_comm; apply Nat.div_mod; lia).
  assert (Hi : i < n) by (apply Nat.div_lt_upper_bound; lia). assert (Hj : j < n) by (apply Nat.mod_upper_bound; lia).
  rewrite EJ. unfold mom. rewrite moment2D_entry by (try assumption; rewrite Nat.pow_succ_r'; nia).
  rewrite (Nat.mul_comm s). destruct (local_split r s q Hs Hq) as [-> ->].
  rewrite !moment1D_entry, !mom_int_shift, !scale_shift by assumption. rewrite rsum_flatten.
  rewrite rsum_prod2. apply rsum_ext. intros i' Hi'. apply rsum_ext. intros j' Hj'.
  rewrite transfer_entry, moment2D_entry, !moment1D_entry by assumption. ring.
Qed.
(** block s of the transfer matrix holds the values of the Lagrange polynomials of the father at the points of son s *)
Theorem C53_transfer_values : forall n jm jm' s i ii j jj, s < 4 -> i < n -> ii < n -> j < n -> jj < n ->
  let x := chebychev n in
  transfer_matrices n x jm jm' (j * n + jj) (s * (n * n) + (i * n + ii)) =
  (lagrange n x j ((x i + INR (quad_x s)) / 2) * lagrange n x jj ((x ii + INR (quad_y s)) / 2))%R.
Proof.
  intros n jm jm' s i ii j jj Hs Hi Hii Hj Hjj x. unfold x. rewrite transfer_entry by (try assumption; apply cheb_distinct).
  f_equal; f_equal; lra.
Qed.

(** ** C54: entries of the H2 matrix *)
Lemma h2_init_facts : forall o t near mincl n xi w ja jm H, h2_init o t near mincl n xi w ja jm = Some H ->
  h_tree H = t /\ h_mincl H = mincl /\ block_tree t near mincl = Some (h_blocks H) /\ h_k H = (o_p o + 1) * (o_p o + 1) /\
  h_np H = n * n /\ h_nF H = o_nF o /\ h_vd H = o_vd o.
Proof.
  intros o t near mincl n xi w ja jm H E. unfold h2_init in E. apply bind_some in E. destruct E as [bt [Eb E]]. cbv zeta in E. injection E as <-.
  cbn [h_tree h_mincl h_blocks h_k h_np h_nF h_vd]. auto 10.
Qed.
(** the matrix built by init_H2Matrix satisfies the hypotheses of C28 and C29 *)
Theorem C54_setup : forall (Pt : Type) (close : Pt -> Pt -> bool) corners M t o near mincl n xi w ja jm H,
  corners <> [] -> (forall c, In c corners -> length c = 4) -> init_tree close corners M = Some t ->
  near [] [] = true -> (0 <= mincl)%Z -> 0 < n -> 0 < o_nF o -> 0 < o_vd o ->
  h2_init o t near mincl n xi w ja jm = Some H -> h2_of_mesh H (length corners) M.
Proof.
  intros Pt close corners M t o near mincl n xi w ja jm H Hc H4 E Hr H0 Hn HF Hv EH.
  destruct (h2_init_facts _ _ _ _ _ _ _ _ _ _ EH) as [T1 [T2 [T3 [T4 [T5 [T6 T7]]]]]].
  exists Pt, close, corners, near. rewrite T1, T2, T4, T5, T6, T7. split; [reflexivity|]. split; [destruct corners; [congruence|simpl; lia]|].
  split; [assumption|]. split; [assumption|]. split; [assumption|]. split; [assumption|]. split; [assumption|]. split; [nia|]. split; [nia|]. split; [assumption|].
  split; [assumption|]. destruct (init_tree_ok close corners M H4) as [t' [l [E' [W [P [A ML]]]]]]. rewrite E in E'. injection E' as <-.
  unfold h2_init in EH. apply bind_some in EH. destruct EH as [bt [_ EH]]. cbv zeta in EH. injection EH as <-. cbn [h_mc]. rewrite ML.
  replace (Nat.min (Z.to_nat mincl) M) with (if (Z.of_nat M <? mincl)%Z then M else Z.to_nat mincl).
  - set (cr := if (Z.of_nat M <? mincl)%Z then M else Z.to_nat mincl). apply mc_val.
  - destruct (Z.ltb_spec (Z.of_nat M) mincl); lia.
Qed.

Lemma element_index : forall t l M b, WF t l -> all_level t M -> is_leaf t b -> nth_error l (pos_id b) = Some b.
Proof.
  intros t l M b W A Hb. apply (wf_leaf t l W) in Hb. destruct (In_nth_error l b Hb) as [i Hi].
  assert (Li : i < length l) by (apply nth_error_Some; congruence). destruct (uniform_list t l M W A) as [_ HN].
  destruct (HN i Li) as [Ei _]. rewrite (nth_error_nth l i [] Hi) in Ei. rewrite Ei. assumption.
Qed.

(** the point of the reference square of cluster c that is the point s of the element e:
    both have the same parameter  llc + h s  on the patch *)
Definition same_parameter (c e : node) (s s' : R * R) : Prop :=
  (Q2R (fst (n_llc c)) + Q2R (get_h c) * fst s' = Q2R (fst (n_llc e)) + Q2R (get_h e) * fst s /\
   Q2R (snd (n_llc c)) + Q2R (get_h c) * snd s' = Q2R (snd (n_llc e)) + Q2R (get_h e) * snd s)%R.
(** the factors of the one-dimensional functions on an element of width h *)
Definition norm_factor (kind : moment_kind) (h : R) : R := match kind with Plain => sqrt h | Deriv => / sqrt h end.

Lemma mul_le_from : forall k q i m, m < k -> k * q <= k * i + m -> q <= i.
Proof. intros k q i m Hm Hq. destruct (le_lt_dec q i) as [L|L]; [assumption|]. exfalso. nia. Qed.
Lemma idx_lt : forall k i m N, i < N -> m < k -> k * i + m < k * N.
Proof. intros k i m N Hi Hm. nia. Qed.
Section Entries.
Variables (Pt : Type) (close : Pt -> Pt -> bool) (corners : list (list Pt)) (M : nat) (t : tree) (o : linop)
  (near : addr -> addr -> bool) (mincl : Z) (n : nat) (xi w : list R) (ja : arr) (jm : mat) (H : h2) (A : mat).
Hypothesis Hc : corners <> []. Hypothesis H4 : forall c, In c corners -> length c = 4.
Hypothesis E : init_tree close corners M = Some t.
Hypothesis Hr : near [] [] = true. Hypothesis H0 : (0 <= mincl)%Z.
Hypothesis Hn : 0 < n. Hypothesis HF : 0 < o_nF o. Hypothesis Hv : 0 < o_vd o.
Hypothesis EH : h2_init o t near mincl n xi w ja jm = Some H.
Hypothesis DA : described_by H (length corners) M A.
Let p := o_p o.
Let k := (p + 1) * (p + 1).
Let D := k * (length corners * 4 ^ M).

Lemma entry_in_block : forall B a1 a2 e1 e2 rc cc m1 m2, In B (leaves (h_blocks H)) ->
  t_store t a1 = Some e1 -> t_store t a2 = Some e2 -> is_leaf t a1 -> is_leaf t a2 ->
  under (b_c1 B) a1 -> under (b_c2 B) a2 -> rc < o_vd o -> cc < o_vd o -> m1 < k -> m2 < k ->
  exists l rs cs, WF t l /\ 0 < t_patches t /\ all_level t M /\ t_maxlevel t = M /\ cl t (b_c1 B) /\ cl t (b_c2 B) /\
    length (b_c1 B) = length (b_c2 B) /\ b_cc B = compare_cluster t near mincl (b_c1 B) (b_c2 B) /\
    start_index t k (b_c1 B) = Some rs /\ start_index t k (b_c2 B) = Some cs /\
    nth_error l (pos_id a1) = Some a1 /\ nth_error l (pos_id a2) = Some a2 /\
    rs <= k * pos_id a1 /\ cs <= k * pos_id a2 /\
    A (rc * D + k * n_id e1 + m1) (cc * D + k * n_id e2 + m2) =
    block_entry H rc cc B (k * pos_id a1 + m1 - rs) (k * pos_id a2 + m2 - cs).
Proof.
  clear Hn HF Hv Hr H0. intros B a1 a2 e1 e2 rc cc m1 m2 HB E1 E2 L1 L2 U1 U2 Hrc Hcc Hm1 Hm2.
  destruct (init_tree_ok close corners M H4) as [t' [l [E' [W [P [Al ML]]]]]]. rewrite E in E'. injection E' as <-.
  assert (HP : 0 < t_patches t) by (rewrite P; destruct corners; [congruence|simpl; lia]).
  destruct (h2_init_facts _ _ _ _ _ _ _ _ _ _ EH) as [T1 [T2 [T3 [T4 [T5 [T6 T7]]]]]].
  destruct (block_tree_ok t l near mincl W HP) as [bt' [Eb' Hleaf]]. rewrite T3 in Eb'. injection Eb' as <-.
  destruct (Hleaf B HB) as [C1 [C2 [Cl [Ccc _]]]].
  pose proof (element_index t l M a1 W Al L1) as N1. pose proof (element_index t l M a2 W Al L2) as N2.
  assert (Kp : 0 < k) by (unfold k; nia).
  destruct (divmod_mul (pos_id a1) m1 k Hm1) as [D1 _]. destruct (divmod_mul (pos_id a2) m2 k Hm2) as [D2 _].
  rewrite (Nat.mul_comm _ k) in D1. rewrite (Nat.mul_comm _ k) in D2.
  assert (IB : in_block t k (k * pos_id a1 + m1) (k * pos_id a2 + m2) B).
  { apply (in_block_under t l k _ _ B a1 a2 W HP Kp C1 C2); [rewrite D1|rewrite D2|]; auto. }
  pose proof IB as [rs [re [cs [ce [I1 [I2 [I3 [I4 [I5 I6]]]]]]]]].
  exists l, rs, cs. repeat (split; [assumption|]).
  assert (Hdiv : forall a s, cl t a -> start_index t k a = Some s -> exists q, s = k * q).
  { intros a s Ca Es. destruct (cl_range t l W HP k a Ca) as [l1 [m [l2 [_ [_ [_ [Sx _]]]]]]]. rewrite Es in Sx. injection Sx as ->. eauto. }
  destruct (Hdiv _ _ C1 I1) as [q1 ->]. destruct (Hdiv _ _ C2 I3) as [q2 ->].
  split; [apply Nat.mul_le_mono_l, (mul_le_from k q1 _ m1 Hm1), (proj1 I5)|]. split; [apply Nat.mul_le_mono_l, (mul_le_from k q2 _ m2 Hm2), (proj1 I6)|].
  rewrite (nk_id _ _ (wf_node t l W a1 e1 E1)), (nk_id _ _ (wf_node t l W a2 e2 E2)).
  destruct (uniform_list t l M W Al) as [Ll _].
  assert (B1 : pos_id a1 < length corners * 4 ^ M) by (rewrite <- P, <- Ll; apply nth_error_Some; congruence).
  assert (B2 : pos_id a2 < length corners * 4 ^ M) by (rewrite <- P, <- Ll; apply nth_error_Some; congruence).
  unfold described_by in DA. rewrite T1, T4, T7 in DA. unfold comp_size in DA. rewrite T4 in DA. fold p k D in DA.
  rewrite <- !Nat.add_assoc. apply DA; try assumption; unfold D; apply idx_lt; assumption.
Qed.

(** C54: entries of dense leaves are those of the dense Galerkin matrix *)
Lemma dense_entry : forall B a1 a2 e1 e2 rc cc m1 m2, In B (leaves (h_blocks H)) -> b_cc B = Dense ->
  t_store t a1 = Some e1 -> t_store t a2 = Some e2 -> is_leaf t a1 -> is_leaf t a2 ->
  under (b_c1 B) a1 -> under (b_c2 B) a2 -> rc < o_vd o -> cc < o_vd o -> m1 < k -> m2 < k ->
  A (rc * D + k * n_id e1 + m1) (cc * D + k * n_id e2 + m2) = o_form o e1 e2 (rc * k + m1) (cc * k + m2).
Proof.
  clear Hn HF Hv Hr H0. intros B a1 a2 e1 e2 rc cc m1 m2 HB Hd E1 E2 L1 L2 U1 U2 Hrc Hcc Hm1 Hm2.
  destruct (entry_in_block B a1 a2 e1 e2 rc cc m1 m2 HB E1 E2 L1 L2 U1 U2 Hrc Hcc Hm1 Hm2)
    as [l [rs [cs [W [HP [Al [ML [C1 [C2 [Cl [Ccc [I1 [I3 [N1 [N2 [R1 [R2 ->]]]]]]]]]]]]]]]]].
  unfold block_entry. rewrite Hd. rewrite Hd in Ccc.
  assert (EF : h_F H rc cc (b_c1 B) (b_c2 B) = dense_leaf o t rc cc (b_c1 B) (b_c2 B)).
  { unfold h2_init in EH. apply bind_some in EH. destruct EH as [bt [_ EH']]. cbv zeta in EH'. injection EH' as <-. cbn [h_F]. rewrite <- Ccc. reflexivity. }
  rewrite EF. unfold dense_leaf. fold p k.
  assert (G : forall a b s m, cl t a -> start_index t k a = Some s -> s <= k * pos_id b -> nth_error l (pos_id b) = Some b -> is_leaf t b -> under a b -> m < k ->
     exists la, elements_of t a = Some la /\ get la ((k * pos_id b + m - s) / k) = Some b /\ (k * pos_id b + m - s) mod k = m).
  { intros a b s m Ca Es Hs Hb Lb Ub Hm. destruct (cl_range t l W HP k a Ca) as [l1 [m0 [l2 [El [_ [Hin [Sx [_ [Ce Cr]]]]]]]]].
    rewrite Es in Sx. injection Sx as ->.
    assert (Kp : 0 < k) by lia. assert (Hle : length l1 <= pos_id b) by (apply (mul_le_from k _ _ 0 Kp); lia).
    replace (k * pos_id b + m - k * length l1) with ((pos_id b - length l1) * k + m) by (rewrite Nat.mul_sub_distr_r, !(Nat.mul_comm _ k); clear - Hs; lia).
    destruct (divmod_mul (pos_id b - length l1) m k Hm) as [-> ->].
    exists m0. split; [|split; [|reflexivity]].
    - unfold elements_of. destruct a as [|i a']; [|apply Ce; discriminate]. destruct (Cr eq_refl) as [Z1 Z2]. rewrite Z1, Z2, app_nil_r in El. simpl in El. rewrite <- El. apply traverse_ok; assumption.
    - unfold get. assert (Hin' : In b m0) by (apply Hin; auto). destruct (In_nth_error m0 b Hin') as [i Hi].
      assert (Li : i < length m0) by (apply nth_error_Some; congruence).
      assert (Ei : nth_error l (length l1 + i) = Some b) by (rewrite El, nth_error_app2, nth_error_app1 by lia; rewrite <- Hi; f_equal; lia).
      assert (length l1 + i = pos_id b).
      { eapply (proj1 (NoDup_nth_error l) (wf_nodup t l W)); [apply nth_error_Some; congruence|congruence]. }
      replace (pos_id b - length l1) with i by lia. assumption. }
  destruct (G _ a1 rs m1 C1 I1 R1 N1 L1 U1 Hm1) as [la [-> [Ga ->]]]. destruct (G _ a2 cs m2 C2 I3 R2 N2 L2 U2 Hm2) as [lb [-> [Gb ->]]].
  cbn [bind]. rewrite Ga, Gb. cbn [bind]. rewrite E1, E2. reflexivity.
Qed.

Lemma same_parameter_rel : forall c e s s', Q2R (get_h c) <> 0%R -> same_parameter c e s s' -> s' = rel_point c e s.
Proof.
  intros c e s [s1 s2] Hh [S1 S2]. cbn [fst snd] in S1, S2. unfold rel_point. f_equal.
  - apply Rmult_eq_reg_l with (Q2R (get_h c)); [|assumption]. field_simplify; [lra|assumption].
  - apply Rmult_eq_reg_l with (Q2R (get_h c)); [|assumption]. field_simplify; [lra|assumption].
Qed.
Lemma scale_norm : forall kind cl cr, scale kind cl cr = norm_factor kind (1 / 2 ^ (cl + cr)).
Proof.
  intros kind cl0 cr. unfold scale, norm_factor. replace (1 / 2 ^ cr * (1 / 2 ^ cl0))%R with (1 / 2 ^ (cl0 + cr))%R; [reflexivity|].
  rewrite pow_add. assert (2 ^ cr <> 0)%R by (apply pow_nonzero; lra). assert (2 ^ cl0 <> 0)%R by (apply pow_nonzero; lra). field. auto.
Qed.
Lemma lowrank_entry : forall B a1 a2 e1 e2 c1 c2 rc cc y1 x1 y2 x2 psi g1 g2, In B (leaves (h_blocks H)) -> b_cc B = LowRank ->
  t_store t a1 = Some e1 -> t_store t a2 = Some e2 -> is_leaf t a1 -> is_leaf t a2 ->
  t_store t (b_c1 B) = Some c1 -> t_store t (b_c2 B) = Some c2 ->
  under (b_c1 B) a1 -> under (b_c2 B) a2 -> rc < o_vd o -> cc < o_vd o -> y1 <= p -> x1 <= p -> y2 <= p -> x2 <= p ->
  (forall m s, psi Plain m s = bern p m s) -> (forall m s, m <= p -> derivable_pt_lim (bern p m) s (psi Deriv m s)) ->
  (forall s, same_parameter c1 e1 s (g1 s)) -> (forall s, same_parameter c2 e2 s (g2 s)) ->
  A (rc * D + k * n_id e1 + (y1 * (p + 1) + x1)) (cc * D + k * n_id e2 + (y2 * (p + 1) + x2)) =
  rsum (fun C1 => rsum (fun C2 =>
    let kx := fst (o_kinds o rc C1) in let ky := snd (o_kinds o rc C1) in
    let kx' := fst (o_kinds o cc C2) in let ky' := snd (o_kinds o cc C2) in
    let h := (1 / 2 ^ M)%R in
    ((norm_factor kx h * norm_factor ky h * (norm_factor kx' h * norm_factor ky' h)) *
    tensor_quad xi w (fun s1 s2 => tensor_quad xi w (fun t1 t2 =>
      psi kx x1 s1 * psi ky y1 s2 * (psi kx' x2 t1 * psi ky' y2 t2) *
      interpolated n (chebychev n) (fun s s' => o_kernel o c1 s c2 s' (rc * o_nF o + C1)%nat (cc * o_nF o + C2)%nat) (g1 (s1, s2)) (g2 (t1, t2)))))%R) (o_nF o)) (o_nF o).
Proof.
  intros B a1 a2 e1 e2 c1 c2 rc cc y1 x1 y2 x2 psi g1 g2 HB Hlr E1 E2 L1 L2 Ec1 Ec2 U1 U2 Hrc Hcc Hy1 Hx1 Hy2 Hx2 Ps Pd G1 G2.
  assert (Hm1 : y1 * (p + 1) + x1 < k) by (unfold k; nia). assert (Hm2 : y2 * (p + 1) + x2 < k) by (unfold k; nia).
  destruct (entry_in_block B a1 a2 e1 e2 rc cc _ _ HB E1 E2 L1 L2 U1 U2 Hrc Hcc Hm1 Hm2)
    as [l [rs [cs [W [HP [Al [ML [C1 [C2 [Cl [Ccc [I1 [I3 [N1 [N2 [R1 [R2 ->]]]]]]]]]]]]]]]]].
  rewrite Hlr in Ccc.
  pose proof (C54_setup Pt close corners M t o near mincl n xi w ja jm H Hc H4 E Hr H0 Hn HF Hv EH) as SU.
  destruct (C28_accesses_in_range H (length corners) M B SU HB) as [_ [_ [_ [_ [_ [_ [_ [_ [_ [_ [Bad|[_ [[F0 _] _]]]]]]]]]]]]]; [congruence|].
  destruct (h2_init_facts _ _ _ _ _ _ _ _ _ _ EH) as [T1 [T2 [T3 [T4 [T5 [T6 T7]]]]]].
  unfold fmm_level in F0. rewrite T1, T2, ML in F0. 
  pose proof (wf_node t l W _ c1 Ec1) as K1. pose proof (wf_node t l W _ c2 Ec2) as K2.
  pose proof (wf_node t l W _ e1 E1) as Ke1. pose proof (wf_node t l W _ e2 E2) as Ke2.
  assert (Ne1 : b_c1 B <> []) by (eapply wf_nonroot; [eassumption|congruence]).
  assert (Ne2 : b_c2 B <> []) by (eapply wf_nonroot; [eassumption|congruence]).
  assert (Lv : level_of t (b_c1 B) = Z.of_nat (pos_level (b_c1 B))) by (unfold level_of; destruct (b_c1 B); [congruence|rewrite Ec1, (nk_level _ _ K1); reflexivity]).
  rewrite Lv in F0.
  destruct U1 as [w1 U1]. destruct U2 as [w2 U2].
  pose proof (wf_vaddr t l a1 W ltac:(congruence)) as V1. pose proof (wf_vaddr t l a2 W ltac:(congruence)) as V2. rewrite U1 in V1. rewrite U2 in V2.
  destruct (pos_local _ w1 Ne1 V1) as [q1 [Hq1 [Ei1 [Ex1 [Ey1 El1]]]]]. destruct (pos_local _ w2 Ne2 V2) as [q2 [Hq2 [Ei2 [Ex2 [Ey2 El2]]]]].
  assert (W1 : length w1 = M - pos_level (b_c1 B)) by (pose proof (Al a1 L1) as Q; rewrite U1, El1 in Q; lia).
  assert (W2 : length w2 = M - pos_level (b_c1 B)).
  { pose proof (Al a2 L2) as Q. rewrite U2, El2 in Q. unfold pos_level in *. rewrite <- Cl in Q. lia. }
  rewrite U1 in Ke1. rewrite U2 in Ke2.
  assert (Rel1 : forall s, g1 s = (1 / 2 ^ length w1 * (INR (local_x (length w1) q1) + fst s), 1 / 2 ^ length w1 * (INR (local_y (length w1) q1) + snd s))%R).
  { intros s. rewrite <- (rel_point_ok _ w1 c1 e1 q1 s K1 Ke1 Ex1 Ey1 El1). apply same_parameter_rel; [|apply G1].
    unfold get_h. rewrite Q2R_div by apply pow2Q_neq. rewrite Q2R_pow2. unfold Rdiv. apply Rmult_integral_contrapositive_currified; [unfold Q2R; simpl; lra|]. apply Rinv_neq_0_compat, pow_nonzero. lra. }
  assert (Rel2 : forall s, g2 s = (1 / 2 ^ length w2 * (INR (local_x (length w2) q2) + fst s), 1 / 2 ^ length w2 * (INR (local_y (length w2) q2) + snd s))%R).
  { intros s. rewrite <- (rel_point_ok _ w2 c2 e2 q2 s K2 Ke2 Ex2 Ey2 El2). apply same_parameter_rel; [|apply G2].
    unfold get_h. rewrite Q2R_div by apply pow2Q_neq. rewrite Q2R_pow2. unfold Rdiv. apply Rmult_integral_contrapositive_currified; [unfold Q2R; simpl; lra|]. apply Rinv_neq_0_compat, pow_nonzero. lra. }
  destruct (uniform_range t l M k (b_c1 B) W HP Al ML ltac:(congruence)) as [S1 _]. destruct (uniform_range t l M k (b_c2 B) W HP Al ML ltac:(congruence)) as [S2 _].
  rewrite I1 in S1. injection S1 as Srs. rewrite I3 in S2. injection S2 as Scs.
  assert (Pos1 : k * pos_id a1 + (y1 * (p + 1) + x1) - rs = k * q1 + y1 * (p + 1) + x1).
  { rewrite U1, Ei1, Srs, W1. set (Z := 4 ^ (M - pos_level (b_c1 B))). set (Y := y1 * (p + 1) + x1). rewrite Nat.mul_add_distr_l.
    replace (k * (pos_id (b_c1 B) * Z)) with (pos_id (b_c1 B) * (k * Z)) by ring. unfold Y. lia. }
  assert (Pos2 : k * pos_id a2 + (y2 * (p + 1) + x2) - cs = k * q2 + y2 * (p + 1) + x2).
  { rewrite U2, Ei2, Scs, W2. replace (pos_level (b_c2 B)) with (pos_level (b_c1 B)) by (unfold pos_level; rewrite Cl; reflexivity).
    set (Z := 4 ^ (M - pos_level (b_c1 B))). set (Y := y2 * (p + 1) + x2). rewrite Nat.mul_add_distr_l.
    replace (k * (pos_id (b_c2 B) * Z)) with (pos_id (b_c2 B) * (k * Z)) by ring. unfold Y. lia. }
  rewrite Pos1, Pos2. clear Pos1 Pos2.
  (* unfold the matrix *)
  clear DA SU. unfold h2_init in EH. apply bind_some in EH. destruct EH as [bt [_ EH']]. cbv zeta in EH'. rewrite ML in EH'.
  set (cr := if (Z.of_nat M <? mincl)%Z then M else Z.to_nat mincl) in EH'. set (cl0 := Z.to_nat (Z.of_nat M - mincl)) in EH'.
  assert (Hcr : cr = Z.to_nat mincl) by (unfold cr; destruct (Z.ltb_spec (Z.of_nat M) mincl); [lia|reflexivity]).
  assert (Hcl : cl0 + cr = M) by (rewrite Hcr; unfold cl0; lia).
  clear T3 T4 T5 T6 T7 HB. injection EH' as <-. unfold block_entry. rewrite Hlr.
  cbn [h_tree h_mincl h_blocks h_k h_np h_nF h_mc h_vd h_mom h_T h_F] in *. rewrite <- Ccc. rewrite ML, Lv.
  set (f := Z.to_nat (Z.of_nat M - mincl - Z.of_nat (pos_level (b_c1 B)))).
  assert (Hf : cr + f = length w1) by (rewrite Hcr; unfold f; lia). assert (W12 : length w2 = length w1) by lia. rewrite W12 in *.
  unfold lowrank_leaf. rewrite Ec1, Ec2. fold p.
  pose proof (cheb_distinct n) as Dc.
  rewrite rsum_flatten. apply rsum_ext. intros C HC. cbv zeta.
  (* move the sum over C2 out *)
  transitivity (rsum (fun C2 => rsum (fun i => rsum (fun j => rsum (fun i' => rsum (fun j' =>
      (scale (fst (o_kinds o rc C)) cl0 cr * mom_int (fst (o_kinds o rc C)) p (cr + f) n (chebychev n) xi w i (local_x (cr + f) q1) x1 *
       (scale (snd (o_kinds o rc C)) cl0 cr * mom_int (snd (o_kinds o rc C)) p (cr + f) n (chebychev n) xi w j (local_y (cr + f) q1) y1)) *
      o_kernel o c1 (chebychev n i, chebychev n j) c2 (chebychev n i', chebychev n j') (rc * o_nF o + C)%nat (cc * o_nF o + C2)%nat *
      (scale (fst (o_kinds o cc C2)) cl0 cr * mom_int (fst (o_kinds o cc C2)) p (cr + f) n (chebychev n) xi w i' (local_x (cr + f) q2) x2 *
       (scale (snd (o_kinds o cc C2)) cl0 cr * mom_int (snd (o_kinds o cc C2)) p (cr + f) n (chebychev n) xi w j' (local_y (cr + f) q2) y2)))%R n) n) n) n) (o_nF o)).
  - rewrite rsum_flatten. etransitivity.
    { apply rsum_ext. intros i Hi. apply rsum_ext. intros j Hj. rewrite rsum_flatten. apply rsum_ext. intros C' HC'. rewrite rsum_flatten. reflexivity. }
    etransitivity. { apply rsum_ext. intros i Hi. rewrite rsum_swap. reflexivity. } rewrite rsum_swap.
    apply rsum_ext. intros C' HC'. apply rsum_ext. intros i Hi. apply rsum_ext. intros j Hj. apply rsum_ext. intros i' Hi'. apply rsum_ext. intros j' Hj'. cbv beta.
    assert (Kv : interpolate_kernel o n (chebychev n) c1 c2 (rc * (n * n * o_nF o) + (C * (n * n) + (i * n + j))) (cc * (n * n * o_nF o) + (C' * (n * n) + (i' * n + j'))) =
      o_kernel o c1 (chebychev n i, chebychev n j) c2 (chebychev n i', chebychev n j') (rc * o_nF o + C) (cc * o_nF o + C')).
    { unfold interpolate_kernel, points2D.
      replace (rc * (n * n * o_nF o) + (C * (n * n) + (i * n + j))) with ((rc * o_nF o + C) * (n * n) + (i * n + j)) by ring.
      replace (cc * (n * n * o_nF o) + (C' * (n * n) + (i' * n + j'))) with ((cc * o_nF o + C') * (n * n) + (i' * n + j')) by ring.
      assert (Bi : i * n + j < n * n) by (clear - Hi Hj; nia). assert (Bi' : i' * n + j' < n * n) by (clear - Hi' Hj'; nia).
      destruct (divmod_mul (rc * o_nF o + C) _ _ Bi) as [-> ->]. destruct (divmod_mul (cc * o_nF o + C') _ _ Bi') as [-> ->].
      destruct (divmod_mul i j n Hj) as [-> ->]. destruct (divmod_mul i' j' n Hj') as [-> ->]. reflexivity. }
    rewrite Kv. f_equal; [f_equal|].
    + apply (basis_direct p cl0 cr n xi w ja jm (o_kinds o rc) Dc Hn f C i j q1 y1 x1 Hi Hj); [rewrite Hf|..]; assumption.
    + apply (basis_direct p cl0 cr n xi w ja jm (o_kinds o cc) Dc Hn f C' i' j' q2 y2 x2 Hi' Hj'); [rewrite Hf|..]; assumption.
  - apply rsum_ext. intros C' HC'. rewrite !scale_norm, Hcl.
    assert (Sh : forall kind m s, m <= p -> psi kind m s = shape kind p m s).
    { intros [|] m s Hm; cbn [shape]; [apply Ps|]. eapply uniqueness_limite; [apply Pd; assumption|apply bern_derivable; assumption]. }
    set (kx := fst (o_kinds o rc C)). set (ky := snd (o_kinds o rc C)). set (kx' := fst (o_kinds o cc C')). set (ky' := snd (o_kinds o cc C')).
    set (h := (1 / 2 ^ M)%R).
    set (K := fun s s' : R * R => o_kernel o c1 s c2 s' (rc * o_nF o + C) (cc * o_nF o + C')).
    transitivity (norm_factor kx h * norm_factor ky h * (norm_factor kx' h * norm_factor ky' h) *
      Q4 xi w (fun s1 s2 t1 t2 => shape kx p x1 s1 * shape ky p y1 s2 * (shape kx' p x2 t1 * shape ky' p y2 t2) *
        interpolated n (chebychev n) K (1 / 2 ^ (cr + f) * (INR (local_x (cr + f) q1) + s1), 1 / 2 ^ (cr + f) * (INR (local_y (cr + f) q1) + s2))
          (1 / 2 ^ (cr + f) * (INR (local_x (cr + f) q2) + t1), 1 / 2 ^ (cr + f) * (INR (local_y (cr + f) q2) + t2))))%R.
    + rewrite (Q4_interpolated xi w n (chebychev n) K (cr + f) _ _ kx ky kx' ky' p y1 x1 y2 x2 _ _ _ _ eq_refl eq_refl).
      rewrite <- rsum_scal. apply rsum_ext. intros i _. rewrite <- rsum_scal. apply rsum_ext. intros j _. rewrite <- rsum_scal. apply rsum_ext. intros i' _. rewrite <- rsum_scal. apply rsum_ext. intros j' _.
      unfold K. ring.
    + f_equal. unfold Q4. apply quad_ext. intros s1 s2. apply quad_ext. intros t1 t2. rewrite !Sh by assumption. rewrite Rel1, Rel2, Hf. reflexivity.
Qed.
End Entries.

(** C54: the entries of dense leaves *)
Theorem C54_dense_entries : forall (Pt : Type) (close : Pt -> Pt -> bool) corners M t o near mincl n xi w ja jm H A,
  corners <> [] -> (forall c, In c corners -> length c = 4) -> init_tree close corners M = Some t ->
  h2_init o t near mincl n xi w ja jm = Some H -> described_by H (length corners) M A ->
  let k := (o_p o + 1) * (o_p o + 1) in let N := length corners * 4 ^ M in
  forall B a1 a2 e1 e2 rc cc m1 m2, In B (leaves (h_blocks H)) -> b_cc B = Dense ->
  t_store t a1 = Some e1 -> t_store t a2 = Some e2 -> is_leaf t a1 -> is_leaf t a2 ->
  under (b_c1 B) a1 -> under (b_c2 B) a2 -> rc < o_vd o -> cc < o_vd o -> m1 < k -> m2 < k ->
  A (row_of k N rc m1 e1) (row_of k N cc m2 e2) = o_form o e1 e2 (rc * k + m1) (cc * k + m2).
Proof.
  intros Pt close corners M t o near mincl n xi w ja jm H A Hc H4 E EH DA k N B a1 a2 e1 e2 rc cc m1 m2 HB Hd E1 E2 L1 L2 U1 U2 Hrc Hcc Hm1 Hm2.
  etransitivity; [|apply (dense_entry Pt close corners M t o near mincl n xi w ja jm H A Hc H4 E EH DA B a1 a2 e1 e2 rc cc m1 m2); assumption].
  unfold row_of, k, N. f_equal; ring.
Qed.
(** ... which is the entry of the matrix assembled by DiscreteOperator for dense matrices (C33) *)
Theorem C54_dense_entries_agree : forall (Pt : Type) (close : Pt -> Pt -> bool) corners M t o near mincl n xi w ja jm H A els m,
  corners <> [] -> (forall c, In c corners -> length c = 4) -> init_tree close corners M = Some t ->
  h2_init o t near mincl n xi w ja jm = Some H -> described_by H (length corners) M A ->
  let k := (o_p o + 1) * (o_p o + 1) in let N := length corners * 4 ^ M in
  mesh_elements t els -> assembled (o_vd o) k (t_elements t) (o_form o) els m ->
  forall B a1 a2 e1 e2 rc cc m1 m2, In B (leaves (h_blocks H)) -> b_cc B = Dense ->
  t_store t a1 = Some e1 -> t_store t a2 = Some e2 -> is_leaf t a1 -> is_leaf t a2 ->
  under (b_c1 B) a1 -> under (b_c2 B) a2 -> rc < o_vd o -> cc < o_vd o -> m1 < k -> m2 < k ->
  A (row_of k N rc m1 e1) (row_of k N cc m2 e2) = m (row_of k N rc m1 e1) (row_of k N cc m2 e2).
Proof.
  intros Pt close corners M t o near mincl n xi w ja jm H A els m Hc H4 E EH DA k N Me Am B a1 a2 e1 e2 rc cc m1 m2 HB Hd E1 E2 L1 L2 U1 U2 Hrc Hcc Hm1 Hm2.
  unfold k, N. rewrite (C54_dense_entries Pt close corners M t o near mincl n xi w ja jm H A Hc H4 E EH DA B a1 a2 e1 e2 rc cc m1 m2) by assumption.
  destruct (uniform_ids close corners M t els Hc H4 E Me) as [_ [En _]]. rewrite <- En.
  assert (I : forall a e, t_store t a = Some e -> is_leaf t a -> In e els).
  { intros a e Ea La. destruct Me as [l [El Em]]. destruct (init_tree_ok close corners M H4) as [t' [l' [E' [W [P [Al ML]]]]]]. rewrite E in E'. injection E' as <-.
    assert (HP : 0 < t_patches t) by (rewrite P; destruct corners; [congruence|simpl; lia]).
    rewrite (traverse_ok t l' W HP) in El. injection El as <-. destruct (els_length t l' els Em) as [L Hx].
    pose proof (element_index t l' M a W Al La) as Ni. assert (Li : pos_id a < length l') by (apply nth_error_Some; congruence).
    destruct (Hx _ Li) as [e' [Ne Se]]. rewrite (nth_error_nth l' _ [] Ni) in Se. rewrite Ea in Se. injection Se as <-. eapply nth_error_In; eauto. }
  symmetry. apply (C33_assembly Pt close corners M t els (o_vd o) _ (o_form o) m Hc H4 E Me Am); eauto.
Qed.
(** a matrix without low-rank blocks is the dense one *)
Theorem C54_all_dense : forall (Pt : Type) (close : Pt -> Pt -> bool) corners M t o near mincl n xi w ja jm H A els m,
  corners <> [] -> (forall c, In c corners -> length c = 4) -> init_tree close corners M = Some t ->
  near [] [] = true -> (0 <= mincl)%Z -> 0 < n -> 0 < o_nF o -> 0 < o_vd o ->
  h2_init o t near mincl n xi w ja jm = Some H -> described_by H (length corners) M A ->
  let k := (o_p o + 1) * (o_p o + 1) in
  mesh_elements t els -> assembled (o_vd o) k (t_elements t) (o_form o) els m ->
  (forall B, In B (leaves (h_blocks H)) -> b_cc B = Dense) ->
  forall i j, i < o_vd o * k * t_elements t -> j < o_vd o * k * t_elements t -> A i j = m i j.
Proof.
  intros Pt close corners M t o near mincl n xi w ja jm H A els m Hc H4 E Hr H0 Hn HF Hv EH DA k Me Am AD i j Hi Hj.
  destruct (C33_rows_covered Pt close corners M t els _ k i Hc H4 E Me Hi) as [rc [m1 [e1 [Hrc [Hm1 [I1 ->]]]]]].
  destruct (C33_rows_covered Pt close corners M t els _ k j Hc H4 E Me Hj) as [cc [m2 [e2 [Hcc [Hm2 [I2 ->]]]]]].
  destruct (uniform_ids close corners M t els Hc H4 E Me) as [Le [En _]]. rewrite En.
  destruct (init_tree_ok close corners M H4) as [t' [l [E' [W [P [Al ML]]]]]]. rewrite E in E'. injection E' as <-.
  assert (HP : 0 < t_patches t) by (rewrite P; destruct corners; [congruence|simpl; lia]).
  assert (I : forall e, In e els -> exists a, t_store t a = Some e /\ is_leaf t a /\ pos_id a < length corners * 4 ^ M).
  { intros e Ie. destruct Me as [l' [El Em]]. rewrite (traverse_ok t l W HP) in El. injection El as <-. destruct (els_length t l els Em) as [L Hx].
    destruct (In_nth_error els e Ie) as [q Nq]. assert (Lq : q < length l) by (rewrite <- L; apply nth_error_Some; congruence).
    destruct (Hx q Lq) as [e' [Ne Se]]. assert (e' = e) by congruence. subst e'. exists (nth q l []). split; [assumption|].
    assert (Lf : is_leaf t (nth q l [])) by (apply (wf_leaf t l W), nth_In; assumption). split; [assumption|].
    destruct (uniform_list t l M W Al) as [Ll _]. rewrite <- P, <- Ll. apply nth_error_Some. rewrite (element_index t l M _ W Al Lf). discriminate. }
  destruct (I e1 I1) as [a1 [E1 [L1 B1]]]. destruct (I e2 I2) as [a2 [E2 [L2 B2]]].
  destruct (h2_init_facts _ _ _ _ _ _ _ _ _ _ EH) as [T1 [T2 [T3 [T4 [T5 [T6 T7]]]]]].
  pose proof (C54_setup Pt close corners M t o near mincl n xi w ja jm H Hc H4 E Hr H0 Hn HF Hv EH) as SU.
  destruct (setup_wf H _ M SU) as [l0 [nr [_ [_ [_ [_ [_ [_ [_ [_ [_ [_ [_ [_ [_ Cov]]]]]]]]]]]]]]].
  assert (Kp : 0 < k) by (unfold k; nia).
  destruct (Cov (k * pos_id a1 + m1) (k * pos_id a2 + m2)) as [u [B [v [Eq [IB _]]]]].
  { unfold comp_size. rewrite T4. apply idx_lt; assumption. } { unfold comp_size. rewrite T4. apply idx_lt; assumption. }
  assert (HB : In B (leaves (h_blocks H))) by (rewrite Eq; apply in_or_app; right; left; reflexivity).
  destruct (block_tree_ok t l near mincl W HP) as [bt' [Eb' Hleaf]]. rewrite T3 in Eb'. injection Eb' as <-.
  destruct (Hleaf B HB) as [C1 [C2 _]]. rewrite T1, T4 in IB. fold k in IB.
  destruct (divmod_mul (pos_id a1) m1 k Hm1) as [D1 _]. destruct (divmod_mul (pos_id a2) m2 k Hm2) as [D2 _].
  rewrite (Nat.mul_comm _ k) in D1. rewrite (Nat.mul_comm _ k) in D2.
  assert (UU : under (b_c1 B) a1 /\ under (b_c2 B) a2).
  { apply (in_block_under t l k (k * pos_id a1 + m1) (k * pos_id a2 + m2) B a1 a2 W HP Kp C1 C2); [rewrite D1|rewrite D2|exact IB]; apply (element_index t l M); assumption. }
  destruct UU as [U1 U2].
  apply (C54_dense_entries_agree Pt close corners M t o near mincl n xi w ja jm H A els m Hc H4 E EH DA Me Am B a1 a2); auto.
Qed.

(** C54: the entries of low-rank leaves: quadrature of the kernel interpolated on the two clusters, times the
    shape functions of the elements (o_kinds: the function itself or its derivative) with their scaling;
    g1, g2 map a point of the element to the point of the cluster with the same parameter on the patch *)
Theorem C54_lowrank_entries : forall (Pt : Type) (close : Pt -> Pt -> bool) corners M t o near mincl n xi w ja jm H A,
  corners <> [] -> (forall c, In c corners -> length c = 4) -> init_tree close corners M = Some t ->
  near [] [] = true -> (0 <= mincl)%Z -> 0 < n -> 0 < o_nF o -> 0 < o_vd o ->
  h2_init o t near mincl n xi w ja jm = Some H -> described_by H (length corners) M A ->
  let p := o_p o in let k := (p + 1) * (p + 1) in let N := length corners * 4 ^ M in
  forall B a1 a2 e1 e2 c1 c2 rc cc y1 x1 y2 x2 psi g1 g2, In B (leaves (h_blocks H)) -> b_cc B = LowRank ->
  t_store t a1 = Some e1 -> t_store t a2 = Some e2 -> is_leaf t a1 -> is_leaf t a2 ->
  t_store t (b_c1 B) = Some c1 -> t_store t (b_c2 B) = Some c2 ->
  under (b_c1 B) a1 -> under (b_c2 B) a2 -> rc < o_vd o -> cc < o_vd o -> y1 <= p -> x1 <= p -> y2 <= p -> x2 <= p ->
  (forall m s, psi Plain m s = bern p m s) -> (forall m s, m <= p -> derivable_pt_lim (bern p m) s (psi Deriv m s)) ->
  (forall s, same_parameter c1 e1 s (g1 s)) -> (forall s, same_parameter c2 e2 s (g2 s)) ->
  A (row_of k N rc (y1 * (p + 1) + x1) e1) (row_of k N cc (y2 * (p + 1) + x2) e2) =
  rsum (fun C1 => rsum (fun C2 =>
    let kx := fst (o_kinds o rc C1) in let ky := snd (o_kinds o rc C1) in
    let kx' := fst (o_kinds o cc C2) in let ky' := snd (o_kinds o cc C2) in
    let h := (1 / 2 ^ M)%R in
    ((norm_factor kx h * norm_factor ky h * (norm_factor kx' h * norm_factor ky' h)) *
    tensor_quad xi w (fun s1 s2 => tensor_quad xi w (fun t1 t2 =>
      psi kx x1 s1 * psi ky y1 s2 * (psi kx' x2 t1 * psi ky' y2 t2) *
      interpolated n (chebychev n) (fun s s' => o_kernel o c1 s c2 s' (rc * o_nF o + C1)%nat (cc * o_nF o + C2)%nat) (g1 (s1, s2)) (g2 (t1, t2)))))%R) (o_nF o)) (o_nF o).
Proof.
  intros Pt close corners M t o near mincl n xi w ja jm H A Hc H4 E Hr H0 Hn HF Hv EH DA p k N B a1 a2 e1 e2 c1 c2 rc cc y1 x1 y2 x2 psi g1 g2
    HB Hlr E1 E2 L1 L2 Ec1 Ec2 U1 U2 Hrc Hcc Hy1 Hx1 Hy2 Hx2 Ps Pd G1 G2.
  etransitivity; [|apply (lowrank_entry Pt close corners M t o near mincl n xi w ja jm H A Hc H4 E Hr H0 Hn HF Hv EH DA B a1 a2 e1 e2 c1 c2 rc cc y1 x1 y2 x2 psi g1 g2); assumption].
  unfold row_of, k, N, p. f_equal; ring.
Qed.
(** if the kernel is a polynomial of degree less than n in each of its four reference coordinates, nothing is lost *)
Theorem C54_polynomial_kernel : forall (Pt : Type) (close : Pt -> Pt -> bool) corners M t o near mincl n xi w ja jm H A,
  corners <> [] -> (forall c, In c corners -> length c = 4) -> init_tree close corners M = Some t ->
  near [] [] = true -> (0 <= mincl)%Z -> 0 < n -> 0 < o_nF o -> 0 < o_vd o ->
  h2_init o t near mincl n xi w ja jm = Some H -> described_by H (length corners) M A ->
  let p := o_p o in let k := (p + 1) * (p + 1) in let N := length corners * 4 ^ M in
  forall B a1 a2 e1 e2 c1 c2 rc cc y1 x1 y2 x2 psi g1 g2, In B (leaves (h_blocks H)) -> b_cc B = LowRank ->
  t_store t a1 = Some e1 -> t_store t a2 = Some e2 -> is_leaf t a1 -> is_leaf t a2 ->
  t_store t (b_c1 B) = Some c1 -> t_store t (b_c2 B) = Some c2 ->
  under (b_c1 B) a1 -> under (b_c2 B) a2 -> rc < o_vd o -> cc < o_vd o -> y1 <= p -> x1 <= p -> y2 <= p -> x2 <= p ->
  (forall m s, psi Plain m s = bern p m s) -> (forall m s, m <= p -> derivable_pt_lim (bern p m) s (psi Deriv m s)) ->
  (forall s, same_parameter c1 e1 s (g1 s)) -> (forall s, same_parameter c2 e2 s (g2 s)) ->
  (forall C1 C2, C1 < o_nF o -> C2 < o_nF o -> let K a b c d := o_kernel o c1 (a, b) c2 (c, d) (rc * o_nF o + C1) (cc * o_nF o + C2) in
    (forall b c d, polynomial n (fun a => K a b c d)) /\ (forall a c d, polynomial n (fun b => K a b c d)) /\
    (forall a b d, polynomial n (fun c => K a b c d)) /\ (forall a b c, polynomial n (fun d => K a b c d))) ->
  A (row_of k N rc (y1 * (p + 1) + x1) e1) (row_of k N cc (y2 * (p + 1) + x2) e2) =
  rsum (fun C1 => rsum (fun C2 =>
    let kx := fst (o_kinds o rc C1) in let ky := snd (o_kinds o rc C1) in
    let kx' := fst (o_kinds o cc C2) in let ky' := snd (o_kinds o cc C2) in
    let h := (1 / 2 ^ M)%R in
    ((norm_factor kx h * norm_factor ky h * (norm_factor kx' h * norm_factor ky' h)) *
    tensor_quad xi w (fun s1 s2 => tensor_quad xi w (fun t1 t2 =>
      psi kx x1 s1 * psi ky y1 s2 * (psi kx' x2 t1 * psi ky' y2 t2) *
      o_kernel o c1 (g1 (s1, s2)) c2 (g2 (t1, t2)) (rc * o_nF o + C1)%nat (cc * o_nF o + C2)%nat)))%R) (o_nF o)) (o_nF o).
Proof.
  intros Pt close corners M t o near mincl n xi w ja jm H A Hc H4 E Hr H0 Hn HF Hv EH DA p k N B a1 a2 e1 e2 c1 c2 rc cc y1 x1 y2 x2 psi g1 g2
    HB Hlr E1 E2 L1 L2 Ec1 Ec2 U1 U2 Hrc Hcc Hy1 Hx1 Hy2 Hx2 Ps Pd G1 G2 PK.
  unfold k, N, p.
  rewrite (C54_lowrank_entries Pt close corners M t o near mincl n xi w ja jm H A Hc H4 E Hr H0 Hn HF Hv EH DA B a1 a2 e1 e2 c1 c2 rc cc y1 x1 y2 x2 psi g1 g2) by assumption.
  apply rsum_ext. intros C1 HC1. apply rsum_ext. intros C2 HC2. cbv zeta. f_equal. apply quad_ext. intros s1 s2. apply quad_ext. intros t1 t2. f_equal.
  destruct (PK C1 C2 HC1 HC2) as [P1 [P2 [P3 P4]]]. apply interpolated_exact; [apply cheb_distinct|..]; assumption.
Qed.

(** the hypotheses are met: three patches in a row, level 2, patches 0 and 2 are far from each other; the kernel is
    a polynomial in the reference coordinates *)
Definition ex_op : linop := mkOp 2 1 1 (fun _ _ i j => INR (i + j)) (fun _ s _ s' i j => (1 + fst s * snd s' + INR (i * j))%R) (fun _ _ => (Plain, Deriv)).
Lemma ex_h2_leaves : exists l,
  (t <- init_tree Nat.eqb strip 2 ;; bt <- block_tree t ex_near 1 ;;
   Some (map (fun B => (b_cc B, (b_c1 B, b_c2 B), (match t_store t (b_c1 B), t_store t (b_c2 B) with Some _, Some _ => true | _, _ => false end))) (leaves bt))) = Some l
  /\ In (LowRank, ([0], [2]), true) l /\ (exists x, In (Dense, x, true) l).
Proof. eexists. split; [vm_compute; reflexivity|]. split; [simpl; tauto|]. eexists. simpl. tauto. Qed.
Example h2_init_example : exists t H A,
  init_tree Nat.eqb strip 2 = Some t /\ h2_init ex_op t ex_near 1 2 [/ 2]%R [1]%R zero_arr zero_mat = Some H /\ described_by H 3 2 A /\
  (exists B, In B (leaves (h_blocks H)) /\ b_cc B = LowRank /\ b_c1 B = [0] /\ b_c2 B = [2] /\ t_store t [0] <> None /\ t_store t [2] <> None) /\
  (exists B, In B (leaves (h_blocks H)) /\ b_cc B = Dense) /\
  (forall e1 e2 i j, let K a b c d := o_kernel ex_op e1 (a, b) e2 (c, d) i j in
    (forall b c d, polynomial 2 (fun a => K a b c d)) /\ (forall a c d, polynomial 2 (fun b => K a b c d)) /\
    (forall a b d, polynomial 2 (fun c => K a b c d)) /\ (forall a b c, polynomial 2 (fun d => K a b c d))).
Proof.
  destruct ex_h2_leaves as [ll [X [X1 [x X2]]]].
  apply bind_some in X. destruct X as [t [E X]]. apply bind_some in X. destruct X as [bt [Eb X]]. injection X as <-.
  apply in_map_iff in X1. destruct X1 as [B [EB HB]]. apply in_map_iff in X2. destruct X2 as [B' [EB' HB']].
  assert (EH : exists H, h2_init ex_op t ex_near 1 2 [/ 2]%R [1]%R zero_arr zero_mat = Some H) by (unfold h2_init; rewrite Eb; cbn [bind]; eauto).
  destruct EH as [H EH]. exists t, H.
  assert (H4 : forall c, In c strip -> length c = 4) by (intros c Hc; repeat (destruct Hc as [<-|Hc]; [reflexivity|]); destruct Hc).
  assert (SU : h2_of_mesh H 3 2).
  { apply (C54_setup nat Nat.eqb strip 2 t ex_op ex_near 1 2 [/ 2]%R [1]%R zero_arr zero_mat H).
    - intro Z; discriminate Z. - exact H4. - exact E. - reflexivity. - lia. - lia. - cbn; lia. - cbn; lia. - exact EH. }
  destruct (C29_matrix_exists H 3 2 SU) as [A DA]. exists A. split; [exact E|]. split; [exact EH|]. split; [exact DA|].
  destruct (h2_init_facts _ _ _ _ _ _ _ _ _ _ EH) as [T1 [T2 [T3 _]]]. rewrite Eb in T3. injection T3 as T3. rewrite <- T3.
  split.
  - exists B. split; [exact HB|]. pose proof (f_equal (fun z => fst (fst z)) EB) as F1. pose proof (f_equal (fun z => fst (snd (fst z))) EB) as F2.
    pose proof (f_equal (fun z => snd (snd (fst z))) EB) as F3. pose proof (f_equal snd EB) as F4. cbn [fst snd] in F1, F2, F3, F4. rewrite F2, F3 in F4.
    split; [exact F1|]. split; [exact F2|]. split; [exact F3|]. destruct (t_store t [0]); [|discriminate]. destruct (t_store t [2]); [|discriminate]. split; discriminate.
  - split.
    + exists B'. split; [exact HB'|]. apply (f_equal (fun z => fst (fst z))) in EB'. exact EB'.
    + intros e1 e2 i j K. unfold K. cbn [o_kernel ex_op fst snd].
      assert (PL : forall u v, polynomial 2 (fun z => u + v * z)%R) by (intros u v; exists (fun q => match q with 0 => u | _ => v end); intros z; simpl; ring).
      assert (PE : forall f g, (forall z, f z = g z) -> polynomial 2 g -> polynomial 2 f) by (intros f g Q [c Hg]; exists c; intros z; rewrite Q; apply Hg).
      split; [|split; [|split]].
      * intros b c d. apply (PE _ (fun z => (1 + INR (i * j)) + d * z)%R); [intros; ring|apply PL].
      * intros a c d. apply (PE _ (fun z => (1 + a * d + INR (i * j)) + 0 * z)%R); [intros; ring|apply PL].
      * intros a b d. apply (PE _ (fun z => (1 + a * d + INR (i * j)) + 0 * z)%R); [intros; ring|apply PL].
      * intros a b c. apply (PE _ (fun z => (1 + INR (i * j)) + a * z)%R); [intros; ring|apply PL].
Qed.

(* BEGIN ASSUMPTIONS *)
Print Assumptions C31_lagrange.
Print Assumptions C31_cardinal.
Print Assumptions C31_reproduces_polynomials.
Print Assumptions C31_chebychev_points.
Print Assumptions C32_positions.
Print Assumptions C53_transfer_exact.
Print Assumptions C53_transfer_values.
Print Assumptions C54_setup.
Print Assumptions C54_dense_entries.
Print Assumptions C54_dense_entries_agree.
Print Assumptions C54_all_dense.
Print Assumptions C54_lowrank_entries.
Print Assumptions C54_polynomial_kernel.
