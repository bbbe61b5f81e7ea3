(** C76: the mesh in machine arithmetic *)
From Coq Require Import Reals ZArith List Arith Bool Lia Lra Qreals QArith Qround Permutation.
From Flocq Require Import Core.
From Verif Require Import ModelBase ModelTree SpecTree ModelKnots ProofKnots ModelMachine SpecMachine ProofMachine ProofTreeWF ProofTreeGeo ProofTreeHist ProofTreeLook.
Import ListNotations.
Local Close Scope Q_scope.
Local Open Scope R_scope.

Lemma vaddr_good : forall a, vaddr a -> good_addr a.
Proof.
  induction a as [|i r IH]; intros V; [destruct V|]. split; [discriminate|]. destruct r as [|p r]; [intros j []|].
  apply vaddr_cons in V; [|discriminate]. destruct V as [Hi V]. destruct (IH V) as [_ H]. intros j Hj.
  change (removelast (i :: p :: r)) with (i :: removelast (p :: r)) in Hj. destruct Hj as [<-|Hj]; [exact Hi|apply H, Hj].
Qed.
Lemma pow2Q_R : forall j, Q2R (pow2Q j) = pw j.
Proof.
  intros j. unfold pow2Q, pw, Q2R. cbn [Qnum Qden inject_Z]. rewrite Rinv_1, Rmult_1_r. f_equal.
  rewrite Nat2Z.inj_pow. reflexivity.
Qed.
Lemma pow2Q_nz : forall j, ~ (pow2Q j == 0)%Q.
Proof. intros j F. pose proof (pow2Q_pos j) as P. rewrite F in P. discriminate P. Qed.
Lemma coord_R : forall q k j, (q == inject_Z (Z.of_nat k) / pow2Q j)%Q -> Q2R q = IZR (Z.of_nat k) / pw j.
Proof.
  intros q k j E. rewrite (Qeq_eqR _ _ E), Q2R_div by apply pow2Q_nz. rewrite pow2Q_R. f_equal. unfold Q2R. cbn. rewrite Rinv_1, Rmult_1_r. reflexivity.
Qed.
Lemma h_R : forall n, Q2R (get_h n) = 1 / pw (n_level n).
Proof. intros n. unfold get_h. rewrite Q2R_div by apply pow2Q_nz. rewrite pow2Q_R. unfold Q2R at 1. cbn. field. apply Rgt_not_eq, pw_pos. Qed.

Section Node.
Variables (t : tree) (a : addr) (n : node).
Hypothesis Ht : reachable t.
Hypothesis En : t_store t a = Some n.
Lemma node_facts : vaddr a /\ node_ok a n.
Proof.
  destruct (reachable_wf t Ht) as [[l W] HP]. split; [eapply wf_vaddr; [exact W|congruence]|apply (wf_node t l W); exact En].
Qed.
(** coordinates, widths and identification numbers are computed without rounding and without overflow *)
Theorem C76_exact : (n_level n <= 30)%nat -> (Z.of_nat (n_id n) < 2 ^ 31)%Z ->
  exists m, m_node a = Some m /\ m_id m = Z.of_nat (n_id n) /\ m_level m = Z.of_nat (n_level n) /\ m_patch m = Z.of_nat (n_patch n) /\
    m_x m = Q2R (fst (n_llc n)) /\ m_y m = Q2R (snd (n_llc n)) /\ m_h (m_level m) = Some (Q2R (get_h n)).
Proof.
  intros Hl Hid. destruct node_facts as [V K]. rewrite (nk_level _ _ K) in Hl. rewrite (nk_id _ _ K) in Hid. destruct (nk_llc _ _ K) as [Lx Ly].
  exists (m_exact a). rewrite m_node_ok; [|apply vaddr_good, V|lia|lia]. split; [reflexivity|]. unfold m_exact. cbn [m_id m_level m_patch m_x m_y].
  rewrite (nk_id _ _ K), (nk_level _ _ K), (nk_patch _ _ K). repeat (split; [reflexivity|]).
  split; [symmetry; apply coord_R, Lx|]. split; [symmetry; apply coord_R, Ly|]. rewrite m_h_ok by exact Hl. rewrite h_R, (nk_level _ _ K). reflexivity.
Qed.
(** beyond 2^31 the identification number overflows *)
Theorem C76_overflow : (Z.of_nat (n_id n) >= 2 ^ 31)%Z -> m_node a = None.
Proof.
  intros Hid. destruct node_facts as [V K]. rewrite (nk_id _ _ K) in Hid. apply m_node_overflow; [apply vaddr_good, V|lia].
Qed.
Variable m : mnode.
Hypothesis Hl : (n_level n <= 30)%nat.
Hypothesis Em : m_node a = Some m.
Lemma m_is : m = m_exact a /\ (pos_level a <= 30)%nat /\ (pos_x a < 2 ^ pos_level a)%nat /\ (pos_y a < 2 ^ pos_level a)%nat /\
  n_level n = pos_level a /\ Q2R (fst (n_llc n)) = IZR (Z.of_nat (pos_x a)) / pw (pos_level a) /\ Q2R (snd (n_llc n)) = IZR (Z.of_nat (pos_y a)) / pw (pos_level a) /\
  Q2R (fst (n_llc n)) + Q2R (get_h n) = IZR (Z.of_nat (pos_x a) + 1) / pw (pos_level a) /\ Q2R (snd (n_llc n)) + Q2R (get_h n) = IZR (Z.of_nat (pos_y a) + 1) / pw (pos_level a).
Proof.
  destruct node_facts as [V K]. pose proof (vaddr_good a V) as G. destruct (Z_lt_ge_dec (Z.of_nat (n_id n)) (2 ^ 31)) as [L|L].
  - rewrite (nk_level _ _ K) in Hl. rewrite (nk_id _ _ K) in L. rewrite m_node_ok in Em; [|exact G|lia|lia]. destruct (nk_llc _ _ K) as [Lx Ly].
    destruct (pos_x_lt a (proj2 G)) as [Hx Hy]. split; [congruence|]. split; [exact Hl|]. split; [exact Hx|]. split; [exact Hy|]. split; [apply (nk_level _ _ K)|].
    rewrite (coord_R _ _ _ Lx), (coord_R _ _ _ Ly), h_R, (nk_level _ _ K). rewrite !plus_IZR. split; [reflexivity|]. split; [reflexivity|]. pose proof (pw_pos (pos_level a)). split; field; lra.
  - rewrite (C76_overflow L) in Em. discriminate.
Qed.
(** the corners at which generatePointList evaluates the patch, and referenceMidpoint *)
Theorem C76_corners : m_corners m = Some
  [(Q2R (fst (n_llc n)), Q2R (snd (n_llc n))); (Q2R (fst (n_llc n) + get_h n), Q2R (snd (n_llc n)));
   (Q2R (fst (n_llc n) + get_h n), Q2R (snd (n_llc n) + get_h n)); (Q2R (fst (n_llc n)), Q2R (snd (n_llc n) + get_h n))] /\
  m_midpoint m = Some (Q2R (fst (n_llc n) + (1 # 2) * get_h n), Q2R (snd (n_llc n) + (1 # 2) * get_h n)).
Proof.
  destruct m_is as [-> [Hj [Hx [Hy [_ [Ex [Ey [Ex1 Ey1]]]]]]]]. rewrite !Q2R_plus, Ex1, Ey1. rewrite !Q2R_mult, h_R.
  destruct node_facts as [_ K]. rewrite (nk_level _ _ K), Ex, Ey. unfold m_corners, m_midpoint, m_exact. cbn [m_level m_x m_y].
  rewrite m_h_ok by exact Hj. cbn [bind]. rewrite (upper_ok _ _ Hj Hx), (upper_ok _ _ Hj Hy).
  destruct (mid_ok _ _ Hj Hx) as [-> _]. destruct (mid_ok _ _ Hj Hy) as [-> _]. split; [reflexivity|].
  replace (Q2R (1 # 2)) with (1 / 2) by (unfold Q2R; cbn; lra). f_equal. f_equal; field; apply Rgt_not_eq, pw_pos.
Qed.
(** map2surface: the points of an element stay in the element, with and without fused multiply-add *)
Theorem C76_map2surface : forall fused x y, is_double x -> is_double y -> 0 <= x <= 1 -> 0 <= y <= 1 ->
  exists s1 s2, m_map2surface fused m (x, y) = Some (s1, s2) /\ is_double s1 /\ is_double s2 /\
    0 <= Q2R (fst (n_llc n)) <= s1 /\ s1 <= Q2R (fst (n_llc n) + get_h n) <= 1 /\
    0 <= Q2R (snd (n_llc n)) <= s2 /\ s2 <= Q2R (snd (n_llc n) + get_h n) <= 1.
Proof.
  intros fused x y Fx Fy Hx01 Hy01. apply double_fmt in Fx, Fy. destruct m_is as [-> [Hj [Hx [Hy [_ [Ex [Ey [Ex1 Ey1]]]]]]]].
  rewrite !Q2R_plus, Ex1, Ey1, Ex, Ey. unfold m_map2surface, m_exact. cbn [m_level m_x m_y]. rewrite m_h_ok by exact Hj. cbn [bind fst snd].
  pose proof (mapped_ok _ _ Hj Hx fused x Fx Hx01) as Bx. pose proof (mapped_ok _ _ Hj Hy fused y Fy Hy01) as By.
  pose proof (hi_le_1 _ _ Hj Hx) as Ux. pose proof (hi_le_1 _ _ Hj Hy) as Uy. pose proof (lo_pos (pos_level a) (pos_x a)) as Zx. pose proof (lo_pos (pos_level a) (pos_y a)) as Zy.
  eexists _, _. split; [reflexivity|]. split; [apply double_fmt; destruct fused; apply rnd_fmt|]. split; [apply double_fmt; destruct fused; apply rnd_fmt|].
  cbv zeta in Bx, By. tauto.
Qed.
(** mapToReferenceElement: the assertion holds exactly for the points of the closed element *)
Theorem C76_to_reference : forall x y, is_double x -> is_double y ->
  ((exists u v, m_to_reference m x y = Some (u, v)) <->
   Q2R (fst (n_llc n)) <= x <= Q2R (fst (n_llc n) + get_h n) /\ Q2R (snd (n_llc n)) <= y <= Q2R (snd (n_llc n) + get_h n)) /\
  forall u v, m_to_reference m x y = Some (u, v) -> 0 <= u <= 1 /\ 0 <= v <= 1.
Proof.
  intros x y Fx Fy. apply double_fmt in Fx, Fy. destruct m_is as [-> [Hj [Hx [Hy [_ [Ex [Ey [Ex1 Ey1]]]]]]]].
  rewrite !Q2R_plus, Ex1, Ey1, Ex, Ey. rewrite <- (reference_ok _ _ Hj Hx x Fx), <- (reference_ok _ _ Hj Hy y Fy).
  unfold m_to_reference, m_exact. cbn [m_level m_x m_y]. rewrite m_h_ok by exact Hj. cbn [bind].
  set (u := ddiv _ _). set (v := ddiv _ _). clearbody u v.
  assert (B : Rle_bool 0 u && Rle_bool u 1 && Rle_bool 0 v && Rle_bool v 1 = true <-> 0 <= u <= 1 /\ 0 <= v <= 1).
  { rewrite !andb_true_iff. assert (Rb : forall p q, Rle_bool p q = true <-> p <= q) by (intros p q; destruct (Rle_bool_spec p q); split; intros; [assumption|reflexivity|discriminate|lra]).
    rewrite !Rb. tauto. }
  destruct (Rle_bool 0 u && Rle_bool u 1 && Rle_bool 0 v && Rle_bool v 1); cbn [assert bind]; split.
  - split; [intros _; apply B; reflexivity|intros _; exists u, v; reflexivity].
  - intros u' v' E. injection E as <- <-. apply B; reflexivity.
  - split; [intros [u' [v' E]]; discriminate|intros H; apply B in H; discriminate].
  - intros u' v' E. discriminate.
Qed.
(** compute_global_id *)
Theorem C76_global_id : (n_level n <= 15)%nat -> (Z.of_nat (global_id t n) < 2 ^ 31)%Z ->
  m_global_id (Z.of_nat (t_patches t)) m = Some (Z.of_nat (global_id t n)).
Proof.
  intros L15 Hg. destruct m_is as [-> [Hj [_ [_ [El _]]]]]. destruct node_facts as [_ K]. unfold m_global_id, m_exact. cbn [m_level m_id].
  rewrite ishl_pw by exact Hj. cbn [bind]. rewrite El in L15. unfold global_id in *. rewrite El, (nk_id _ _ K) in *.
  set (j := pos_level a) in *. assert (P : Z.of_nat (2 ^ j) = (2 ^ Z.of_nat j)%Z) by (rewrite Nat2Z.inj_pow; reflexivity).
  assert (B : (0 < 2 ^ Z.of_nat j <= 2 ^ 15)%Z) by (split; [apply Z.pow_pos_nonneg; lia|apply Z.pow_le_mono_r; lia]).
  assert (Bm : (2 ^ Z.of_nat j * 2 ^ Z.of_nat j <= 2 ^ 15 * 2 ^ 15)%Z) by (apply Z.mul_le_mono_nonneg; lia). change (2 ^ 15 * 2 ^ 15)%Z with 1073741824%Z in Bm.
  assert (Bp : (0 < 2 ^ Z.of_nat j * 2 ^ Z.of_nat j)%Z) by (apply Z.mul_pos_pos; lia).
  unfold imul at 1. rewrite to_int_ok by lia. cbn [bind]. unfold isub. rewrite to_int_ok by lia. cbn [bind].
  assert (Q : Z.of_nat ((2 ^ j * 2 ^ j - 1) / 3) = ((2 ^ Z.of_nat j * 2 ^ Z.of_nat j - 1) / 3)%Z).
  { rewrite Nat2Z.inj_div. f_equal. rewrite Nat2Z.inj_sub; [rewrite Nat2Z.inj_mul, P; reflexivity|]. assert (2 ^ j <> 0)%nat by (apply Nat.pow_nonzero; lia). nia. }
  rewrite <- Q. unfold imul. change (2 ^ 31)%Z with 2147483648%Z in Hg. rewrite to_int_ok by lia. cbn [bind]. unfold iadd. rewrite to_int_ok by lia. f_equal. lia.
Qed.
(** from level 16 on compute_global_id overflows, also for few elements *)
Theorem C76_global_id_refuted : (16 <= n_level n)%nat -> forall P, m_global_id P m = None.
Proof.
  intros L16 P. destruct m_is as [-> [Hj [_ [_ [El _]]]]]. unfold m_global_id, m_exact. cbn [m_level m_id]. rewrite ishl_pw by exact Hj. cbn [bind].
  rewrite El in L16. unfold imul at 1. assert (B : (2 ^ 16 <= 2 ^ Z.of_nat (pos_level a))%Z) by (apply Z.pow_le_mono_r; lia).
  assert (Bm : (2 ^ 16 * 2 ^ 16 <= 2 ^ Z.of_nat (pos_level a) * 2 ^ Z.of_nat (pos_level a))%Z) by (apply Z.mul_le_mono_nonneg; lia).
  change (2 ^ 16 * 2 ^ 16)%Z with 4294967296%Z in Bm. rewrite to_int_none by lia. reflexivity.
Qed.
End Node.

(** ** uniform meshes *)
Lemma ddiv_one : forall M, (M <= 30)%nat -> ddiv 1 (pw M) = 1 / pw M.
Proof. intros M LM. unfold ddiv. apply rnd_id. apply dyadic_fmt; [simpl; lia|lia]. Qed.
Lemma set_map : forall {A B} (f : A -> B) l k v, set (map f l) k (f v) = match set l k v with Some l' => Some (map f l') | None => None end.
Proof.
  intros A B f. induction l as [|x l IH]; intros k v; [reflexivity|]. destruct k as [|k]; [reflexivity|]. cbn [map set]. rewrite IH.
  destruct (set l k v); reflexivity.
Qed.
Section Uniform.
Context {Pt : Type} (close : Pt -> Pt -> bool) (corners : list (list Pt)) (M : nat) (t : tree).
Hypothesis Hc : corners <> [].
Hypothesis H4 : forall c, In c corners -> length c = 4%nat.
Hypothesis E0 : init_tree close corners M = Some t.
Hypothesis Hsize : (Z.of_nat (length corners * 4 ^ M) < 2 ^ 31)%Z.
Lemma size_facts : (M <= 15)%nat /\ (1 <= length corners)%nat /\ Z.of_nat (4 ^ M) = (2 ^ Z.of_nat M * 2 ^ Z.of_nat M)%Z /\ (0 < 2 ^ Z.of_nat M <= 2 ^ 15)%Z /\ (2 ^ Z.of_nat M * 2 ^ Z.of_nat M <= 1073741824)%Z /\
  (Z.of_nat (length corners) * (2 ^ Z.of_nat M * 2 ^ Z.of_nat M) < 2147483648)%Z.
Proof.
  assert (L1 : (1 <= length corners)%nat) by (destruct corners; [congruence|cbn [length]; lia]).
  assert (E : Z.of_nat (4 ^ M) = (2 ^ Z.of_nat M * 2 ^ Z.of_nat M)%Z).
  { rewrite Nat2Z.inj_pow. change (Z.of_nat 4) with (2 * 2)%Z. apply Z.pow_mul_l. }
  assert (LM : (M <= 15)%nat).
  { destruct (le_gt_dec M 15) as [L|L]; [exact L|exfalso]. assert (B : (4 ^ 16 <= 4 ^ M)%nat) by (apply Nat.pow_le_mono_r; lia).
    assert (B2 : (Z.of_nat (4 ^ 16) <= Z.of_nat (length corners * 4 ^ M))%Z) by (apply inj_le; nia). rewrite (Nat2Z.inj_pow 4 16) in B2. change (Z.of_nat 4 ^ Z.of_nat 16)%Z with 4294967296%Z in B2. lia. }
  split; [exact LM|]. split; [exact L1|]. split; [exact E|].
  assert (B : (0 < 2 ^ Z.of_nat M <= 2 ^ 15)%Z) by (split; [apply Z.pow_pos_nonneg; lia|apply Z.pow_le_mono_r; lia]). split; [exact B|].
  assert (Bm : (2 ^ Z.of_nat M * 2 ^ Z.of_nat M <= 2 ^ 15 * 2 ^ 15)%Z) by (apply Z.mul_le_mono_nonneg; lia). change (2 ^ 15 * 2 ^ 15)%Z with 1073741824%Z in Bm.
  split; [exact Bm|]. rewrite <- E, <- Nat2Z.inj_mul. exact Hsize.
Qed.
Lemma uniform_facts : exists l, WF t l /\ t_patches t = length corners /\ all_level t M /\ t_maxlevel t = M /\ traverse t = Some l /\ t_elements t = (length corners * 4 ^ M)%nat /\ length l = (length corners * 4 ^ M)%nat.
Proof.
  destruct (init_tree_ok close corners M H4) as [t' [l [E' [W [P [A ML]]]]]]. assert (t' = t) by congruence. subst t'. exists l.
  destruct (uniform_list t l M W A) as [HL _]. rewrite P in HL. pose proof size_facts as [_ [L1 _]].
  repeat (split; [assumption|]). split; [apply traverse_ok; [exact W|lia]|]. split; [rewrite <- (wf_count t l W); exact HL|exact HL].
Qed.
Lemma reach_t : reachable t.
Proof. exists Pt, close, corners, M, [], t. repeat split; auto. Qed.
Lemma leaf_facts : forall l a, WF t l -> t_patches t = length corners -> all_level t M -> In a l ->
  vaddr a /\ pos_level a = M /\ (pos_patch a < length corners)%nat /\ m_node a = Some (m_exact a) /\ exists n, t_store t a = Some n /\ node_ok a n.
Proof.
  intros l a W P A Ha. pose proof (proj1 (wf_leaf t l W a) Ha) as La. pose proof La as [n [En _]].
  assert (Hex : t_store t a <> None) by congruence. pose proof (wf_vaddr t l a W Hex) as V. pose proof (A a La) as Lv.
  destruct (wf_addr_patch t l a W Hex) as [_ Hp]. rewrite P in Hp. destruct size_facts as [LM _].
  split; [exact V|]. split; [exact Lv|]. split; [exact Hp|]. split.
  - apply m_node_ok; [apply vaddr_good, V|lia|]. destruct (In_nth l a [] Ha) as [k [Hk Ek]]. destruct (uniform_list t l M W A) as [HL HN]. destruct (HN k Hk) as [Eid _]. rewrite Ek in Eid.
    rewrite Eid. rewrite HL, P in Hk. lia.
  - exists n. split; [exact En|apply (wf_node t l W), En].
Qed.
Lemma tp_index_machine : forall a, vaddr a -> pos_level a = M -> (pos_patch a < length corners)%nat -> m_tp_index (Z.of_nat M) (m_exact a) = Some (Z.of_nat (tp_of M a)).
Proof.
  intros a V Lv Hp. destruct size_facts as [LM [L1 [E4 [Bp [Bq Bt]]]]]. destruct (pos_x_lt a (proj2 (vaddr_good a V))) as [Hx Hy]. rewrite Lv in *.
  unfold m_tp_index, m_exact. cbn [m_level m_x m_y m_patch]. rewrite Lv. rewrite m_h_ok by lia. cbn [bind].
  assert (LM30 : (M <= 30)%nat) by lia.
  assert (Fl : forall X, (X < 2 ^ M)%nat -> floor_int (ddiv (dadd (IZR (Z.of_nat X) / pw M) (dmul (1 / 2) (1 / pw M))) (1 / pw M)) = Some (Z.of_nat X)).
  { intros X HX. destruct (mid_ok M X LM30 HX) as [Em Em2]. rewrite (div_h M) by apply rnd_fmt. rewrite Em. pose proof (pw_pos M) as P0.
    unfold floor_int. replace (Zfloor _) with (Z.of_nat X).
    - apply to_int_ok. destruct (X_bound M X LM30 HX). change (2 ^ 30)%Z with 1073741824%Z in *. lia.
    - symmetry. apply Zfloor_imp. replace ((IZR (Z.of_nat X) / pw M + 1 / pw M / 2) * pw M) with (IZR (Z.of_nat X) + / 2) by (field; lra). rewrite plus_IZR. lra. }
  rewrite (Fl _ Hx), (Fl _ Hy). cbn [bind]. rewrite ishl_pw by lia. cbn [bind].
  destruct (X_bound M _ LM30 Hx) as [Bx _]. destruct (X_bound M _ LM30 Hy) as [By _]. set (w := (2 ^ Z.of_nat M)%Z) in *.
  assert (Hpz : (0 <= Z.of_nat (pos_patch a) <= Z.of_nat (length corners) - 1)%Z) by lia.
  assert (K1 : (Z.of_nat (pos_patch a) * (w * w) <= (Z.of_nat (length corners) - 1) * (w * w))%Z) by (apply Z.mul_le_mono_nonneg_r; [nia|lia]).
  assert (K2 : (Z.of_nat (pos_y a) * w + Z.of_nat (pos_x a) <= w * w - 1)%Z) by nia.
  assert (K3 : (0 <= Z.of_nat (pos_patch a) * (w * w))%Z) by nia. assert (K4 : (0 <= Z.of_nat (pos_y a) * w)%Z) by nia.
  assert (K0 : (0 <= w * w)%Z) by nia.
  unfold imul, iadd. rewrite (to_int_ok (w * w)) by lia. cbn [bind]. rewrite to_int_ok by lia. cbn [bind]. rewrite to_int_ok by lia. cbn [bind]. rewrite to_int_ok by lia. cbn [bind]. rewrite to_int_ok by lia.
  f_equal. unfold tp_of. rewrite !Nat2Z.inj_add, !Nat2Z.inj_mul, Nat2Z.inj_pow. fold w. change (Z.of_nat 2 ^ Z.of_nat M)%Z with w. ring.
Qed.
Lemma reorder_machine : forall l0 l out, WF t l0 -> t_patches t = length corners -> all_level t M -> t_maxlevel t = M -> (forall a, In a l -> In a l0) ->
  m_reorder_loop (Z.of_nat M) l (map Z.of_nat out) = match reorder_loop t l out with Some o => Some (map Z.of_nat o) | None => None end.
Proof.
  intros l0 l out W P A ML. revert out. induction l as [|a l IH]; intros out Hl; [reflexivity|]. cbn [m_reorder_loop reorder_loop].
  destruct (leaf_facts l0 a W P A (Hl a (or_introl eq_refl))) as [V [Lv [Hp [Em [n [En K]]]]]]. rewrite Em, En. cbn [bind].
  rewrite tp_index_machine by assumption. cbn [bind]. destruct (Z.leb_spec 0 (Z.of_nat (tp_of M a))); [|lia]. cbn [assert bind].
  rewrite Nat2Z.id, (tp_index_ok t a n M K ML Lv). unfold m_exact. cbn [m_id]. rewrite set_map, (nk_id _ _ K).
  destruct (set out (tp_of M a) (pos_id a)) as [o|]; cbn [bind]; [|reflexivity]. apply IH. intros b Hb. apply Hl. right. exact Hb.
Qed.
(** all elements can be computed, and the reordering vector is the exact one *)
Theorem C76_reordering : exists rv, reordering_vector t = Some rv /\ m_reordering t = Some (map Z.of_nat rv).
Proof.
  destruct uniform_facts as [l [W [P [A [ML [T [Ee El]]]]]]]. pose proof size_facts as [_ [L1 _]].
  destruct (reordering_ok t l M W A ML) as [rv [Erv _]]; [lia|]. exists rv. split; [exact Erv|].
  unfold m_reordering. unfold reordering_vector in Erv. rewrite T in *. cbn [bind] in *. rewrite ML.
  replace (repeat 0%Z (t_elements t)) with (map Z.of_nat (repeat 0%nat (t_elements t))).
  - rewrite (reorder_machine l l _ W P A ML (fun a Ha => Ha)). rewrite Erv. reflexivity.
  - generalize (t_elements t). intros k. induction k as [|k IHk]; [reflexivity|]. cbn [repeat map]. rewrite IHk. reflexivity.
Qed.
Lemma floor_clamp : forall x, fmt x -> 0 <= x <= 1 -> exists k, floor_int (ddiv x (ddiv 1 (of_int (2 ^ Z.of_nat M)))) = Some k /\
  exists i, m_clamp k (2 ^ Z.of_nat M) = Z.of_nat i /\ (i < 2 ^ M)%nat /\ IZR (Z.of_nat i) / pw M <= x <= IZR (Z.of_nat i + 1) / pw M.
Proof.
  intros x F Hx. destruct size_facts as [LM [_ [_ [Bp _]]]]. assert (LM30 : (M <= 30)%nat) by lia.
  rewrite of_int_pw by exact LM30. rewrite (ddiv_one M LM30).
  rewrite (div_h M x F). pose proof (pw_pos M) as P0. unfold floor_int.
  pose proof (Zfloor_lb (x * pw M)) as L1. pose proof (Zfloor_ub (x * pw M)) as L2. set (k := Zfloor (x * pw M)) in *.
  assert (K0 : (0 <= k)%Z) by (apply Zfloor_lub; apply Rmult_le_pos; lra).
  assert (K1 : (k <= 2 ^ Z.of_nat M)%Z) by (apply le_IZR; fold (pw M); nra).
  exists k. change (2 ^ 15)%Z with 32768%Z in Bp. split; [apply to_int_ok; lia|]. exists (Z.to_nat (m_clamp k (2 ^ Z.of_nat M))). unfold m_clamp. rewrite Z2Nat.id by lia.
  assert (Pn : Z.of_nat (2 ^ M) = (2 ^ Z.of_nat M)%Z) by (rewrite Nat2Z.inj_pow; reflexivity).
  split; [reflexivity|]. split; [lia|]. rewrite Z.max_l by lia. split.
  - apply Rmult_le_reg_r with (pw M); [exact P0|]. replace (IZR (Z.min k (2 ^ Z.of_nat M - 1)) / pw M * pw M) with (IZR (Z.min k (2 ^ Z.of_nat M - 1))) by (field; lra).
    apply Rle_trans with (IZR k); [apply IZR_le; lia|exact L1].
  - apply Rmult_le_reg_r with (pw M); [exact P0|]. replace (IZR (Z.min k (2 ^ Z.of_nat M - 1) + 1) / pw M * pw M) with (IZR (Z.min k (2 ^ Z.of_nat M - 1) + 1)) by (field; lra).
    destruct (Z.min_spec k (2 ^ Z.of_nat M - 1)) as [[_ ->]|[_ ->]]; [rewrite plus_IZR; lra|]. replace (2 ^ Z.of_nat M - 1 + 1)%Z with (2 ^ Z.of_nat M)%Z by lia. fold (pw M). nra.
Qed.
(** evaluateOnPatch finds, for every pair of doubles in [0,1], an element that contains the point, and its assertion holds *)
Theorem C76_lookup : forall rv p x y, m_reordering t = Some rv -> (p < length corners)%nat -> is_double x -> is_double y -> 0 <= x <= 1 -> 0 <= y <= 1 ->
  exists a n u v, m_locate t rv p x y = Some (a, (u, v)) /\ is_leaf t a /\ t_store t a = Some n /\ n_patch n = p /\
    Q2R (fst (n_llc n)) <= x <= Q2R (fst (n_llc n) + get_h n) /\ Q2R (snd (n_llc n)) <= y <= Q2R (snd (n_llc n) + get_h n) /\ 0 <= u <= 1 /\ 0 <= v <= 1.
Proof.
  intros rv p x y Hrv Hp Fx Fy Hx01 Hy01. destruct C76_reordering as [r [Er Em]]. rewrite Em in Hrv. injection Hrv as <-.
  destruct uniform_facts as [l [W [P [A [ML [T [Ee El]]]]]]]. destruct size_facts as [LM [L1 [E4 [Bp [Bq Bt]]]]].
  assert (LM30 : (M <= 30)%nat) by lia.
  destruct (reordering_ok t l M W A ML) as [r' [Er' [_ [Lr Hr]]]]; [lia|]. assert (r' = r) by congruence. subst r'.
  pose proof (proj1 (double_fmt x) Fx) as Gx. pose proof (proj1 (double_fmt y) Fy) as Gy.
  destruct (floor_clamp x Gx Hx01) as [kx [Ekx [ix [Cx [Lx Bx]]]]]. destruct (floor_clamp y Gy Hy01) as [ky [Eky [iy [Cy [Ly By]]]]].
  unfold m_locate. rewrite ML. rewrite ishl_pw by exact LM30. cbn [bind]. set (w := (2 ^ Z.of_nat M)%Z) in *.
  unfold imul at 1. assert (K0 : (0 <= w * w)%Z) by nia. rewrite to_int_ok by lia. cbn [bind]. rewrite Ekx, Eky. cbn [bind]. rewrite Cx, Cy.
  destruct (X_bound M _ LM30 Lx) as [Zx _]. destruct (X_bound M _ LM30 Ly) as [Zy _]. fold w in Zx, Zy.
  assert (K1 : (Z.of_nat p * (w * w) <= (Z.of_nat (length corners) - 1) * (w * w))%Z) by (apply Z.mul_le_mono_nonneg_r; lia).
  assert (K2 : (w * Z.of_nat iy + Z.of_nat ix <= w * w - 1)%Z) by nia. assert (K3 : (0 <= Z.of_nat p * (w * w))%Z) by nia. assert (K4 : (0 <= w * Z.of_nat iy)%Z) by nia.
  unfold imul, iadd. rewrite to_int_ok by lia. cbn [bind]. rewrite to_int_ok by lia. cbn [bind]. rewrite to_int_ok by lia. cbn [bind]. rewrite to_int_ok by lia. cbn [bind].
  destruct (Z.leb_spec 0 (Z.of_nat ix + w * Z.of_nat iy + Z.of_nat p * (w * w))); [|lia]. cbn [assert bind].
  (* the element with these coordinates *)
  assert (Hel : exists a, is_leaf t a /\ pos_patch a = p /\ pos_x a = ix /\ pos_y a = iy).
  { pose proof (pow2Q_pos M) as Hpw. pose proof (pow2Q_nz M) as Hw.
    assert (B : forall k, (k < 2 ^ M)%nat -> (0 <= inject_Z (Z.of_nat k) / pow2Q M)%Q /\ (inject_Z (Z.of_nat k) / pow2Q M < 1)%Q).
    { intros k Hk. split.
      - apply Qle_shift_div_l; [assumption|]. setoid_replace (0 * pow2Q M)%Q with 0%Q by ring.
        change 0%Q with (inject_Z 0). rewrite <- Zle_Qle. lia.
      - apply Qlt_shift_div_r; [assumption|]. rewrite Qmult_1_l. unfold pow2Q. rewrite <- Zlt_Qlt. lia. }
    destruct (B ix Lx) as [Bx0 Bx1]. destruct (B iy Ly) as [By0 By1]. rewrite <- P in Hp.
    destruct (tiling t l p _ _ W Hp Bx0 Bx1 By0 By1) as [a [[La [n [En [Pn Cn]]]] _]].
    exists a. split; [assumption|]. pose proof (wf_node t l W a n En) as K. split; [rewrite <- (nk_patch _ _ K); assumption|].
    apply (covers_floor a n _ _ K) in Cn. rewrite (A a La) in Cn.
    assert (HH : forall k, Qfloor (inject_Z (Z.of_nat k) / pow2Q M * pow2Q M) = Z.of_nat k).
    { intros k. assert (E2 : (inject_Z (Z.of_nat k) / pow2Q M * pow2Q M == inject_Z (Z.of_nat k))%Q) by (field; assumption).
      rewrite (Qfloor_comp _ _ E2). apply Qround.Qfloor_Z. }
    rewrite !HH in Cn. lia. }
  destruct Hel as [a [La [Pa [Xa Ya]]]]. pose proof La as [n [En Rn]].
  pose proof (proj2 (wf_leaf t l W a) La) as Ia. destruct (In_nth l a [] Ia) as [k [Hk Ek]]. pose proof (Hr k Hk) as Hrk. rewrite Ek in Hrk.
  destruct (leaf_facts l a W P A Ia) as [V [Lv [_ [Emn [n' [En' K]]]]]]. assert (n' = n) by congruence. subst n'.
  assert (Et : Z.to_nat (Z.of_nat ix + w * Z.of_nat iy + Z.of_nat p * (w * w)) = tp_of M a).
  { unfold tp_of. rewrite Pa, Xa, Ya. apply Nat2Z.inj. rewrite Z2Nat.id by lia. rewrite !Nat2Z.inj_add, !Nat2Z.inj_mul, Nat2Z.inj_pow. change (Z.of_nat 2 ^ Z.of_nat M)%Z with w. ring. }
  rewrite Et. unfold get. rewrite nth_error_map. assert (Gt : get r (tp_of M a) = Some (nth (tp_of M a) r 0%nat)).
  { apply get_nth. rewrite Lr. apply tp_of_lt; auto. rewrite Pa, P. exact Hp. }
  unfold get in Gt. rewrite Gt. cbn [option_map bind]. rewrite Hrk. destruct (Z.leb_spec 0 (Z.of_nat k)); [|lia]. cbn [assert bind]. rewrite T. cbn [bind]. rewrite Nat2Z.id.
  rewrite (nth_error_nth' l [] Hk), Ek. cbn [bind]. rewrite Emn. cbn [bind].
  assert (Hl30 : (n_level n <= 30)%nat) by (rewrite (nk_level _ _ K), Lv; exact LM30).
  destruct (m_is t a n reach_t En (m_exact a) Hl30 Emn) as [_ [_ [_ [_ [_ [Ex [Ey [Ex1 Ey1]]]]]]]].
  destruct (C76_to_reference t a n reach_t En (m_exact a) Hl30 Emn x y Fx Fy) as [Iff Bd]. rewrite !Q2R_plus, Ex1, Ey1, Ex, Ey in Iff.
  rewrite Lv, Xa, Ya in Iff. destruct (proj2 Iff (conj Bx By)) as [u [v Euv]]. rewrite Euv. cbn [bind].
  exists a, n, u, v. split; [reflexivity|]. split; [exact La|]. split; [exact En|]. split; [rewrite (nk_patch _ _ K); exact Pa|].
  rewrite !Q2R_plus, Ex1, Ey1, Ex, Ey, Lv, Xa, Ya. split; [exact Bx|]. split; [exact By|]. apply (Bd u v Euv).
Qed.
End Uniform.
(** one patch more than fits: some element of the uniform mesh has no valid number *)
Theorem C76_size_refuted : forall (Pt : Type) (close : Pt -> Pt -> bool) corners M t, corners <> [] -> (forall c, In c corners -> length c = 4%nat) ->
  init_tree close corners M = Some t -> (Z.of_nat (length corners * 4 ^ M) > 2 ^ 31)%Z -> exists a, is_leaf t a /\ m_node a = None.
Proof.
  intros Pt close corners M t Hc H4 E0 Hs. destruct (init_tree_ok close corners M H4) as [t' [l [E' [W [P [A ML]]]]]]. assert (t' = t) by congruence. subst t'.
  destruct (uniform_list t l M W A) as [HL HN]. rewrite P in HL. set (k := (length l - 1)%nat).
  assert (Hk : (k < length l)%nat) by (unfold k; lia). destruct (HN k Hk) as [Eid _].
  exists (nth k l []). assert (La : is_leaf t (nth k l [])) by (apply (wf_leaf t l W), nth_In, Hk). split; [exact La|].
  destruct La as [n [En _]]. apply m_node_overflow; [apply vaddr_good; eapply wf_vaddr; [exact W|congruence]|]. rewrite Eid. unfold k. lia.
Qed.

(** ** knots *)
Theorem C76_knots_exact : forall p M rep, (M <= 30)%nat -> m_knots p (2 ^ M - 1) rep = MakeUniformKnotVector p (2 ^ M - 1) rep.
Proof.
  intros p M rep LM. rewrite uniform_eq. unfold m_knots, blocks. assert (P : (2 ^ M <> 0)%nat) by (apply Nat.pow_nonzero; lia).
  replace (2 ^ M - 1 + 1)%nat with (2 ^ M)%nat by lia. f_equal. f_equal. rewrite <- seq_shift, flat_map_concat_map, flat_map_concat_map, map_map. f_equal.
  apply map_ext_in. intros k Hk. apply in_seq in Hk. f_equal.
  assert (Pz : Z.of_nat (2 ^ M) = (2 ^ Z.of_nat M)%Z) by (rewrite Nat2Z.inj_pow; reflexivity). assert (B : (2 ^ Z.of_nat M <= 2 ^ 30)%Z) by (apply Z.pow_le_mono_r; lia).
  assert (B53 : (2 ^ 30 < 2 ^ 53)%Z) by reflexivity. rewrite Pz, of_int_pw by exact LM. rewrite of_int_id by lia.
  rewrite (ddiv_one M LM). rewrite (INR_IZR_INZ (2 ^ M)), Pz. fold (pw M). rewrite INR_IZR_INZ.
  replace (k + 1)%nat with (S k) by lia. unfold dmul. apply rnd_id. replace (IZR (Z.of_nat (S k)) * (1 / pw M)) with (IZR (Z.of_nat (S k)) / pw M) by (unfold Rdiv; ring).
  apply dyadic_fmt; lia.
Qed.
(** for other numbers of knots: they are inside (0,1) and strictly increasing *)
Theorem C76_knots_sorted : forall p interior rep, (Z.of_nat interior < 2147483647)%Z -> exists k : nat -> R,
  m_knots p interior rep = repeat 0 p ++ flat_map (fun i => repeat (k i) rep) (seq 1 interior) ++ repeat 1 p /\
  (forall i, (1 <= i <= interior)%nat -> 0 < k i < 1 /\ Rabs (k i - INR i / INR (interior + 1)) <= 3 * bpow radix2 (-53)) /\
  forall i, (i < interior)%nat -> k i < k (i + 1)%nat.
Proof.
  intros p interior rep Hi. exists (eq_pt (interior + 1)). split; [reflexivity|]. assert (Hn : (1 <= interior + 1)%nat /\ (Z.of_nat (interior + 1) <= 2147483647)%Z) by lia. split.
  - intros i B. split; [apply eq_pt_bounds; [exact Hn|lia|lia]|]. eapply Rle_trans; [apply eq_pt_rel; [exact Hn|lia]|]. fold eps. pose proof eps_small as [E0 _].
    assert (F : INR i / INR (interior + 1) <= 1).
    { apply Rmult_le_reg_r with (INR (interior + 1)); [apply lt_0_INR; lia|]. unfold Rdiv. rewrite Rmult_assoc, Rinv_l, Rmult_1_r, Rmult_1_l by (apply not_0_INR; lia). apply le_INR. lia. }
    rewrite <- (Rmult_1_r (3 * eps)) at 2. apply Rmult_le_compat_l; lra.
  - intros i B. apply eq_pt_increasing; [exact Hn|lia].
Qed.
(** the assertions of the projector hold: the interpolation points of every element are inside (0,1) *)
Theorem C76_projector_points : forall M X pp1 i, (M <= 30)%nat -> (X < 2 ^ M)%nat -> (pp1 <= 1000)%nat -> (i < pp1)%nat ->
  exists z, m_mask_point (2 ^ Z.of_nat M) (IZR (Z.of_nat X) / pw M) (m_mask pp1 i) = Some z /\ IZR (Z.of_nat X) / pw M < z < IZR (Z.of_nat X + 1) / pw M.
Proof.
  intros M X pp1 i LM HX Hpp Hi. unfold m_mask_point. rewrite of_int_pw by exact LM. rewrite (ddiv_one M LM).
  assert (Hn : (1 <= pp1 + 1)%nat /\ (Z.of_nat (pp1 + 1) <= 2147483647)%Z) by lia.
  change (m_mask pp1 i) with (eq_pt (pp1 + 1) (i + 1)). pose proof (eq_pt_rel (pp1 + 1) Hn (i + 1) ltac:(lia)) as E. apply Rabs_le_inv in E. pose proof eps_small as [E0 E1].
  set (s := eq_pt (pp1 + 1) (i + 1)) in *. assert (N : 1 <= INR (pp1 + 1) <= 1001) by (split; [apply (le_INR 1); lia|rewrite INR_IZR_INZ; apply IZR_le; lia]).
  assert (I1 : 1 <= INR (i + 1)) by (apply (le_INR 1); lia). assert (I2 : INR (i + 1) + 1 <= INR (pp1 + 1)) by (rewrite <- S_INR; apply le_INR; lia).
  set (q := / INR (pp1 + 1)) in *. assert (Hq : 0 < q) by (apply Rinv_0_lt_compat; lra). assert (Hqn : INR (pp1 + 1) * q = 1) by (unfold q; field; lra).
  unfold Rdiv in E at 1 2. fold q in E. assert (Q1 : / 1001 <= q) by (unfold q; apply Rinv_le_contravar; lra).
  assert (Z1 : INR (i + 1) * q <= 1 - q) by nra. assert (Z0 : q <= INR (i + 1) * q) by nra. unfold Rdiv in E. fold q in E. set (z := INR (i + 1) * q) in *. clearbody z.
  assert (S : / 1048576 <= s <= 1 - / 1048576) by (clear -E E0 E1 Z0 Z1 Q1; nra).
  clear E Z0 Z1 Hqn. clearbody s. pose proof (pw_pos M) as P0. assert (LX : (Z.of_nat X < 2 ^ Z.of_nat M)%Z /\ (2 ^ Z.of_nat M <= 2 ^ 30)%Z) by (destruct (X_bound M X LM HX); lia).
  assert (P20 : forall k, IZR k / pw (M + 20) = IZR k / pw M / 1048576).
  { intros k. rewrite (pw_bpow (M + 20)), Nat2Z.inj_add, bpow_plus, <- pw_bpow. change (bpow radix2 (Z.of_nat 20)) with 1048576. field. lra. }
  set (h := 1 / pw M). assert (Hh : 0 < h) by (apply Rdiv_lt_0_compat; lra).
  assert (F1 : fmt (h * / 1048576)) by (replace (h * / 1048576) with (IZR 1 / pw (M + 20)) by (rewrite P20; unfold h, Rdiv; ring); apply dyadic_fmt; [simpl; lia|lia]).
  assert (F2 : fmt (h * (1 - / 1048576))) by (replace (h * (1 - / 1048576)) with (IZR 1048575 / pw (M + 20)) by (rewrite P20; unfold h; field; lra); apply dyadic_fmt; [simpl; lia|lia]).
  destruct (rnd_between _ _ (h * s) F1 F2) as [B1 B2]; [split; apply Rmult_le_compat_l; lra|]. fold (dmul h s) in B1, B2. set (lo := IZR (Z.of_nat X) / pw M).
  assert (B53 : (2 ^ 50 + 1 < 2 ^ 53)%Z) by reflexivity.
  assert (G1 : fmt (lo + h * / 1048576)).
  { replace (lo + h * / 1048576) with (IZR (1048576 * Z.of_nat X + 1) / pw (M + 20)) by (rewrite P20, plus_IZR, mult_IZR; unfold lo, h; field; lra). apply dyadic_fmt; lia. }
  assert (G2 : fmt (lo + h * (1 - / 1048576))).
  { replace (lo + h * (1 - / 1048576)) with (IZR (1048576 * Z.of_nat X + 1048575) / pw (M + 20)) by (rewrite P20, plus_IZR, mult_IZR; unfold lo, h; field; lra). apply dyadic_fmt; lia. }
  destruct (rnd_between _ _ (lo + dmul h s) G1 G2) as [D1 D2]; [lra|]. fold (dadd lo (dmul h s)) in D1, D2.
  assert (L0 : 0 <= lo) by (apply lo_pos; assumption).
  assert (U1 : lo + h <= 1) by (unfold lo, h; rewrite lo_h; apply hi_le_1; assumption).
  exists (dadd lo (dmul h s)). assert (Z1 : lo < dadd lo (dmul h s) < lo + h) by lra. split.
  - destruct (Rlt_bool_spec (dadd lo (dmul h s)) 1); [|lra]. destruct (Rlt_bool_spec 0 (dadd lo (dmul h s))); [reflexivity|lra].
  - assert (Eh : IZR (Z.of_nat X + 1) / pw M = lo + h) by (symmetry; apply lo_h). rewrite Eh. exact Z1.
Qed.

(** a patch refined 15 times is fine, and the reordering vector and look-ups of it are defined; 16 times it overflows *)
Example C76_example :
  (exists t, init_tree Nat.eqb [[0; 1; 2; 3]%nat] 15 = Some t /\ exists rv, m_reordering t = Some rv /\
     forall x y, is_double x -> is_double y -> 0 <= x <= 1 -> 0 <= y <= 1 -> m_locate t rv 0 x y <> None) /\
  (exists t, init_tree Nat.eqb [[0; 1; 2; 3]%nat] 16 = Some t /\ exists a, is_leaf t a /\ m_node a = None) /\
  is_double (rnd (1 / 3)) /\ m_knots 2 3 1 = [0; 0; 1/4; 2/4; 3/4; 1; 1].
Proof.
  assert (H4 : forall c : list nat, In c [[0; 1; 2; 3]%nat] -> length c = 4%nat) by (intros c [<-|[]]; reflexivity).
  assert (Hne : [[0; 1; 2; 3]%nat] <> []) by (intro Q; discriminate Q).
  assert (Lt01 : (0 < length [[0; 1; 2; 3]%nat])%nat) by (apply Nat.lt_0_succ).
  assert (S15 : (Z.of_nat (length [[0; 1; 2; 3]%nat] * 4 ^ 15) < 2 ^ 31)%Z) by (rewrite Nat2Z.inj_mul, Nat2Z.inj_pow; reflexivity).
  assert (S16 : (Z.of_nat (length [[0; 1; 2; 3]%nat] * 4 ^ 16) > 2 ^ 31)%Z) by (rewrite Nat2Z.inj_mul, Nat2Z.inj_pow; reflexivity).
  split; [|split; [|split]].
  - destruct (init_tree_ok Nat.eqb [[0; 1; 2; 3]%nat] 15 H4) as [t [l [E _]]]. exists t. split; [exact E|].
    destruct (C76_reordering Nat.eqb [[0; 1; 2; 3]%nat] 15 t Hne H4 E S15) as [rv [_ Er]]. exists (map Z.of_nat rv). split; [exact Er|].
    intros x y Fx Fy Hx Hy. destruct (C76_lookup Nat.eqb [[0; 1; 2; 3]%nat] 15 t Hne H4 E S15 _ 0 x y Er Lt01 Fx Fy Hx Hy) as [a [n [u [v [El _]]]]].
    rewrite El. intro Q. discriminate Q.
  - destruct (init_tree_ok Nat.eqb [[0; 1; 2; 3]%nat] 16 H4) as [t [l [E _]]]. exists t. split; [exact E|].
    exact (C76_size_refuted nat Nat.eqb [[0; 1; 2; 3]%nat] 16 t Hne H4 E S16).
  - apply double_fmt, rnd_fmt.
  - change 3%nat with (2 ^ 2 - 1)%nat. rewrite C76_knots_exact by lia. rewrite uniform_eq. unfold blocks. cbn [seq flat_map repeat app Nat.pow Nat.mul Nat.sub Nat.add].
    clear. simpl INR. repeat (apply (f_equal2 cons); [lra|]). reflexivity.
Qed.

(* BEGIN ASSUMPTIONS *)
Print Assumptions C76_exact.
Print Assumptions C76_overflow.
Print Assumptions C76_corners.
Print Assumptions C76_map2surface.
Print Assumptions C76_to_reference.
Print Assumptions C76_global_id.
Print Assumptions C76_global_id_refuted.
Print Assumptions C76_reordering.
Print Assumptions C76_lookup.
Print Assumptions C76_size_refuted.
Print Assumptions C76_knots_exact.
Print Assumptions C76_knots_sorted.
Print Assumptions C76_projector_points.
