(** Reordering vector, point look-up and cluster iteration. *)
From Coq Require Import List Arith Bool Lia QArith Qround Permutation Qfield Lqa.
From Verif Require Import ModelBase ModelTree SpecTree ProofTree ProofTreeWF ProofTreeHist ProofTreeGeo.
Import ListNotations.
Local Close Scope Q_scope.
Local Open Scope nat_scope.

Lemma pos_xy_lt : forall a, vaddr a -> pos_x a < 2 ^ pos_level a /\ pos_y a < 2 ^ pos_level a.
Proof.
  induction a as [|i a IH]; intros V; [destruct V|]. destruct a as [|j a].
  - unfold pos_level. simpl. lia.
  - apply (proj1 (vaddr_cons i (j :: a) ltac:(discriminate))) in V. destruct V as [Hi V]. specialize (IH V).
    rewrite (pos_level_cons i), (pos_x_cons i), (pos_y_cons i), Nat.pow_succ_r' by discriminate.
    pose proof (quad_x_lt i Hi). pose proof (quad_y_lt i Hi). lia.
Qed.

Definition tp_of (M : nat) (a : addr) : nat := pos_patch a * (2 ^ M * 2 ^ M) + pos_y a * 2 ^ M + pos_x a.

Lemma floor_half : forall (X : nat) lev q, (q == inject_Z (Z.of_nat X) / pow2Q lev)%Q ->
  floorQ ((q + (1 # 2) * (1 / pow2Q lev)) / (1 / pow2Q lev)) = X.
Proof.
  intros X lev q E. pose proof (pow2Q_pos lev) as Hp.
  assert (Hw : ~ (pow2Q lev == 0)%Q) by (intros F; rewrite F in Hp; discriminate Hp).
  unfold floorQ. assert (E2 : ((q + (1 # 2) * (1 / pow2Q lev)) / (1 / pow2Q lev) == inject_Z (Z.of_nat X) + (1 # 2))%Q).
  { rewrite E. field. assumption. }
  rewrite (Qfloor_comp _ _ E2). replace (Qfloor _) with (Z.of_nat X); [apply Nat2Z.id|].
  symmetry. apply Qfloor_iff. rewrite inject_Z_plus. change (inject_Z 1) with 1%Q. lra.
Qed.

Lemma tp_index_ok : forall t a n M, node_ok a n -> t_maxlevel t = M -> pos_level a = M -> tp_index t n = tp_of M a.
Proof.
  intros t a n M K Hm Hl. unfold tp_index, tp_of, get_h. destruct (nk_llc _ _ K) as [Hx Hy].
  rewrite (nk_level _ _ K), (floor_half (pos_x a) (pos_level a) _ Hx), (floor_half (pos_y a) (pos_level a) _ Hy).
  rewrite (nk_patch _ _ K), Hm. reflexivity.
Qed.

Lemma tp_of_lt : forall M a P, vaddr a -> pos_level a = M -> pos_patch a < P -> tp_of M a < P * 4 ^ M.
Proof.
  intros M a P V Hl HP. destruct (pos_xy_lt a V) as [Hx Hy]. rewrite Hl in Hx, Hy. unfold tp_of. rewrite pow4_2.
  set (w := 2 ^ M) in *. nia.
Qed.

Lemma tp_of_parts : forall M a, vaddr a -> pos_level a = M ->
  pos_x a = tp_of M a mod 2 ^ M /\ pos_y a = (tp_of M a / 2 ^ M) mod 2 ^ M /\ pos_patch a = tp_of M a / 2 ^ M / 2 ^ M.
Proof.
  intros M a V Hl. destruct (pos_xy_lt a V) as [Hx Hy]. rewrite Hl in Hx, Hy. unfold tp_of.
  set (w := 2 ^ M) in *.
  assert (E : (pos_patch a * (w * w) + pos_y a * w + pos_x a) / w = pos_patch a * w + pos_y a).
  { symmetry. apply (Nat.div_unique _ _ _ (pos_x a)); [assumption|]. ring. }
  rewrite E. split; [|split].
  - apply (Nat.mod_unique _ _ (pos_patch a * w + pos_y a)); [assumption|]. ring.
  - apply (Nat.mod_unique _ _ (pos_patch a)); [assumption|]. ring.
  - apply (Nat.div_unique _ _ _ (pos_y a)); [assumption|]. ring.
Qed.

Lemma same_xy : forall a b, vaddr a -> vaddr b -> pos_level a = pos_level b -> pos_patch a = pos_patch b ->
  pos_x a = pos_x b -> pos_y a = pos_y b -> a = b.
Proof.
  intros a b Va Vb El Ep Ex Ey.
  assert (H : forall k lev, Qfloor (inject_Z (Z.of_nat k) / pow2Q lev * pow2Q lev) = Z.of_nat k).
  { intros k lev. pose proof (pow2Q_pos lev) as Hp.
    assert (Hw : ~ (pow2Q lev == 0)%Q) by (intros F; rewrite F in Hp; discriminate Hp).
    assert (E2 : (inject_Z (Z.of_nat k) / pow2Q lev * pow2Q lev == inject_Z (Z.of_nat k))%Q) by (field; assumption).
    rewrite (Qfloor_comp _ _ E2). apply Qfloor_Z. }
  apply (same_cell a b (inject_Z (Z.of_nat (pos_x a)) / pow2Q (pos_level a)) (inject_Z (Z.of_nat (pos_y a)) / pow2Q (pos_level a)));
    auto; rewrite <- ?El, <- ?Ex, <- ?Ey; apply H.
Qed.

Lemma tp_of_inj : forall M a b, vaddr a -> vaddr b -> pos_level a = M -> pos_level b = M -> tp_of M a = tp_of M b -> a = b.
Proof.
  intros M a b Va Vb La Lb E. destruct (tp_of_parts M a Va La) as [X1 [Y1 P1]]. destruct (tp_of_parts M b Vb Lb) as [X2 [Y2 P2]].
  apply same_xy; auto; congruence.
Qed.

Lemma nth_map_lt : forall {A B} (f : A -> B) l k da db, k < length l -> nth k (map f l) db = f (nth k l da).
Proof. intros. rewrite (nth_indep _ db (f da)) by (rewrite map_length; assumption). apply map_nth. Qed.

Lemma reorder_loop_ok : forall t M l out, (forall a, In a l -> exists n, t_store t a = Some n /\ node_ok a n) ->
  t_maxlevel t = M -> (forall a, In a l -> pos_level a = M /\ tp_of M a < length out) -> NoDup (map (tp_of M) l) ->
  exists out', reorder_loop t l out = Some out' /\ length out' = length out /\
    (forall a, In a l -> nth (tp_of M a) out' 0 = pos_id a) /\
    (forall j, ~ In j (map (tp_of M) l) -> nth j out' 0 = nth j out 0).
Proof.
  intros t M l. induction l as [|a l IH]; intros out Hn HM Hl Hd.
  - exists out. simpl. repeat split; auto. tauto.
  - cbn [reorder_loop]. destruct (Hn a (or_introl eq_refl)) as [n [En K]]. rewrite En. cbn [bind].
    destruct (Hl a (or_introl eq_refl)) as [La Ta].
    rewrite (tp_index_ok t a n M K HM La), (nk_id _ _ K).
    destruct (set_spec out (tp_of M a) (pos_id a) Ta) as [o1 [E1 [L1 N1]]]. rewrite E1. cbn [bind].
    cbn [map] in Hd. apply NoDup_cons_iff in Hd. destruct Hd as [Hda Hd].
    destruct (IH o1) as [o2 [E2 [L2 [V2 U2]]]]; auto.
    + intros b Hb; apply Hn; right; assumption.
    + intros b Hb. rewrite L1. apply Hl; right; assumption.
    + exists o2. split; [assumption|]. split; [congruence|]. split.
      * intros b [<-|Hb]; [|auto]. rewrite U2 by assumption. rewrite N1, Nat.eqb_refl. reflexivity.
      * intros j Hj. cbn [map In] in Hj. rewrite U2 by tauto. rewrite N1.
        destruct (Nat.eqb_spec j (tp_of M a)); [subst; tauto|reflexivity].
Qed.

Lemma NoDup_map_inj : forall {A B} (f : A -> B) l, (forall x y, In x l -> In y l -> f x = f y -> x = y) -> NoDup l -> NoDup (map f l).
Proof.
  intros A B f l H D. induction D as [|x l Hx D IH]; [constructor|]. cbn [map]. constructor.
  - intros K. apply in_map_iff in K. destruct K as [y [E Hy]]. apply Hx. rewrite <- (H y x); auto; [right; assumption|left; reflexivity].
  - apply IH. intros; apply H; auto; right; assumption.
Qed.

Lemma reordering_ok : forall t l M, WF t l -> all_level t M -> t_maxlevel t = M -> 0 < t_patches t ->
  exists rv, reordering_vector t = Some rv /\ Permutation rv (seq 0 (t_patches t * 4 ^ M)) /\
    length rv = t_patches t * 4 ^ M /\
    (forall k, k < length l -> nth (tp_of M (nth k l [])) rv 0 = k).
Proof.
  intros t l M W A HM HP. unfold reordering_vector. rewrite (traverse_ok t l W HP). cbn [bind].
  destruct (uniform_list t l M W A) as [HL HN]. set (N := t_patches t * 4 ^ M) in *.
  assert (Hl : forall a, In a l -> (exists n, t_store t a = Some n /\ node_ok a n) /\ vaddr a /\ pos_level a = M /\ tp_of M a < N).
  { intros a Ha. pose proof (proj1 (wf_leaf t l W a) Ha) as La. pose proof La as [n [En _]].
    assert (Hex : t_store t a <> None) by congruence. pose proof (wf_vaddr t l a W Hex) as V.
    split; [exists n; split; [assumption|apply (wf_node t l W); assumption]|]. split; [assumption|]. split; [apply A; assumption|].
    apply tp_of_lt; auto. apply (wf_addr_patch t l a W Hex). }
  assert (Hd : NoDup (map (tp_of M) l)).
  { apply NoDup_map_inj; [|apply (wf_nodup t l W)]. intros x y Hx Hy E.
    destruct (Hl x Hx) as [_ [Vx [Lx _]]]. destruct (Hl y Hy) as [_ [Vy [Ly _]]]. eapply tp_of_inj; eauto. }
  assert (HLe : t_elements t = N) by (rewrite <- (wf_count t l W); assumption).
  destruct (reorder_loop_ok t M l (repeat 0 (t_elements t))) as [rv [E [L [V _]]]]; auto.
  - intros a Ha. apply Hl; assumption.
  - intros a Ha. rewrite repeat_length, HLe. destruct (Hl a Ha) as [_ [_ H]]. assumption.
  - exists rv. rewrite repeat_length, HLe in L. split; [assumption|].
    assert (Hk : forall k, k < length l -> nth (tp_of M (nth k l [])) rv 0 = k).
    { intros k Hk. rewrite V by (apply nth_In; assumption). apply HN; assumption. }
    split; [|split; [assumption|exact Hk]].
    assert (P1 : Permutation (map (tp_of M) l) (seq 0 N)).
    { apply NoDup_Permutation_bis; [assumption|rewrite map_length, seq_length; lia|].
      intros j Hj. apply in_map_iff in Hj. destruct Hj as [a [<- Ha]]. apply in_seq. destruct (Hl a Ha) as [_ [_ [_ H]]]. lia. }
    apply (Permutation_map (fun j => nth j rv 0)) in P1. rewrite map_map in P1.
    assert (E1 : map (fun x => nth (tp_of M x) rv 0) l = seq 0 N).
    { apply (nth_ext _ _ 0 0); [rewrite map_length, seq_length; lia|]. intros k Hk'. rewrite map_length in Hk'.
      rewrite (nth_map_lt (fun x => nth (tp_of M x) rv 0) l k [] 0) by assumption. rewrite Hk by assumption.
      rewrite seq_nth by lia. reflexivity. }
    assert (E2 : map (fun j => nth j rv 0) (seq 0 N) = rv).
    { apply (nth_ext _ _ 0 0); [rewrite map_length, seq_length; lia|]. intros k Hk'. rewrite map_length, seq_length in Hk'.
      rewrite (nth_map_lt _ _ k 0 0) by (rewrite seq_length; assumption). rewrite seq_nth by assumption. reflexivity. }
    rewrite E1, E2 in P1. symmetry. assumption.
Qed.

Lemma clamp_ok : forall x M, (0 <= x)%Q -> (x <= 1)%Q -> 
  clamp_index (x / (1 / inject_Z (Z.of_nat (2 ^ M)))) (2 ^ M) < 2 ^ M /\
  let k := inject_Z (Z.of_nat (clamp_index (x / (1 / inject_Z (Z.of_nat (2 ^ M)))) (2 ^ M))) in
  (k <= x * pow2Q M /\ x * pow2Q M <= k + 1)%Q.
Proof.
  intros x M H0 H1. fold (pow2Q M). pose proof (pow2Q_pos M) as Hp.
  assert (Hw : ~ (pow2Q M == 0)%Q) by (intros F; rewrite F in Hp; discriminate Hp).
  unfold clamp_index. assert (E : (x / (1 / pow2Q M) == x * pow2Q M)%Q) by (field; assumption).
  rewrite (Qfloor_comp _ _ E). clear E.
  assert (Hq : (0 <= x * pow2Q M)%Q) by (apply Qmult_le_0_compat; lra).
  assert (Hq1 : (x * pow2Q M <= pow2Q M)%Q).
  { rewrite <- (Qmult_1_l (pow2Q M)) at 2. apply Qmult_le_compat_r; lra. }
  set (q := (x * pow2Q M)%Q) in *. clearbody q.
  pose proof (Qfloor_le q) as F1. pose proof (Qlt_floor q) as F2.
  assert (Hf0 : (0 <= Qfloor q)%Z) by (change 0%Z with (Qfloor 0); apply Qfloor_resp_le; assumption).
  pose proof (pow2_pos M) as Hn. rewrite Z.max_l by assumption.
  destruct (Z_lt_le_dec (Qfloor q) (Z.of_nat (2 ^ M))) as [Hlt|Hge].
  - rewrite Z.min_l by lia. split; [lia|]. cbn zeta. rewrite Z2Nat.id by assumption.
    split; [assumption|]. rewrite inject_Z_plus in F2. apply Qlt_le_weak. exact F2.
  - rewrite Z.min_r by lia. split; [lia|]. cbn zeta. rewrite Z2Nat.id by lia.
    assert (G : (pow2Q M <= q)%Q).
    { unfold pow2Q. eapply Qle_trans; [|exact F1]. rewrite <- Zle_Qle. assumption. }
    unfold Z.sub. rewrite inject_Z_plus. change (inject_Z (-(1))) with (-(1))%Q. fold (pow2Q M). lra.
Qed.

Lemma locate_ok : forall t l M rv p x y, WF t l -> all_level t M -> t_maxlevel t = M ->
  reordering_vector t = Some rv -> p < t_patches t -> (0 <= x)%Q -> (x <= 1)%Q -> (0 <= y)%Q -> (y <= 1)%Q ->
  exists a n u v, locate t rv p x y = Some (a, (u, v)) /\ is_leaf t a /\ t_store t a = Some n /\ n_patch n = p /\
    in_closed n x y /\ (0 <= u <= 1 /\ 0 <= v <= 1)%Q /\
    (x == fst (n_llc n) + get_h n * u /\ y == snd (n_llc n) + get_h n * v)%Q.
Proof.
  intros t l M rv p x y W A HM HR Hp X0 X1 Y0 Y1.
  destruct (reordering_ok t l M W A HM) as [rv' [E [_ [Lrv Hrv]]]]; [lia|].
  assert (rv' = rv) by congruence. subst rv'.
  unfold locate. rewrite HM.
  destruct (clamp_ok x M X0 X1) as [Xl Xb]. destruct (clamp_ok y M Y0 Y1) as [Yl Yb].
  set (xi := clamp_index (x / (1 / inject_Z (Z.of_nat (2 ^ M)))) (2 ^ M)) in *.
  set (yi := clamp_index (y / (1 / inject_Z (Z.of_nat (2 ^ M)))) (2 ^ M)) in *. cbn zeta in Xb, Yb.
  clearbody xi yi. pose proof (pow2Q_pos M) as Hpw.
  assert (Hw : ~ (pow2Q M == 0)%Q) by (intros F; rewrite F in Hpw; discriminate Hpw).
  (* the element with these coordinates *)
  assert (Hel : exists a, is_leaf t a /\ pos_patch a = p /\ pos_x a = xi /\ pos_y a = yi).
  { assert (B : forall k, k < 2 ^ M -> (0 <= inject_Z (Z.of_nat k) / pow2Q M)%Q /\ (inject_Z (Z.of_nat k) / pow2Q M < 1)%Q).
    { intros k Hk. split.
      - apply Qle_shift_div_l; [assumption|]. setoid_replace (0 * pow2Q M)%Q with 0%Q by ring.
        change 0%Q with (inject_Z 0). rewrite <- Zle_Qle. lia.
      - apply Qlt_shift_div_r; [assumption|]. rewrite Qmult_1_l. unfold pow2Q. rewrite <- Zlt_Qlt. lia. }
    destruct (B xi Xl) as [Bx0 Bx1]. destruct (B yi Yl) as [By0 By1].
    destruct (tiling t l p _ _ W Hp Bx0 Bx1 By0 By1) as [a [[La [n [En [Pn Cn]]]] _]].
    exists a. split; [assumption|]. pose proof (wf_node t l W a n En) as K. split; [rewrite <- (nk_patch _ _ K); assumption|].
    apply (covers_floor a n _ _ K) in Cn. rewrite (A a La) in Cn.
    assert (H : forall k, Qfloor (inject_Z (Z.of_nat k) / pow2Q M * pow2Q M) = Z.of_nat k).
    { intros k. assert (E2 : (inject_Z (Z.of_nat k) / pow2Q M * pow2Q M == inject_Z (Z.of_nat k))%Q) by (field; assumption).
      rewrite (Qfloor_comp _ _ E2). apply Qfloor_Z. }
    rewrite !H in Cn. lia. }
  destruct Hel as [a [La [Pa [Xa Ya]]]]. pose proof La as [n [En Rn]].
  pose proof (proj2 (wf_leaf t l W a) La) as Ia. destruct (In_nth l a [] Ia) as [k [Hk Ek]].
  pose proof (Hrv k Hk) as Hrk. rewrite Ek in Hrk.
  assert (Et : xi + 2 ^ M * yi + p * (2 ^ M * 2 ^ M) = tp_of M a).
  { unfold tp_of. rewrite Pa, Xa, Ya. ring. }
  rewrite Et. assert (Va : vaddr a) by (eapply wf_vaddr; [exact W|congruence]).
  rewrite (get_nth rv _ 0). 2:{ rewrite Lrv. apply tp_of_lt; auto. rewrite Pa; assumption. }
  cbn [bind]. rewrite Hrk, (traverse_ok t l W) by lia. cbn [bind].
  rewrite (get_nth l k []), Ek by assumption. cbn [bind]. rewrite En. cbn [bind].
  pose proof (wf_node t l W a n En) as K. destruct (nk_llc _ _ K) as [Lx Ly]. rewrite (A a La), Xa in Lx. rewrite (A a La), Ya in Ly.
  unfold map_to_reference. assert (Eh : get_h n = (1 / pow2Q M)%Q) by (unfold get_h; rewrite (nk_level _ _ K), (A a La); reflexivity).
  rewrite Eh.
  assert (Hu : ((x - fst (n_llc n)) / (1 / pow2Q M) == x * pow2Q M - inject_Z (Z.of_nat xi))%Q) by (rewrite Lx; field; assumption).
  assert (Hv : ((y - snd (n_llc n)) / (1 / pow2Q M) == y * pow2Q M - inject_Z (Z.of_nat yi))%Q) by (rewrite Ly; field; assumption).
  assert (Hb : forall z k, (inject_Z k <= z /\ z <= inject_Z k + 1)%Q -> (0 <= z - inject_Z k /\ z - inject_Z k <= 1)%Q) by (intros; lra).
  assert (Hu01 : (0 <= (x - fst (n_llc n)) / (1 / pow2Q M) /\ (x - fst (n_llc n)) / (1 / pow2Q M) <= 1)%Q).
  { rewrite Hu. apply Hb. assumption. }
  assert (Hv01 : (0 <= (y - snd (n_llc n)) / (1 / pow2Q M) /\ (y - snd (n_llc n)) / (1 / pow2Q M) <= 1)%Q).
  { rewrite Hv. apply Hb. assumption. }
  rewrite (proj2 (Qle_bool_iff _ _) (proj1 Hu01)), (proj2 (Qle_bool_iff _ _) (proj2 Hu01)),
          (proj2 (Qle_bool_iff _ _) (proj1 Hv01)), (proj2 (Qle_bool_iff _ _) (proj2 Hv01)).
  cbn [andb assert bind].
  exists a, n, ((x - fst (n_llc n)) / (1 / pow2Q M))%Q, ((y - snd (n_llc n)) / (1 / pow2Q M))%Q.
  split; [reflexivity|]. split; [assumption|]. split; [assumption|]. split; [rewrite (nk_patch _ _ K); assumption|].
  assert (Ex : (x == fst (n_llc n) + 1 / pow2Q M * ((x - fst (n_llc n)) / (1 / pow2Q M)))%Q) by (field; assumption).
  assert (Ey : (y == snd (n_llc n) + 1 / pow2Q M * ((y - snd (n_llc n)) / (1 / pow2Q M)))%Q) by (field; assumption).
  split; [|split; [tauto|rewrite Eh; auto]].
  unfold in_closed. rewrite Eh. set (u := ((x - fst (n_llc n)) / (1 / pow2Q M))%Q) in *. set (v := ((y - snd (n_llc n)) / (1 / pow2Q M))%Q) in *.
  assert (Hh : (0 < 1 / pow2Q M)%Q) by (apply Qlt_shift_div_l; [assumption|]; lra).
  set (h := (1 / pow2Q M)%Q) in *. clearbody u v h. destruct Hu01, Hv01.
  assert (0 <= h * u)%Q by (apply Qmult_le_0_compat; lra). assert (0 <= h * v)%Q by (apply Qmult_le_0_compat; lra).
  assert (h * u <= h)%Q by (rewrite <- (Qmult_1_r h) at 2; rewrite !(Qmult_comm h); apply Qmult_le_compat_r; lra).
  assert (h * v <= h)%Q by (rewrite <- (Qmult_1_r h) at 2; rewrite !(Qmult_comm h); apply Qmult_le_compat_r; lra).
  lra.
Qed.

(** ** iteration over a cluster *)
Lemma contiguous_le : forall L l from upto, contiguous L from l upto -> from <= upto.
Proof.
  intros L l. induction l as [|[id lev] l IH]; intros from upto H; simpl in H; [lia|].
  destruct H as [_ [-> H]]. specialize (IH _ _ H). rewrite Nat.mul_add_distr_r in IH. lia.
Qed.

Definition lo (L : nat) (a : addr) : nat := pos_id a * 4 ^ (L - pos_level a).
Definition hi (L : nat) (a : addr) : nat := (pos_id a + 1) * 4 ^ (L - pos_level a).

Lemma contiguous_split_at : forall L A l from upto,
  contiguous L from (map idlev l) upto -> from <= A <= upto -> 
  (forall b, In b l -> A <= lo L b \/ hi L b <= A) ->
  exists l1 l2, l = l1 ++ l2 /\ contiguous L from (map idlev l1) A /\ contiguous L A (map idlev l2) upto.
Proof.
  intros L A l. induction l as [|b l IH]; intros from upto C H S.
  - exists [], []. simpl in *. split; [reflexivity|]. lia.
  - destruct (Nat.eq_dec from A) as [->|Hne].
    + exists [], (b :: l). simpl. auto.
    + cbn [map contiguous] in C. unfold idlev at 1 in C. destruct C as [Hl [Hf C]].
      fold (lo L b) in Hf. fold (hi L b) in C.
      destruct (S b (or_introl eq_refl)) as [F|F]; [lia|].
      pose proof (contiguous_le _ _ _ _ C) as Hle.
      destruct (IH (hi L b) upto C) as [l1 [l2 [-> [C1 C2]]]]; [lia|intros; apply S; right; assumption|].
      exists (b :: l1), l2. split; [reflexivity|]. split; [|assumption]. cbn [map contiguous]. unfold idlev at 1. auto.
Qed.

Lemma contiguous_in : forall L l from upto b, contiguous L from (map idlev l) upto -> In b l ->
  from <= lo L b /\ hi L b <= upto.
Proof.
  intros L l. induction l as [|a l IH]; intros from upto b C H; [destruct H|].
  cbn [map contiguous] in C. unfold idlev at 1 in C. destruct C as [Hl [Hf C]]. fold (lo L a) in Hf. fold (hi L a) in C.
  pose proof (contiguous_le _ _ _ _ C) as Hle. assert (lo L a < hi L a).
  { unfold lo, hi. pose proof (pow4_pos (L - pos_level a)). nia. }
  destruct H as [<-|H]; [lia|]. destruct (IH _ _ _ C H). lia.
Qed.

Lemma under_interval : forall L a b, vaddr a -> vaddr b -> pos_level a <= L -> pos_level b <= L -> under a b ->
  lo L a <= lo L b /\ hi L b <= hi L a.
Proof.
  intros L a b Va Vb La Lb U. apply under_ids in U; auto. destruct U as [Hl [H1 H2]]. unfold lo, hi.
  replace (L - pos_level a) with ((pos_level b - pos_level a) + (L - pos_level b)) by lia.
  rewrite Nat.pow_add_r. set (w := 4 ^ (L - pos_level b)). set (v := 4 ^ (pos_level b - pos_level a)) in *. nia.
Qed.

Lemma interval_under : forall L a b, vaddr a -> vaddr b -> pos_level a <= pos_level b -> pos_level b <= L ->
  lo L a < hi L b -> lo L b < hi L a -> under a b.
Proof.
  intros L a b Va Vb Hab Lb H1 H2. apply under_ids; auto. split; [assumption|]. unfold lo, hi in *.
  replace (L - pos_level a) with ((pos_level b - pos_level a) + (L - pos_level b)) in * by lia.
  rewrite Nat.pow_add_r in *. set (w := 4 ^ (L - pos_level b)) in *. set (v := 4 ^ (pos_level b - pos_level a)) in *.
  assert (0 < w) by (apply pow4_pos). nia.
Qed.

Lemma front_ok : forall t l d a, WF t l -> t_store t a <> None -> t_maxlevel t <= pos_level a + d ->
  exists b, front d (t_store t) a = Some b /\ is_leaf t b /\ under a b /\
    forall L, t_maxlevel t <= L -> lo L b = lo L a.
Proof.
  intros t l d. induction d as [|d IH]; intros a W Ha Hd; (destruct (t_store t a) as [n|] eqn:En; [|congruence]).
  - cbn [front]. rewrite En. cbn [bind]. destruct (n_ref n) eqn:Er.
    + exfalso. pose proof (wf_refined_son t l a n 0 W En Er) as H.
      assert (H0 : t_store t (0 :: a) <> None) by (apply H; lia). apply (wf_ml t l W) in H0.
      rewrite pos_level_cons in H0 by (eapply wf_nonroot; [exact W|congruence]). lia.
    + exists a. repeat split; auto using under_refl. exists n; auto.
  - cbn [front]. rewrite En. cbn [bind]. destruct (n_ref n) eqn:Er.
    + assert (Hne : a <> []) by (eapply wf_nonroot; [exact W|congruence]).
      assert (H0 : t_store t (0 :: a) <> None) by (eapply wf_refined_son; eauto; lia).
      destruct (IH (0 :: a) W H0) as [b [E [Lb [Ub HL]]]].
      { rewrite pos_level_cons by assumption. lia. }
      exists b. split; [assumption|]. split; [assumption|]. split; [eapply under_father; exact Ub|].
      intros L HL'. rewrite HL by assumption. pose proof (wf_ml t l W _ H0) as Hm. unfold lo.
      rewrite pos_level_cons in * by assumption. cbn [pos_id].
      replace (L - pos_level a) with (S (L - S (pos_level a))) by lia. rewrite Nat.pow_succ_r'. ring.
    + exists a. repeat split; auto using under_refl. exists n; auto.
Qed.

Lemma back_ok : forall t l d a, WF t l -> t_store t a <> None -> t_maxlevel t <= pos_level a + d ->
  exists b, back d (t_store t) a = Some b /\ is_leaf t b /\ under a b /\
    forall L, t_maxlevel t <= L -> hi L b = hi L a.
Proof.
  intros t l d. induction d as [|d IH]; intros a W Ha Hd; (destruct (t_store t a) as [n|] eqn:En; [|congruence]).
  - cbn [back]. rewrite En. cbn [bind]. destruct (n_ref n) eqn:Er.
    + exfalso. pose proof (wf_refined_son t l a n 0 W En Er) as H.
      assert (H0 : t_store t (0 :: a) <> None) by (apply H; lia). apply (wf_ml t l W) in H0.
      rewrite pos_level_cons in H0 by (eapply wf_nonroot; [exact W|congruence]). lia.
    + exists a. repeat split; auto using under_refl. exists n; auto.
  - cbn [back]. rewrite En. cbn [bind]. destruct (n_ref n) eqn:Er.
    + assert (Hne : a <> []) by (eapply wf_nonroot; [exact W|congruence]).
      assert (H0 : t_store t (3 :: a) <> None) by (eapply wf_refined_son; eauto; lia).
      destruct (IH (3 :: a) W H0) as [b [E [Lb [Ub HL]]]].
      { rewrite pos_level_cons by assumption. lia. }
      exists b. split; [assumption|]. split; [assumption|]. split; [eapply under_father; exact Ub|].
      intros L HL'. rewrite HL by assumption. pose proof (wf_ml t l W _ H0) as Hm. unfold hi.
      rewrite pos_level_cons in * by assumption. cbn [pos_id].
      replace (L - pos_level a) with (S (L - S (pos_level a))) by lia. rewrite Nat.pow_succ_r'. ring.
    + exists a. repeat split; auto using under_refl. exists n; auto.
Qed.

Lemma hd_in_nonempty : forall (m : list addr) d, m <> [] -> exists b r, m = b :: r /\ hd_or m d = Some b.
Proof. intros [|b r] d H; [congruence|]. exists b, r. auto. Qed.

Lemma cluster_split : forall t l a, WF t l -> t_store t a <> None -> 0 < t_patches t ->
  exists l1 m l2, l = l1 ++ m ++ l2 /\ cluster_elements t a = Some m /\ m <> [] /\
    (forall b, In b m <-> is_leaf t b /\ under a b) /\
    contiguous (t_maxlevel t) (lo (t_maxlevel t) a) (map idlev m) (hi (t_maxlevel t) a).
Proof.
  intros t l a W Ha HP. set (L := t_maxlevel t).
  assert (Hlev : forall b, t_store t b <> None -> vaddr b /\ pos_level b <= L).
  { intros b Hb. split; [eapply wf_vaddr; eauto|apply (wf_ml t l W b Hb)]. }
  assert (Hleaf : forall b, In b l -> is_leaf t b /\ vaddr b /\ pos_level b <= L).
  { intros b Hb. pose proof (proj1 (wf_leaf t l W b) Hb) as Lb. split; [assumption|]. apply Hlev. destruct Lb as [n [En _]]. congruence. }
  destruct (Hlev a Ha) as [Va La].
  assert (C : contiguous L 0 (map idlev l) (t_patches t * 4 ^ L)).
  { apply (wf_order t l W). intros b Hb. apply Hleaf. assumption. }
  assert (Hlh : lo L a < hi L a) by (unfold lo, hi; pose proof (pow4_pos (L - pos_level a)); nia).
  assert (Hhi : hi L a <= t_patches t * 4 ^ L).
  { pose proof (pos_id_patch a Va) as H. destruct (wf_addr_patch t l a W Ha) as [_ Hp].
    unfold hi. replace L with (pos_level a + (L - pos_level a)) at 2 by lia. rewrite Nat.pow_add_r.
    pose proof (pow4_pos (L - pos_level a)). pose proof (pow4_pos (pos_level a)).
    set (w := 4 ^ (L - pos_level a)) in *. set (v := 4 ^ pos_level a) in *.
    assert (pos_id a + 1 <= t_patches t * v) by nia. nia. }
  assert (Dis : forall b, In b l -> (lo L a <= lo L b /\ hi L b <= hi L a /\ under a b) \/ hi L b <= lo L a \/ hi L a <= lo L b).
  { intros b Hb. destruct (Hleaf b Hb) as [Lb [Vb HLb]].
    destruct (le_lt_dec (hi L b) (lo L a)) as [H1|H1]; [auto|].
    destruct (le_lt_dec (hi L a) (lo L b)) as [H2|H2]; [auto|]. left.
    assert (U : under a b).
    { destruct (le_lt_dec (pos_level a) (pos_level b)) as [Hl|Hl].
      - apply (interval_under L); auto.
      - assert (U' : under b a) by (apply (interval_under L); auto; lia).
        rewrite (leaf_under t l b a W Lb Ha U') in *. apply under_refl. }
    destruct (under_interval L a b) as [G1 G2]; auto. }
  destruct (contiguous_split_at L (lo L a) l 0 _ C) as [l1 [l2' [El [C1 C2]]]].
  { lia. } { intros b Hb. destruct (Dis b Hb) as [H|[H|H]]; lia. }
  destruct (contiguous_split_at L (hi L a) l2' _ _ C2) as [m [l2 [El2 [Cm C3]]]].
  { lia. }
  { intros b Hb. destruct (Dis b) as [H|[H|H]]; [rewrite El; apply in_or_app; auto|lia|lia|lia]. }
  subst l2'. exists l1, m, l2. split; [assumption|].
  assert (Hm : forall b, In b m <-> is_leaf t b /\ under a b).
  { intros b. split.
    - intros Hb. assert (Hbl : In b l) by (rewrite El, !in_app_iff; auto). split; [apply Hleaf; assumption|].
      destruct (contiguous_in L m _ _ b Cm Hb) as [G1 G2].
      destruct (Dis b Hbl) as [H|[H|H]]; [tauto| |]; exfalso; unfold lo, hi in *; pose proof (pow4_pos (L - pos_level b)); nia.
    - intros [Lb Ub]. assert (Hbl : In b l) by (apply (wf_leaf t l W); assumption).
      destruct (Hleaf b Hbl) as [_ [Vb HLb]]. destruct (under_interval L a b) as [G1 G2]; auto.
      rewrite El, !in_app_iff in Hbl. destruct Hbl as [H|[H|H]]; [|assumption|]; exfalso.
      + destruct (contiguous_in L l1 _ _ b C1 H) as [K1 K2]. unfold lo, hi in *; pose proof (pow4_pos (L - pos_level b)); nia.
      + destruct (contiguous_in L l2 _ _ b C3 H) as [K1 K2]. unfold lo, hi in *; pose proof (pow4_pos (L - pos_level b)); nia. }
  assert (Hne : m <> []) by (intros ->; simpl in Cm; lia).
  split; [|split; [assumption|split; [assumption|exact Cm]]].
  unfold cluster_elements. fold L.
  destruct (front_ok t l L a W Ha) as [f [Ef [Lf [Uf HLf]]]]; [unfold L; lia|].
  destruct (back_ok t l L a W Ha) as [b [Eb [Lb [Ub HLb]]]]; [unfold L; lia|].
  rewrite Ef, Eb. cbn [bind]. specialize (HLf L (le_n _)). specialize (HLb L (le_n _)).
  assert (If : In f m) by (apply Hm; auto). assert (Ib : In b m) by (apply Hm; auto).
  (* f is the head of m *)
  assert (Hf : hd_or m None = Some f).
  { destruct m as [|x m']; [congruence|]. cbn [hd_or]. destruct If as [->|If]; [reflexivity|]. exfalso.
    cbn [map contiguous] in Cm. unfold idlev at 1 in Cm. destruct Cm as [_ [_ Cm]]. fold (hi L x) in Cm.
    assert (Hx : under a x) by (apply Hm; left; reflexivity).
    assert (Hxl : In x l) by (rewrite El, !in_app_iff; simpl; auto). destruct (Hleaf x Hxl) as [_ [Vx HLx]].
    destruct (under_interval L a x) as [G1 _]; auto.
    destruct (contiguous_in L m' _ _ f Cm If) as [K1 _]. unfold lo, hi in *. pose proof (pow4_pos (L - pos_level x)). nia. }
  (* b is the last of m *)
  assert (Hb : exists m', m = m' ++ [b]).
  { destruct (last_or_cases m None) as [[-> _]|[m' [x [Em _]]]]; [congruence|]. exists m'. rewrite Em in *. f_equal. f_equal.
    apply in_app_or in Ib. destruct Ib as [Ib|[Ib|[]]]; [|assumption]. exfalso.
    rewrite map_app in Cm. apply contiguous_app in Cm. destruct Cm as [k [K1 K2]].
    destruct (contiguous_in L m' _ _ b K1 Ib) as [_ G]. pose proof (contiguous_le _ _ _ _ K2).
    cbn [map contiguous] in K2. unfold idlev in K2. unfold lo, hi in *. pose proof (pow4_pos (L - pos_level x)). nia. }
  destruct Hb as [m' Em].
  pose proof (wf_seg t l W) as Sg. rewrite El in Sg. apply seg_app in Sg. destruct Sg as [_ Sg].
  apply seg_app in Sg. destruct Sg as [Sg _].
  assert (Enb : exists nb, t_store t b = Some nb /\ n_next nb = hd_or l2 None).
  { rewrite Em in Sg. apply seg_app in Sg. destruct Sg as [_ [[nb [E [_ Hx]]] _]]. exists nb. auto. }
  destruct Enb as [nb [Enb Nnb]]. rewrite Enb. cbn [bind]. rewrite Nnb.
  assert (Dm : NoDup (m ++ l2)).
  { pose proof (wf_nodup t l W) as D. rewrite El in D. clear -D. induction l1; [assumption|]. apply IHl1. inversion D; assumption. }
  assert (Hnot : ~ In (hd_or l2 None) (map Some m)).
  { destruct l2 as [|c l2]; simpl.
    - intros H. apply in_map_iff in H. destruct H as [z [H _]]. discriminate.
    - intros H. apply in_map_iff in H. destruct H as [z [H Hz]]. injection H as ->.
      apply NoDup_remove_2 in Dm. apply Dm. apply in_or_app; auto. }
  assert (Dm' : NoDup m) by (clear -Dm; induction m; [constructor|]; inversion Dm; subst; constructor; [intros K; apply H1; apply in_or_app; auto|auto]).
  pose proof (iterate_seg _ m _ _ Sg Hnot Dm') as It.
  assert (Hhd : hd_or m (hd_or l2 None) = Some f) by (destruct m; [congruence|assumption]). rewrite Hhd in It.
  (* more fuel does not matter *)
  assert (Mono : forall s f1 c st r, iterate f1 s c st = Some r -> forall f2, f1 <= f2 -> iterate f2 s c st = Some r).
  { clear. intros s f1. induction f1 as [|f1 IH]; intros c st r H f2 Hle.
    - simpl in H. destruct f2; simpl; destruct (ptr_eqb c st); auto; destruct c; discriminate.
    - destruct f2 as [|f2]; [lia|]. cbn [iterate] in *. destruct (ptr_eqb c st); [assumption|].
      destruct c as [c|]; [|discriminate]. destruct (s c) as [n|]; [|discriminate]. cbn [bind] in *.
      destruct (iterate f1 s (n_next n) st) as [r'|] eqn:E; [|discriminate]. rewrite (IH _ _ _ E) by lia. assumption. }
  eapply Mono; [exact It|]. rewrite <- (wf_count t l W), El, !app_length. lia.
Qed.

Lemma reachable_wf : forall t, reachable t -> (exists l, WF t l) /\ 0 < t_patches t.
Proof.
  intros t [Pt [close [corners [M [os [t0 [Hc [H4 [E0 [V E]]]]]]]]]].
  destruct (init_tree_ok close corners M H4) as [t0' [l0 [E0' [W0 [P0 _]]]]]. assert (t0' = t0) by congruence. subst t0'.
  destruct (run_ok os t0 l0 W0 V) as [t' [l' [E' [W' P']]]]. assert (t' = t) by congruence. subst t'.
  split; [eauto|]. rewrite P', P0. destruct corners; [congruence|simpl; lia].
Qed.

Lemma global_id_level : forall t a n, node_ok a n -> vaddr a -> pos_patch a < t_patches t ->
  t_patches t * ((4 ^ n_level n - 1) / 3) <= global_id t n < t_patches t * ((4 ^ (n_level n + 1) - 1) / 3).
Proof.
  intros t a n K V HP. unfold global_id. rewrite <- pow4_2, (nk_id _ _ K), (nk_level _ _ K).
  pose proof (pos_id_patch a V) as H. pose proof (pow4_pos (pos_level a)). set (w := 4 ^ pos_level a) in *.
  assert (D : (4 ^ (pos_level a + 1) - 1) / 3 = w + (w - 1) / 3).
  { rewrite Nat.pow_add_r. fold w. change (4 ^ 1) with 4. replace (w * 4 - 1) with (w - 1 + w * 3) by lia.
    rewrite Nat.div_add by lia. lia. }
  rewrite D. nia.
Qed.

Lemma pow4_mono : forall a b, a <= b -> (4 ^ a - 1) / 3 <= (4 ^ b - 1) / 3.
Proof. intros a b H. apply Nat.div_le_mono; [lia|]. pose proof (Nat.pow_le_mono_r 4 a b). lia. Qed.

Lemma global_id_inj : forall t l a b na nb, WF t l -> t_store t a = Some na -> t_store t b = Some nb ->
  global_id t na = global_id t nb -> a = b.
Proof.
  intros t l a b na nb W Ea Eb E.
  pose proof (wf_node t l W a na Ea) as Ka. pose proof (wf_node t l W b nb Eb) as Kb.
  assert (Va : vaddr a) by (eapply wf_vaddr; [exact W|congruence]). assert (Vb : vaddr b) by (eapply wf_vaddr; [exact W|congruence]).
  destruct (wf_addr_patch t l a W) as [_ Pa]; [congruence|]. destruct (wf_addr_patch t l b W) as [_ Pb]; [congruence|].
  pose proof (global_id_level t a na Ka Va Pa) as Ga. pose proof (global_id_level t b nb Kb Vb Pb) as Gb.
  assert (El : n_level na = n_level nb).
  { destruct (Nat.lt_trichotomy (n_level na) (n_level nb)) as [H|[H|H]]; [exfalso|assumption|exfalso].
    - pose proof (pow4_mono (n_level na + 1) (n_level nb)). assert ((4 ^ (n_level na + 1) - 1) / 3 <= (4 ^ n_level nb - 1) / 3) by (apply pow4_mono; lia). nia.
    - assert ((4 ^ (n_level nb + 1) - 1) / 3 <= (4 ^ n_level na - 1) / 3) by (apply pow4_mono; lia). nia. }
  unfold global_id in E. rewrite El in E. apply vaddr_inj; auto.
  - rewrite <- (nk_level _ _ Ka), <- (nk_level _ _ Kb). assumption.
  - rewrite <- (nk_id _ _ Ka), <- (nk_id _ _ Kb). lia.
Qed.

Lemma node_list_eq : forall t l, WF t l -> 
  map (fun a => match t_store t a with Some n => (n_id n, n_level n) | None => (0, 0) end) l = map idlev l.
Proof.
  intros t l W. apply map_ext_in. intros a Ha. apply (wf_leaf t l W) in Ha. destruct Ha as [n [En _]]. rewrite En.
  pose proof (wf_node t l W a n En) as K. unfold idlev. rewrite (nk_id _ _ K), (nk_level _ _ K). reflexivity.
Qed.
