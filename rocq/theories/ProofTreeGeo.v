(** Ids, tiling, look-up and cluster iteration. *)
From Coq Require Import List Arith Bool Lia QArith Qround Permutation Qfield Lqa.
From Verif Require Import ModelBase ModelTree SpecTree ProofTree ProofTreeWF ProofTreeHist.
Import ListNotations.
Local Close Scope Q_scope.
Local Open Scope nat_scope.

(** ** addresses of existing nodes *)
Fixpoint vaddr (a : addr) : Prop :=
  match a with [] => False | [_] => True | i :: r => i < 4 /\ vaddr r end.

Lemma vaddr_cons : forall i a, a <> [] -> vaddr (i :: a) <-> i < 4 /\ vaddr a.
Proof. intros i [|b a] H; [congruence|reflexivity]. Qed.

Lemma wf_vaddr : forall t l a, WF t l -> t_store t a <> None -> vaddr a.
Proof.
  intros t l a W. induction a as [|i a IH]; intros H; [apply H, (wf_root t l W)|].
  destruct a as [|j a]; [exact I|]. apply vaddr_cons; [discriminate|].
  apply (wf_son t l W) in H; [|discriminate]. destruct H as [Hi [n [En _]]]. split; [assumption|].
  apply IH. congruence.
Qed.

Lemma pow4_pos : forall n, 0 < 4 ^ n.
Proof. intros. pose proof (Nat.pow_nonzero 4 n). lia. Qed.
Lemma pow2_pos : forall n, 0 < 2 ^ n.
Proof. intros. pose proof (Nat.pow_nonzero 2 n). lia. Qed.
Lemma pow4_2 : forall n, 4 ^ n = 2 ^ n * 2 ^ n.
Proof. intros. rewrite <- Nat.pow_mul_l. reflexivity. Qed.

Lemma pos_id_patch : forall a, vaddr a ->
  pos_patch a * 4 ^ pos_level a <= pos_id a < (pos_patch a + 1) * 4 ^ pos_level a.
Proof.
  induction a as [|i a IH]; intros V; [destruct V|].
  destruct a as [|j a]; [unfold pos_patch, pos_level; simpl; lia|].
  apply vaddr_cons in V; [|discriminate]. destruct V as [Hi V]. specialize (IH V).
  rewrite pos_patch_cons, pos_level_cons by discriminate. rewrite Nat.pow_succ_r'.
  change (pos_id (i :: j :: a)) with (4 * pos_id (j :: a) + i).
  set (w := 4 ^ pos_level (j :: a)) in *. nia.
Qed.

Lemma pos_patch_div : forall a, vaddr a -> pos_id a / 4 ^ pos_level a = pos_patch a.
Proof.
  intros a V. pose proof (pos_id_patch a V). pose proof (pow4_pos (pos_level a)).
  symmetry. apply (Nat.div_unique _ _ _ (pos_id a - pos_patch a * 4 ^ pos_level a)); lia.
Qed.

(** under in terms of ids *)
Lemma under_ids : forall b a, vaddr a -> vaddr b ->
  (under a b <-> pos_level a <= pos_level b /\
     pos_id a * 4 ^ (pos_level b - pos_level a) <= pos_id b < (pos_id a + 1) * 4 ^ (pos_level b - pos_level a)).
Proof.
  induction b as [|i b IH]; intros a Va Vb; [destruct Vb|].
  destruct (list_eq_dec Nat.eq_dec (i :: b) a) as [<-|Hne].
  { split; [intros _|intros; apply under_refl]. rewrite Nat.sub_diag. simpl. lia. }
  assert (Ha : a <> []) by (intros ->; exact Va).
  destruct b as [|j b].
  - (* b is a patch *)
    split.
    + intros H. apply under_cons_inv in H. destruct H as [H|[x H]]; [congruence|].
      destruct x; simpl in H; [congruence|discriminate].
    + intros [Hl H]. destruct a as [|k [|k' a]]; [congruence| |].
      * unfold pos_level in *. simpl in H. exfalso. apply Hne. f_equal. lia.
      * unfold pos_level in Hl. simpl in Hl. lia.
  - apply vaddr_cons in Vb; [|discriminate]. destruct Vb as [Hi Vb]. specialize (IH a Va Vb).
    rewrite pos_level_cons by discriminate. change (pos_id (i :: j :: b)) with (4 * pos_id (j :: b) + i).
    assert (Hu : under a (i :: j :: b) <-> under a (j :: b)).
    { split; [intros H; apply under_cons_inv in H; destruct H; [congruence|assumption]|apply under_cons]. }
    rewrite Hu, IH. clear IH Hu. set (c := j :: b) in *. clearbody c.
    destruct (le_lt_dec (pos_level a) (pos_level c)) as [Hl|Hl].
    + replace (S (pos_level c) - pos_level a) with (S (pos_level c - pos_level a)) by lia.
      rewrite Nat.pow_succ_r'. set (w := 4 ^ (pos_level c - pos_level a)).
      split; intros [_ H]; (split; [lia|]); nia.
    + split; [lia|]. intros [Hl' H].
      (* same level, different address: impossible *)
      exfalso. assert (El : pos_level a = S (pos_level c)) by lia. rewrite El, Nat.sub_diag in H. simpl in H.
      assert (Ei : pos_id a = 4 * pos_id c + i) by lia.
      destruct a as [|k a]; [congruence|]. destruct a as [|k' a]; [unfold pos_level in El; simpl in El; lia|].
      apply vaddr_cons in Va; [|discriminate]. destruct Va as [Hk Va].
      rewrite pos_level_cons in El by discriminate.
      change (pos_id (k :: k' :: a)) with (4 * pos_id (k' :: a) + k) in Ei.
      assert (k = i /\ pos_id (k' :: a) = pos_id c) by lia. destruct H0 as [-> Ec].
      assert (Ea : k' :: a = c); [|congruence].
      clear - Ec El Va Vb. assert (El' : pos_level (k' :: a) = pos_level c) by lia. clear El.
      set (d := k' :: a) in *. clearbody d. clear k' a. revert d Va Ec El'.
      induction c as [|i c IH]; intros d Va Ec El; [destruct Vb|].
      destruct d as [|k d]; [destruct Va|].
      destruct c as [|i' c]; destruct d as [|k' d]; unfold pos_level in El; simpl in El; try lia.
      * simpl in Ec. f_equal. lia.
      * apply (proj1 (vaddr_cons k (k' :: d) ltac:(discriminate))) in Va. destruct Va as [Hk Va].
        apply (proj1 (vaddr_cons i (i' :: c) ltac:(discriminate))) in Vb. destruct Vb as [Hi Vb].
        change (4 * pos_id (k' :: d) + k = 4 * pos_id (i' :: c) + i) in Ec.
        assert (k = i /\ pos_id (k' :: d) = pos_id (i' :: c)) by lia. destruct H as [-> E].
        f_equal. apply IH; [assumption|assumption|assumption|unfold pos_level; simpl; lia].
Qed.

Lemma vaddr_inj : forall a b, vaddr a -> vaddr b -> pos_level a = pos_level b -> pos_id a = pos_id b -> a = b.
Proof.
  intros a b Va Vb El Ei. assert (U : under a b).
  { apply under_ids; auto. rewrite El, Nat.sub_diag. simpl. lia. }
  destruct U as [x ->]. destruct x as [|y x]; [reflexivity|].
  assert (Ha : a <> []) by (intros ->; exact Va). unfold pos_level in El. simpl in El. rewrite app_length in El.
  destruct a; [congruence|]. simpl in El. lia.
Qed.

(** a leaf has no proper descendants *)
Lemma leaf_under : forall t l a b, WF t l -> is_leaf t a -> t_store t b <> None -> under a b -> b = a.
Proof.
  intros t l a b W [c [Ea Er]] Hb U. apply under_split in U. destruct U as [->|[i [x ->]]]; [reflexivity|]. exfalso.
  assert (Hson : t_store t (i :: a) <> None).
  { induction x as [|y x IHx]; [assumption|]. simpl in Hb. apply (wf_son t l W) in Hb; [|destruct x; discriminate].
    destruct Hb as [_ [m [Em _]]]. apply IHx. congruence. }
  apply Hson. eapply leaf_sons_none; eauto.
Qed.

Lemma under_exists : forall t l a b, WF t l -> vaddr a -> t_store t b <> None -> under a b -> t_store t a <> None.
Proof.
  intros t l a b W Va Hb [x ->]. induction x as [|y x IHx]; [assumption|]. simpl in Hb.
  apply (wf_son t l W) in Hb; [|destruct x; [destruct a; [destruct Va|discriminate]|discriminate]].
  destruct Hb as [_ [m [Em _]]]. apply IHx. congruence.
Qed.

(** ** uniform trees *)
Lemma contiguous_uniform : forall M l from upto, (forall x, In x l -> snd x = M) -> contiguous M from l upto ->
  length l + from = upto /\ forall k, k < length l -> nth k (map fst l) 0 = from + k.
Proof.
  intros M l. induction l as [|[id lev] l IH]; intros from upto H C; simpl in C.
  - split; [assumption|]. simpl. intros; lia.
  - assert (E : lev = M) by (apply (H (id, lev)); left; reflexivity). subst lev.
    destruct C as [_ [Hf C]]. rewrite Nat.sub_diag in Hf, C. simpl in Hf, C. rewrite Nat.mul_1_r in Hf, C. subst from.
    destruct (IH (id + 1) upto) as [HL HN]; [intros; apply H; right; assumption|assumption|].
    simpl. split; [lia|]. intros [|k] Hk; [lia|]. rewrite HN by lia. lia.
Qed.

Lemma uniform_list : forall t l M, WF t l -> all_level t M ->
  length l = t_patches t * 4 ^ M /\ forall k, k < length l -> pos_id (nth k l []) = k /\ pos_level (nth k l []) = M.
Proof.
  intros t l M W A.
  assert (Hl : forall a, In a l -> pos_level a = M) by (intros a Ha; apply A; apply (wf_leaf t l W); assumption).
  destruct (contiguous_uniform M (map idlev l) 0 (t_patches t * 4 ^ M)) as [HL HN].
  - intros x Hx. apply in_map_iff in Hx. destruct Hx as [a [<- Ha]]. simpl. auto.
  - apply (wf_order t l W). intros a Ha. rewrite (Hl a Ha). lia.
  - rewrite map_length in HL, HN. split; [lia|]. intros k Hk. split; [|apply Hl, nth_In; assumption].
    specialize (HN k Hk). rewrite map_map in HN.
    rewrite <- HN at 2. change 0 with (fst (idlev [])). rewrite (map_nth (fun x => fst (idlev x))). reflexivity.
Qed.

(** every id below P*4^l occurs at level l <= M *)
Lemma uniform_all_ids : forall t l M, WF t l -> all_level t M -> forall lev k, lev <= M -> k < t_patches t * 4 ^ lev ->
  exists a, t_store t a <> None /\ pos_level a = lev /\ pos_id a = k.
Proof.
  intros t l M W A lev. induction lev as [|lev IH]; intros k Hl Hk.
  - exists [k]. split; [apply (wf_patch t l W); simpl in Hk; lia|]. split; [reflexivity|]. simpl. lia.
  - rewrite Nat.pow_succ_r' in Hk. destruct (IH (k / 4)) as [a [Ha [La Ia]]]; [lia|apply Nat.div_lt_upper_bound; lia|].
    exists ((k mod 4) :: a).
    assert (Hne : a <> []) by (eapply wf_nonroot; eauto).
    split; [|split].
    + destruct (t_store t a) as [n|] eqn:En; [|congruence]. destruct (n_ref n) eqn:Er.
      * eapply wf_refined_son; eauto. apply Nat.mod_upper_bound; lia.
      * exfalso. assert (pos_level a = M) by (apply A; exists n; auto). lia.
    + rewrite pos_level_cons by assumption. lia.
    + cbn [pos_id]. rewrite Ia. symmetry. apply Nat.div_mod. lia.
Qed.

(** ** tiling *)
Lemma Qfloor_iff : forall q z, Qfloor q = z <-> (inject_Z z <= q /\ q < inject_Z (z + 1))%Q.
Proof.
  intros q z. split.
  - intros <-. split; [apply Qfloor_le|apply Qlt_floor].
  - intros [H1 H2]. apply Z.le_antisymm.
    + apply Z.lt_succ_r. unfold Z.succ. rewrite Zlt_Qlt. eapply Qle_lt_trans; [apply Qfloor_le|exact H2].
    + rewrite <- (Qfloor_Z z). apply Qfloor_resp_le. assumption.
Qed.

Lemma scale_interval : forall (X x : Q) lev, 
  ((X / pow2Q lev <= x /\ x < X / pow2Q lev + 1 / pow2Q lev) <-> (X <= x * pow2Q lev /\ x * pow2Q lev < X + 1))%Q.
Proof.
  intros X x lev. pose proof (pow2Q_pos lev) as Hp. set (w := pow2Q lev) in *.
  assert (Hw : ~ (w == 0)%Q) by (intros E; rewrite E in Hp; discriminate Hp).
  assert (E1 : (X / w + 1 / w == (X + 1) / w)%Q) by (field; assumption).
  rewrite E1. split; intros [A B]; split.
  - apply (Qmult_le_compat_r _ _ w) in A; [|apply Qlt_le_weak; assumption].
    setoid_replace (X / w * w)%Q with X in A by (field; assumption). assumption.
  - apply (Qmult_lt_compat_r _ _ w) in B; [|assumption].
    setoid_replace ((X + 1) / w * w)%Q with (X + 1)%Q in B by (field; assumption). assumption.
  - apply Qle_shift_div_r; assumption.
  - apply Qlt_shift_div_l; assumption.
Qed.

Lemma covers_floor : forall a n x y, node_ok a n ->
  (covers n x y <-> Qfloor (x * pow2Q (pos_level a)) = Z.of_nat (pos_x a) /\
                    Qfloor (y * pow2Q (pos_level a)) = Z.of_nat (pos_y a)).
Proof.
  intros a n x y K. unfold covers, get_h. rewrite (nk_level _ _ K). destruct (nk_llc _ _ K) as [Hx Hy].
  rewrite !Hx, !Hy. rewrite !Qfloor_iff, !inject_Z_plus, <- !scale_interval. tauto.
Qed.

Lemma floor_double : forall q, exists b : nat, b < 2 /\ Qfloor (2 * q) = (2 * Qfloor q + Z.of_nat b)%Z.
Proof.
  intros q. pose proof (Qfloor_le q) as H1. pose proof (Qlt_floor q) as H2.
  set (z := Qfloor q) in *. clearbody z.
  destruct (Qlt_le_dec (2 * q) (inject_Z (2 * z + 1))) as [H|H].
  - exists 0. split; [lia|]. apply Qfloor_iff. rewrite Z.add_0_r. split; [|assumption].
    rewrite inject_Z_mult. change (inject_Z 2) with 2%Q. lra.
  - exists 1. split; [lia|]. apply Qfloor_iff. split; [assumption|].
    change (Z.of_nat 1) with 1%Z. rewrite !inject_Z_plus, inject_Z_mult. rewrite inject_Z_plus in H2.
    change (inject_Z 1) with 1%Q in *. change (inject_Z 2) with 2%Q. lra.
Qed.

Definition quad_of (bx by_ : nat) : nat :=
  match bx, by_ with 0, 0 => 0 | 1, 0 => 1 | 1, 1 => 2 | _, _ => 3 end.

Lemma father_floor : forall i a x (pos : addr -> nat) (quad : nat -> nat), a <> [] -> 
  (forall j, j < 4 -> quad j < 2) -> i < 4 ->
  pos (i :: a) = 2 * pos a + quad i ->
  Qfloor (x * pow2Q (pos_level (i :: a))) = Z.of_nat (pos (i :: a)) ->
  Qfloor (x * pow2Q (pos_level a)) = Z.of_nat (pos a).
Proof.
  intros i a x pos quad Ha Hq Hi E H. rewrite pos_level_cons in H by assumption.
  assert (E2 : (x * pow2Q (S (pos_level a)) == 2 * (x * pow2Q (pos_level a)))%Q) by (rewrite pow2Q_S; ring).
  rewrite (Qfloor_comp _ _ E2) in H.
  destruct (floor_double (x * pow2Q (pos_level a))%Q) as [b [Hb Eb]]. rewrite Eb, E in H.
  specialize (Hq i Hi). lia.
Qed.

Lemma quad_x_lt : forall j, j < 4 -> quad_x j < 2.
Proof. intros j H. destruct j as [|[|[|[|j]]]]; simpl; lia. Qed.
Lemma quad_y_lt : forall j, j < 4 -> quad_y j < 2.
Proof. intros j H. destruct j as [|[|[|[|j]]]]; simpl; lia. Qed.

(** the point determines the node of a level *)
Lemma same_cell : forall a b x y, vaddr a -> vaddr b -> pos_level a = pos_level b -> pos_patch a = pos_patch b ->
  Qfloor (x * pow2Q (pos_level a)) = Z.of_nat (pos_x a) -> Qfloor (y * pow2Q (pos_level a)) = Z.of_nat (pos_y a) ->
  Qfloor (x * pow2Q (pos_level b)) = Z.of_nat (pos_x b) -> Qfloor (y * pow2Q (pos_level b)) = Z.of_nat (pos_y b) ->
  a = b.
Proof.
  induction a as [|i a IH]; intros b x y Va Vb El Ep X1 Y1 X2 Y2; [destruct Va|].
  destruct b as [|j b]; [destruct Vb|].
  destruct a as [|i' a]; destruct b as [|j' b].
  - unfold pos_patch in Ep. simpl in Ep. congruence.
  - unfold pos_level in El; simpl in El; lia.
  - unfold pos_level in El; simpl in El; lia.
  - assert (Exy : pos_x (i :: i' :: a) = pos_x (j :: j' :: b) /\ pos_y (i :: i' :: a) = pos_y (j :: j' :: b)).
    { rewrite El in X1, Y1. lia. }
    apply vaddr_cons in Va; [|discriminate]. apply vaddr_cons in Vb; [|discriminate].
    rewrite (pos_x_cons i), (pos_x_cons j), (pos_y_cons i), (pos_y_cons j) in Exy by discriminate. destruct Va as [Hi Va], Vb as [Hj Vb].
    assert (E : i' :: a = j' :: b).
    { apply (IH (j' :: b) x y); auto.
      - rewrite (pos_level_cons i), (pos_level_cons j) in El by discriminate. lia.
      - apply (father_floor i _ x pos_x quad_x); auto using quad_x_lt; try discriminate; try (apply pos_x_cons; discriminate).
      - apply (father_floor i _ y pos_y quad_y); auto using quad_y_lt; try discriminate; try (apply pos_y_cons; discriminate).
      - apply (father_floor j _ x pos_x quad_x); auto using quad_x_lt; try discriminate; try (apply pos_x_cons; discriminate).
      - apply (father_floor j _ y pos_y quad_y); auto using quad_y_lt; try discriminate; try (apply pos_y_cons; discriminate). }
    rewrite E in *. f_equal.
    destruct i as [|[|[|[|i]]]]; try lia; destruct j as [|[|[|[|j]]]]; try lia; simpl in Exy; lia.
Qed.

Lemma covers_under : forall b a x y, vaddr a -> vaddr b -> pos_patch a = pos_patch b -> pos_level a <= pos_level b ->
  Qfloor (x * pow2Q (pos_level a)) = Z.of_nat (pos_x a) -> Qfloor (y * pow2Q (pos_level a)) = Z.of_nat (pos_y a) ->
  Qfloor (x * pow2Q (pos_level b)) = Z.of_nat (pos_x b) -> Qfloor (y * pow2Q (pos_level b)) = Z.of_nat (pos_y b) ->
  under a b.
Proof.
  induction b as [|j b IH]; intros a x y Va Vb Ep Hl X1 Y1 X2 Y2; [destruct Vb|].
  destruct (Nat.eq_dec (pos_level a) (pos_level (j :: b))) as [El|Hne].
  - rewrite (same_cell a (j :: b) x y); auto using under_refl.
  - destruct b as [|j' b]; [unfold pos_level in *; simpl in *; lia|].
    apply vaddr_cons in Vb; [|discriminate]. destruct Vb as [Hj Vb]. rewrite pos_level_cons in Hne, Hl by discriminate.
    apply under_cons. apply (IH a x y); auto.
    + lia.
    + apply (father_floor j _ x pos_x quad_x); auto using quad_x_lt; try discriminate; try (apply pos_x_cons; discriminate).
    + apply (father_floor j _ y pos_y quad_y); auto using quad_y_lt; try discriminate; try (apply pos_y_cons; discriminate).
Qed.

Lemma tile_exists : forall t l x y d a, WF t l -> t_store t a <> None -> t_maxlevel t < pos_level a + d ->
  Qfloor (x * pow2Q (pos_level a)) = Z.of_nat (pos_x a) -> Qfloor (y * pow2Q (pos_level a)) = Z.of_nat (pos_y a) ->
  exists b, is_leaf t b /\ under a b /\
    Qfloor (x * pow2Q (pos_level b)) = Z.of_nat (pos_x b) /\ Qfloor (y * pow2Q (pos_level b)) = Z.of_nat (pos_y b).
Proof.
  intros t l x y d. induction d as [|d IH]; intros a W Ha Hd X Y.
  { pose proof (wf_ml t l W a Ha). lia. }
  destruct (t_store t a) as [n|] eqn:En; [|congruence].
  assert (Hne : a <> []) by (eapply wf_nonroot; [exact W|congruence]).
  destruct (n_ref n) eqn:Er.
  - destruct (floor_double (x * pow2Q (pos_level a))%Q) as [bx [Hbx Ebx]].
    destruct (floor_double (y * pow2Q (pos_level a))%Q) as [by_ [Hby Eby]].
    set (i := quad_of bx by_).
    assert (Hi : i < 4 /\ quad_x i = bx /\ quad_y i = by_).
    { unfold i. destruct bx as [|[|bx]], by_ as [|[|by_]]; simpl; lia. }
    destruct Hi as [Hi [Qx Qy]].
    assert (E2 : forall z, (z * pow2Q (S (pos_level a)) == 2 * (z * pow2Q (pos_level a)))%Q) by (intros; rewrite pow2Q_S; ring).
    destruct (IH (i :: a)) as [b [Lb [Ub Hb]]].
    + assumption.
    + eapply wf_refined_son; eauto.
    + rewrite pos_level_cons by assumption. lia.
    + rewrite pos_level_cons, pos_x_cons, (Qfloor_comp _ _ (E2 x)), Ebx, X, Qx by assumption. lia.
    + rewrite pos_level_cons, pos_y_cons, (Qfloor_comp _ _ (E2 y)), Eby, Y, Qy by assumption. lia.
    + exists b. split; [assumption|]. split; [eapply under_father; exact Ub|assumption].
  - exists a. split; [exists n; auto|]. split; [apply under_refl|]. auto.
Qed.

Lemma floor_unit : forall x, (0 <= x)%Q -> (x < 1)%Q -> Qfloor (x * pow2Q 0) = 0%Z.
Proof. intros x H0 H1. apply Qfloor_iff. change (pow2Q 0) with 1%Q. change (inject_Z (0 + 1)) with 1%Q. change (inject_Z 0) with 0%Q. lra. Qed.

Theorem tiling : forall t l p x y, WF t l -> p < t_patches t -> (0 <= x)%Q -> (x < 1)%Q -> (0 <= y)%Q -> (y < 1)%Q ->
  exists! a, is_leaf t a /\ exists n, t_store t a = Some n /\ n_patch n = p /\ covers n x y.
Proof.
  intros t l p x y W Hp X0 X1 Y0 Y1.
  destruct (tile_exists t l x y (t_maxlevel t + 1) [p] W) as [b [Lb [Ub [Xb Yb]]]].
  - apply (wf_patch t l W). assumption.
  - lia.
  - change (pos_level [p]) with 0. rewrite floor_unit by assumption. reflexivity.
  - change (pos_level [p]) with 0. rewrite floor_unit by assumption. reflexivity.
  - destruct Lb as [n [En Rn]]. exists b. split.
    + split; [exists n; auto|]. exists n. split; [assumption|].
      pose proof (wf_node t l W b n En) as K. split; [|apply (covers_floor b); auto].
      rewrite (nk_patch _ _ K). destruct Ub as [z ->]. unfold pos_patch. apply last_last.
    + intros b' [Lb' [n' [En' [Pn' Cn']]]].
      pose proof (wf_node t l W b n En) as K. pose proof (wf_node t l W b' n' En') as K'.
      apply (covers_floor b' n' x y K') in Cn'. destruct Cn' as [Xb' Yb'].
      assert (Vb : vaddr b) by (eapply wf_vaddr; [exact W|congruence]).
      assert (Vb' : vaddr b') by (eapply wf_vaddr; [exact W|congruence]).
      assert (Ep : pos_patch b = pos_patch b').
      { rewrite <- (nk_patch _ _ K'), Pn'. destruct Ub as [z ->]. unfold pos_patch. apply last_last. }
      destruct (le_lt_dec (pos_level b) (pos_level b')) as [Hl|Hl].
      * symmetry. apply (leaf_under t l b b' W); [exists n; auto|congruence|]. apply (covers_under b' b x y); auto.
      * apply (leaf_under t l b' b W); [assumption|congruence|]. apply (covers_under b b' x y); auto. lia.
Qed.
