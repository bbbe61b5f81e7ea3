(** Proofs for C76: powers of two, dyadic numbers and monotonicity of rounding. *)
From Coq Require Import Reals ZArith List Arith Bool Lia Lra Qreals QArith.
From Flocq Require Import Core Sterbenz Plus_error.
From Verif Require Import ModelBase ModelTree SpecTree ModelMachine SpecMachine.
Import ListNotations.
Local Close Scope Q_scope.
Local Open Scope R_scope.

Notation fexp := (FLT_exp (-1074) 53).
Notation fmt := (generic_format radix2 fexp).
#[export] Instance flt_valid : Valid_exp fexp. Proof. apply FLT_exp_valid. reflexivity. Qed.
#[export] Instance flt_mono : Monotone_exp fexp. Proof. apply FLT_exp_monotone. Qed.

Lemma double_fmt : forall x, is_double x <-> fmt x.
Proof.
  intros x. split.
  - intros [k [e [-> [Hk He]]]]. apply generic_format_FLT. exists (Float radix2 k e); [reflexivity|exact Hk|exact He].
  - intros F. apply FLT_format_generic in F; [|reflexivity]. destruct F as [f E Hk He]. exists (Fnum f), (Fexp f).
    split; [rewrite E; destruct f; reflexivity|]. split; assumption.
Qed.
Lemma rnd_fmt : forall x, fmt (rnd x).
Proof. intros x. apply generic_format_round; typeclasses eauto. Qed.
Lemma rnd_id : forall x, fmt x -> rnd x = x.
Proof. intros x F. apply round_generic; [typeclasses eauto|exact F]. Qed.
Lemma rnd_le : forall x y, x <= y -> rnd x <= rnd y.
Proof. intros x y L. apply round_le; [typeclasses eauto|typeclasses eauto|exact L]. Qed.
Lemma rnd_between : forall a b x, fmt a -> fmt b -> a <= x <= b -> a <= rnd x <= b.
Proof. intros a b x Fa Fb [L1 L2]. rewrite <- (rnd_id a Fa), <- (rnd_id b Fb). split; apply rnd_le; assumption. Qed.

(** dyadic numbers k / 2^j *)
Definition pw (j : nat) : R := IZR (2 ^ Z.of_nat j).
Lemma pw_bpow : forall j, pw j = bpow radix2 (Z.of_nat j).
Proof. intros j. unfold pw. rewrite <- (IZR_Zpower radix2) by lia. reflexivity. Qed.
Lemma pw_pos : forall j, 0 < pw j. Proof. intros j. rewrite pw_bpow. apply bpow_gt_0. Qed.
Lemma pw_S : forall j, pw (S j) = 2 * pw j.
Proof. intros j. unfold pw. rewrite Nat2Z.inj_succ, Z.pow_succ_r by lia. rewrite mult_IZR. reflexivity. Qed.
Lemma dyadic_fmt : forall k j, (Z.abs k < 2 ^ 53)%Z -> (j <= 1000)%nat -> fmt (IZR k / pw j).
Proof.
  intros k j Hk Hj. apply double_fmt. exists k, (- Z.of_nat j)%Z. split; [|lia].
  rewrite pw_bpow, bpow_opp. reflexivity.
Qed.
Lemma int_fmt : forall k, (Z.abs k < 2 ^ 53)%Z -> fmt (IZR k).
Proof. intros k Hk. replace (IZR k) with (IZR k / pw 0) by (unfold pw; simpl; lra). apply dyadic_fmt; [exact Hk|lia]. Qed.
Lemma of_int_id : forall k, (Z.abs k < 2 ^ 53)%Z -> of_int k = IZR k.
Proof. intros k Hk. apply rnd_id, int_fmt, Hk. Qed.
Lemma pow_small : forall j, (j <= 30)%nat -> (Z.abs (2 ^ Z.of_nat j) < 2 ^ 53)%Z.
Proof. intros j Hj. rewrite Z.abs_eq by (apply Z.pow_nonneg; lia). apply Z.pow_lt_mono_r; lia. Qed.
Lemma of_int_pw : forall j, (j <= 30)%nat -> of_int (2 ^ Z.of_nat j) = pw j.
Proof. intros j Hj. apply of_int_id, pow_small, Hj. Qed.
Lemma ishl_pw : forall j, (j <= 30)%nat -> ishl (Z.of_nat j) = Some (2 ^ Z.of_nat j)%Z.
Proof.
  intros j Hj. unfold ishl. destruct (Z.leb_spec 0 (Z.of_nat j)); [|lia]. destruct (Z.leb_spec (Z.of_nat j) 30); [reflexivity|lia].
Qed.
(** scaling by powers of two is exact, as long as the result is not too small *)
Lemma fmt_scale_up : forall x j, fmt x -> fmt (x * pw j).
Proof.
  intros x j F. apply double_fmt in F. destruct F as [k [e [-> [Hk He]]]]. apply double_fmt. exists k, (e + Z.of_nat j)%Z.
  split; [rewrite pw_bpow, bpow_plus; ring|lia].
Qed.
Lemma m_h_ok : forall j, (j <= 30)%nat -> m_h (Z.of_nat j) = Some (1 / pw j).
Proof.
  intros j Hj. unfold m_h. rewrite ishl_pw by exact Hj. cbn [bind]. unfold ddiv. rewrite of_int_pw by exact Hj.
  rewrite of_int_id by (simpl; lia). rewrite rnd_id; [reflexivity|]. apply dyadic_fmt; [simpl; lia|lia].
Qed.
Lemma to_int_ok : forall z, (-2147483648 <= z <= 2147483647)%Z -> to_int z = Some z.
Proof.
  intros z Hz. unfold to_int, int_ok. destruct (Z.leb_spec (-2147483648) z); [|lia]. destruct (Z.leb_spec z 2147483647); [reflexivity|lia].
Qed.
Lemma to_int_none : forall z, ~ (-2147483648 <= z <= 2147483647)%Z -> to_int z = None.
Proof.
  intros z Hz. unfold to_int, int_ok. destruct (Z.leb_spec (-2147483648) z); [|reflexivity]. destruct (Z.leb_spec z 2147483647); [lia|reflexivity].
Qed.
(** sums of dyadic numbers with few digits *)
Lemma dadd_dyadic : forall k1 k2 j, (Z.abs (k1 + k2) < 2 ^ 53)%Z -> (j <= 1000)%nat -> dadd (IZR k1 / pw j) (IZR k2 / pw j) = IZR (k1 + k2) / pw j.
Proof.
  intros k1 k2 j Hk Hj. unfold dadd. rewrite rnd_id; [rewrite plus_IZR; field; apply Rgt_not_eq, pw_pos|].
  replace (IZR k1 / pw j + IZR k2 / pw j) with (IZR (k1 + k2) / pw j) by (rewrite plus_IZR; field; apply Rgt_not_eq, pw_pos).
  apply dyadic_fmt; assumption.
Qed.

(** *** the nodes *)
Lemma pos_x_lt : forall a, (forall i, In i (removelast a) -> (i < 4)%nat) -> (pos_x a < 2 ^ pos_level a)%nat /\ (pos_y a < 2 ^ pos_level a)%nat.
Proof.
  induction a as [|i r IH]; intros Hi; [simpl; lia|]. destruct r as [|p r]; [simpl; lia|].
  assert (Hr : forall i0, In i0 (removelast (p :: r)) -> (i0 < 4)%nat) by (intros i0 H0; apply Hi; right; exact H0).
  specialize (IH Hr). unfold pos_level in *. cbn [length] in *. replace (S (S (length r)) - 1)%nat with (S (length r)) by lia.
  replace (S (length r) - 1)%nat with (length r) in IH by lia. cbn [pos_x pos_y].
  change (match r with [] => 0%nat | _ :: _ => (2 * pos_x r + quad_x p)%nat end) with (pos_x (p :: r)).
  change (match r with [] => 0%nat | _ :: _ => (2 * pos_y r + quad_y p)%nat end) with (pos_y (p :: r)).
  assert (Hq : (quad_x i <= 1)%nat /\ (quad_y i <= 1)%nat) by (destruct i as [|[|[|[|i]]]]; simpl; lia).
  rewrite Nat.pow_succ_r'. lia.
Qed.
Definition m_exact (a : addr) : mnode :=
  mkM (Z.of_nat (pos_id a)) (Z.of_nat (pos_level a)) (Z.of_nat (pos_patch a)) (IZR (Z.of_nat (pos_x a)) / pw (pos_level a)) (IZR (Z.of_nat (pos_y a)) / pw (pos_level a)).
Definition good_addr (a : addr) : Prop := a <> [] /\ forall i, In i (removelast a) -> (i < 4)%nat.
Lemma good_cons : forall i p r, good_addr (i :: p :: r) -> (i < 4)%nat /\ good_addr (p :: r).
Proof.
  intros i p r [_ Hi]. split; [apply Hi; left; reflexivity|]. split; [discriminate|]. intros j Hj. apply Hi. right. exact Hj.
Qed.
Lemma llcs_exact : forall i, (i < 4)%nat -> llcs_x i = IZR (Z.of_nat (quad_x i)) / 2 /\ llcs_y i = IZR (Z.of_nat (quad_y i)) / 2.
Proof. intros i Hi. destruct i as [|[|[|[|i]]]]; try lia; unfold llcs_x, llcs_y, quad_x, quad_y; simpl; lra. Qed.
Lemma m_son_llc : forall k q j, (j <= 30)%nat -> (k < 2 ^ j)%nat -> (q <= 1)%nat ->
  dadd (IZR (Z.of_nat k) / pw j) (ddiv (IZR (Z.of_nat q) / 2) (of_int (2 ^ Z.of_nat j))) = IZR (Z.of_nat (2 * k + q)) / pw (S j).
Proof.
  intros k q j Hj Hk Hq. rewrite of_int_pw by exact Hj. pose proof (pw_pos j) as P0. pose proof (pw_pos (S j)) as P1.
  assert (Hb : (2 ^ j <= 2 ^ 30)%nat) by (apply Nat.pow_le_mono_r; lia).
  assert (B30 : Z.of_nat (2 ^ 30) = (2 ^ 30)%Z) by (rewrite Nat2Z.inj_pow; reflexivity).
  assert (D : ddiv (IZR (Z.of_nat q) / 2) (pw j) = IZR (Z.of_nat q) / pw (S j)).
  { unfold ddiv. replace (IZR (Z.of_nat q) / 2 / pw j) with (IZR (Z.of_nat q) / pw (S j)) by (rewrite pw_S; field; lra).
    apply rnd_id, dyadic_fmt; lia. }
  rewrite D. replace (IZR (Z.of_nat k) / pw j) with (IZR (Z.of_nat (2 * k)) / pw (S j)).
  - rewrite dadd_dyadic; [f_equal; f_equal; lia| |lia]. assert ((2 ^ 31 < 2 ^ 53)%Z) by (apply Z.pow_lt_mono_r; lia). lia.
  - rewrite pw_S. replace (Z.of_nat (2 * k)) with (2 * Z.of_nat k)%Z by lia. rewrite mult_IZR. field. lra.
Qed.
Lemma pos_id_patch : forall a, a <> [] -> (pos_patch a <= pos_id a)%nat.
Proof.
  induction a as [|i r IH]; intros Hn; [congruence|]. destruct r as [|p r]; [unfold pos_patch; simpl; lia|].
  assert (IH' : (pos_patch (p :: r) <= pos_id (p :: r))%nat) by (apply IH; discriminate). unfold pos_patch in *.
  change (last (i :: p :: r) 0%nat) with (last (p :: r) 0%nat). change (pos_id (i :: p :: r)) with (4 * pos_id (p :: r) + i)%nat. lia.
Qed.
Definition int_max : nat := Z.to_nat 2147483647.
Lemma m_node_cons : forall i p r, m_node (i :: p :: r) = bind (m_node (p :: r)) (fun c => m_son c i).
Proof. reflexivity. Qed.
Lemma m_node_ok : forall a, good_addr a -> (pos_level a <= 31)%nat -> (Z.of_nat (pos_id a) <= 2147483647)%Z -> m_node a = Some (m_exact a).
Proof.
  induction a as [|i r IH]; intros G Hl Hid; [destruct G; congruence|]. destruct r as [|p r].
  - unfold m_node. rewrite to_int_ok by (unfold pos_id in Hid; lia). cbn [bind]. unfold m_exact, pos_id, pos_level, pos_patch, pos_x, pos_y.
    cbn [length last]. replace (4 * 0 + i)%nat with i by lia. change (1 - 1)%nat with 0%nat. change (Z.of_nat 0) with 0%Z.
    f_equal. f_equal; unfold Rdiv; ring.
  - destruct (good_cons i p r G) as [Hi Gr]. rewrite m_node_cons.
    assert (Hlr : (pos_level (p :: r) <= 30)%nat) by (unfold pos_level in *; cbn [length] in *; lia).
    change (pos_id (i :: p :: r)) with (4 * pos_id (p :: r) + i)%nat in Hid.
    rewrite (IH Gr) by lia. cbn [bind]. unfold m_son, m_exact. cbn [m_level m_id m_patch m_x m_y].
    assert (B53 : (2147483647 < 2 ^ 53)%Z) by reflexivity.
    unfold iadd. rewrite to_int_ok by lia. cbn [bind]. unfold imul. rewrite to_int_ok by lia. cbn [bind]. rewrite to_int_ok by lia. cbn [bind].
    rewrite ishl_pw by exact Hlr. cbn [bind]. destruct (llcs_exact i Hi) as [-> ->].
    destruct (pos_x_lt (p :: r) (proj2 Gr)) as [Hx Hy].
    assert (Q : (quad_x i <= 1)%nat /\ (quad_y i <= 1)%nat) by (destruct i as [|[|[|[|i]]]]; simpl; lia).
    rewrite !m_son_llc by tauto.
    assert (El : pos_level (i :: p :: r) = S (pos_level (p :: r))) by (unfold pos_level; cbn [length]; lia).
    rewrite El. f_equal. f_equal; [|lia]. change (pos_id (i :: p :: r)) with (4 * pos_id (p :: r) + i)%nat. lia.
Qed.
Lemma m_node_overflow : forall a, good_addr a -> (Z.of_nat (pos_id a) > 2147483647)%Z -> m_node a = None.
Proof.
  induction a as [|i r IH]; intros G Hid; [destruct G; congruence|]. destruct r as [|p r].
  - unfold m_node. rewrite to_int_none; [reflexivity|]. unfold pos_id in Hid. lia.
  - destruct (good_cons i p r G) as [Hi Gr]. rewrite m_node_cons. change (pos_id (i :: p :: r)) with (4 * pos_id (p :: r) + i)%nat in Hid.
    destruct (Z_le_gt_dec (Z.of_nat (pos_id (p :: r))) 2147483647) as [L|L]; [|rewrite (IH Gr L); reflexivity].
    destruct (le_gt_dec (pos_level (p :: r)) 31) as [Ll|Ll].
    + rewrite (m_node_ok (p :: r) Gr Ll L). cbn [bind]. unfold m_son, m_exact. cbn [m_level m_id m_patch m_x m_y].
      unfold iadd at 1. rewrite to_int_ok by lia. cbn [bind]. unfold imul.
      destruct (Z_le_gt_dec (4 * Z.of_nat (pos_id (p :: r))) 2147483647) as [L4|L4].
      * rewrite to_int_ok by lia. cbn [bind]. unfold iadd. rewrite to_int_none by lia. reflexivity.
      * rewrite to_int_none by lia. reflexivity.
    + destruct (m_node (p :: r)) as [c|] eqn:Ec; [|reflexivity]. exfalso. clear -Ec Ll Gr.
      assert (K : forall b c, m_node b = Some c -> m_level c = Z.of_nat (pos_level b) /\ (pos_level b <= 31)%nat).
      { clear. induction b as [|j b IHb]; intros c Ec; [discriminate|]. destruct b as [|q b].
        - unfold m_node in Ec. destruct (to_int (Z.of_nat j)); cbn [bind] in Ec; [|discriminate]. injection Ec as <-. split; [reflexivity|unfold pos_level; simpl; lia].
        - rewrite m_node_cons in Ec. destruct (m_node (q :: b)) as [d|] eqn:Ed; cbn [bind] in Ec; [|discriminate].
          destruct (IHb d eq_refl) as [Ld Ld2]. unfold m_son in Ec. destruct (iadd (m_level d) 1) as [lv|] eqn:E1; cbn [bind] in Ec; [|discriminate].
          destruct (imul 4 (m_id d)); cbn [bind] in Ec; [|discriminate]. destruct (iadd z (Z.of_nat j)); cbn [bind] in Ec; [|discriminate].
          destruct (ishl (m_level d)) eqn:E4; cbn [bind] in Ec; [|discriminate]. injection Ec as <-. cbn [m_level].
          unfold iadd, to_int in E1. destruct (int_ok (m_level d + 1)); [|discriminate]. injection E1 as <-.
          unfold ishl in E4. destruct (Z.leb_spec 0 (m_level d)); [|discriminate]. destruct (Z.leb_spec (m_level d) 30); [|discriminate].
          unfold pos_level in *. cbn [length] in *. lia. }
      destruct (K _ _ Ec). lia.
Qed.

(** *** one coordinate: the interval [X/2^j, (X+1)/2^j] *)
Section Interval.
Variables (j : nat) (X : nat).
Hypothesis Hj : (j <= 30)%nat.
Hypothesis HX : (X < 2 ^ j)%nat.
Notation lo := (IZR (Z.of_nat X) / pw j).
Notation hi := (IZR (Z.of_nat X + 1) / pw j).
Notation h := (1 / pw j).
Lemma X_bound : (0 <= Z.of_nat X < 2 ^ Z.of_nat j)%Z /\ (2 ^ Z.of_nat j <= 2 ^ 30)%Z.
Proof.
  split.
  - split; [lia|]. change 2%Z with (Z.of_nat 2). rewrite <- Nat2Z.inj_pow. lia.
  - apply Z.pow_le_mono_r; lia.
Qed.
Lemma lo_fmt : fmt lo. Proof. destruct X_bound. apply dyadic_fmt; [|lia]. assert ((2 ^ 30 < 2 ^ 53)%Z) by reflexivity. lia. Qed.
Lemma hi_fmt : fmt hi. Proof. destruct X_bound. apply dyadic_fmt; [|lia]. assert ((2 ^ 30 + 1 < 2 ^ 53)%Z) by reflexivity. lia. Qed.
Lemma h_fmt : fmt h. Proof. apply dyadic_fmt; [simpl; lia|lia]. Qed.
Lemma lo_h : lo + h = hi. Proof. rewrite plus_IZR. field. apply Rgt_not_eq, pw_pos. Qed.
Lemma h_pos : 0 < h. Proof. apply Rdiv_lt_0_compat; [lra|apply pw_pos]. Qed.
Lemma lo_pos : 0 <= lo. Proof. apply Rmult_le_pos; [apply (IZR_le 0); lia|]. apply Rlt_le, Rinv_0_lt_compat, pw_pos. Qed.
Lemma hi_le_1 : hi <= 1.
Proof.
  pose proof (pw_pos j) as P. apply Rmult_le_reg_r with (pw j); [exact P|]. unfold Rdiv. rewrite Rmult_assoc, Rinv_l, Rmult_1_r, Rmult_1_l by lra.
  unfold pw. apply IZR_le. destruct X_bound. lia.
Qed.
Lemma zero_fmt : fmt 0. Proof. apply generic_format_0. Qed.
Lemma one_fmt : fmt 1. Proof. apply (int_fmt 1). simpl; lia. Qed.
Lemma upper_ok : dadd lo h = hi.
Proof. unfold dadd. rewrite lo_h. apply rnd_id, hi_fmt. Qed.
Lemma mid_ok : dadd lo (dmul (1/2) h) = lo + h / 2 /\ lo + h / 2 = IZR (2 * Z.of_nat X + 1) / pw (S j).
Proof.
  pose proof (pw_pos j) as P. destruct X_bound as [B1 B2].
  assert (E : lo + h / 2 = IZR (2 * Z.of_nat X + 1) / pw (S j)) by (rewrite pw_S, plus_IZR, mult_IZR; field; lra).
  split; [|exact E]. unfold dmul. replace (1 / 2 * h) with (1 / pw (S j)) by (rewrite pw_S; field; lra).
  rewrite (rnd_id (1 / pw (S j))) by (apply dyadic_fmt; [simpl; lia|lia]). unfold dadd.
  replace (lo + 1 / pw (S j)) with (lo + h / 2) by (rewrite pw_S; field; lra). rewrite E.
  apply rnd_id, dyadic_fmt; [|lia]. assert ((2 * 2 ^ 30 + 1 < 2 ^ 53)%Z) by reflexivity. lia.
Qed.
Lemma mapped_ok : forall fused x, fmt x -> 0 <= x <= 1 ->
  let z := if fused : bool then rnd (lo + h * x) else dadd lo (dmul h x) in lo <= z <= hi.
Proof.
  intros fused x Fx Hx. pose proof h_pos as Hp. assert (B : 0 <= h * x <= h) by nra. rewrite <- lo_h. destruct fused; cbv zeta.
  - rewrite lo_h. apply rnd_between; [apply lo_fmt|apply hi_fmt|rewrite <- lo_h; lra].
  - unfold dadd, dmul. destruct (rnd_between 0 h (h * x) zero_fmt h_fmt B) as [B1 B2]. rewrite lo_h.
    apply rnd_between; [apply lo_fmt|apply hi_fmt|rewrite <- lo_h; lra].
Qed.
(** division by h is exact *)
Lemma div_h : forall d, fmt d -> ddiv d h = d * pw j.
Proof.
  intros d F. unfold ddiv. replace (d / h) with (d * pw j) by (field; apply Rgt_not_eq, pw_pos). apply rnd_id, fmt_scale_up, F.
Qed.
Lemma sub_neg : forall x, fmt x -> x < lo -> dsub x lo < 0.
Proof.
  intros x F L. unfold dsub. assert (L0 : rnd (x - lo) <= 0) by (rewrite <- (rnd_id 0 zero_fmt); apply rnd_le; lra).
  destruct (Req_dec (rnd (x - lo)) 0) as [E|E]; [exfalso|lra].
  apply (round_plus_neq_0 radix2 fexp ZnearestE x (- lo)); [exact F|apply generic_format_opp, lo_fmt| |exact E]. lra.
Qed.
Lemma sub_big : forall x, fmt x -> hi < x -> h < dsub x lo.
Proof.
  intros x F L. unfold dsub. pose proof h_pos as Hp. pose proof lo_pos as Lp. rewrite <- lo_h in L. pose proof (pw_pos j) as P.
  destruct (Rle_dec x (2 * lo)) as [L2|L2].
  - rewrite rnd_id; [lra|]. apply sterbenz; [typeclasses eauto|typeclasses eauto|exact F|apply lo_fmt|lra].
  - destruct X_bound as [B1 B2]. assert (Hc : X = 0%nat \/ X = 1%nat \/ (2 <= X)%nat) by lia. destruct Hc as [E|[E|E]].
    + rewrite E in *. change (Z.of_nat 0) with 0%Z in *. replace (0 / pw j) with 0 in * by (unfold Rdiv; ring). rewrite Rminus_0_r, rnd_id by exact F. lra.
    + (* x > 2 h *)
      assert (El : lo = h) by (rewrite E; reflexivity). rewrite El in *.
      assert (F2 : fmt (2 * h)) by (replace (2 * h) with (2 / pw j) by (unfold Rdiv; ring); apply dyadic_fmt; [simpl; lia|lia]).
      assert (Sx : succ radix2 fexp (2 * h) <= x) by (apply succ_le_lt; [typeclasses eauto|exact F2|exact F|lra]).
      assert (Eu : succ radix2 fexp (2 * h) = 2 * h + bpow radix2 (1 - Z.of_nat j - 52)).
      { replace (2 * h) with (bpow radix2 (1 - Z.of_nat j)).
        - rewrite succ_eq_pos by apply bpow_ge_0. rewrite ulp_bpow. f_equal. f_equal. unfold FLT_exp. lia.
        - replace (1 - Z.of_nat j)%Z with (1 + - Z.of_nat j)%Z by lia. rewrite bpow_plus, bpow_opp, <- pw_bpow. change (bpow radix2 1) with 2. unfold Rdiv. ring. }
      rewrite Eu in Sx. pose proof (bpow_gt_0 radix2 (1 - Z.of_nat j - 52)) as Bp.
      assert (Ff : fmt (h + bpow radix2 (1 - Z.of_nat j - 52))).
      { apply double_fmt. exists (2 ^ 51 + 1)%Z, (- Z.of_nat j - 51)%Z. split; [|split; [reflexivity|lia]].
        rewrite plus_IZR. replace (1 - Z.of_nat j - 52)%Z with (- Z.of_nat j - 51)%Z by lia. rewrite (IZR_Zpower radix2) by lia.
        replace (h) with (bpow radix2 51 * bpow radix2 (- Z.of_nat j - 51)); [ring|]. rewrite <- bpow_plus. replace (51 + (- Z.of_nat j - 51))%Z with (- Z.of_nat j)%Z by lia.
        rewrite bpow_opp, <- pw_bpow. unfold Rdiv. ring. }
      apply Rlt_le_trans with (h + bpow radix2 (1 - Z.of_nat j - 52)); [lra|]. rewrite <- (rnd_id _ Ff). apply rnd_le. lra.
    + apply Rlt_le_trans with lo.
      * apply Rmult_lt_compat_r; [apply Rinv_0_lt_compat, P|]. apply IZR_lt. lia.
      * rewrite <- (rnd_id lo lo_fmt) at 1. apply rnd_le. lra.
Qed.
Lemma reference_ok : forall x, fmt x -> (0 <= ddiv (dsub x lo) h <= 1 <-> lo <= x <= hi).
Proof.
  intros x F. pose proof (pw_pos j) as P. pose proof h_pos as Hp. rewrite (div_h (dsub x lo) (rnd_fmt _)).
  assert (E1 : h * pw j = 1) by (field; lra). split.
  - intros [U0 U1]. destruct (Rlt_le_dec x lo) as [L|L].
    + pose proof (sub_neg x F L) as N. unfold dsub in *. exfalso. nra.
    + destruct (Rlt_le_dec hi x) as [L'|L']; [|lra]. pose proof (sub_big x F L') as N. unfold dsub in *. exfalso. nra.
  - intros B. assert (B2 : 0 <= x - lo <= h) by (rewrite <- lo_h in B; lra).
    destruct (rnd_between 0 h _ zero_fmt h_fmt B2) as [R0 R1]. unfold dsub. split; [apply Rmult_le_pos; lra|]. rewrite <- E1. apply Rmult_le_compat_r; lra.
Qed.
End Interval.

(** *** equidistant points i / n computed as i * (1 / n) *)
From Flocq Require Import Relative.
Lemma rnd_rel : forall x, bpow radix2 (-100) <= x -> Rabs (rnd x - x) <= bpow radix2 (-53) * x.
Proof.
  intros x Hx. pose proof (bpow_gt_0 radix2 (-100)) as B.
  pose proof (relative_error_N_FLT radix2 (-1074) 53 eq_refl (fun z => negb (Z.even z)) x) as E.
  assert (Hb : bpow radix2 (-1074 + 53 - 1) <= Rabs x).
  { rewrite Rabs_pos_eq by lra. apply Rle_trans with (bpow radix2 (-100)); [apply bpow_le; lia|exact Hx]. }
  specialize (E Hb). rewrite (Rabs_pos_eq x) in E by lra.
  replace (/ 2 * bpow radix2 (- (53) + 1) * x) with (bpow radix2 (-53) * x) in E; [exact E|].
  replace (- (53) + 1)%Z with (1 + -53)%Z by lia. rewrite bpow_plus. change (bpow radix2 1) with 2. field.
Qed.
Definition eps : R := bpow radix2 (-53).
Lemma eps_small : 0 < eps < / 1000000000000000.
Proof.
  unfold eps. split; [apply bpow_gt_0|]. change (-53)%Z with (- (53))%Z. rewrite bpow_opp. apply Rinv_lt_contravar.
  - apply Rmult_lt_0_compat; [lra|apply bpow_gt_0].
  - rewrite <- (IZR_Zpower radix2) by lia. apply IZR_lt. reflexivity.
Qed.
Section Equidistant.
Variable n : nat.
Hypothesis Hn : (1 <= n)%nat /\ (Z.of_nat n <= 2147483647)%Z.
Definition eq_pt (i : nat) : R := dmul (of_int (Z.of_nat i)) (ddiv 1 (of_int (Z.of_nat n))).
Lemma step_rel : exists d, ddiv 1 (of_int (Z.of_nat n)) = 1 / INR n + d /\ Rabs d <= eps / INR n.
Proof.
  assert (Hp : 1 <= INR n) by (apply (le_INR 1); lia).
  rewrite of_int_id by (assert ((2147483647 < 2 ^ 53)%Z) by reflexivity; lia). rewrite <- INR_IZR_INZ.
  exists (ddiv 1 (INR n) - 1 / INR n). split; [ring|].
  unfold ddiv. assert (B : bpow radix2 (-100) <= 1 / INR n).
  { apply Rle_trans with (bpow radix2 (-31)); [apply bpow_le; lia|]. change (-31)%Z with (- (31))%Z. rewrite bpow_opp. unfold Rdiv. rewrite Rmult_1_l.
    apply Rinv_le_contravar; [lra|]. rewrite <- (IZR_Zpower radix2) by lia. rewrite INR_IZR_INZ. apply IZR_le. change (2147483647 + 1)%Z with (2 ^ 31)%Z in *. apply Z.le_trans with 2147483647%Z; [lia|discriminate]. }
  pose proof (rnd_rel _ B) as E. unfold eps. unfold Rdiv in *. rewrite Rmult_1_l in *. exact E.
Qed.
Lemma eq_pt_rel : forall i, (i <= n)%nat -> Rabs (eq_pt i - INR i / INR n) <= 3 * eps * (INR i / INR n).
Proof.
  intros i Hi. assert (Hp : 1 <= INR n) by (apply (le_INR 1); lia). pose proof eps_small as [E0 E1].
  assert (B53 : (2147483647 < 2 ^ 53)%Z) by reflexivity.
  destruct step_rel as [d [Ed Hd]]. unfold eq_pt. rewrite Ed. rewrite of_int_id by lia. rewrite <- INR_IZR_INZ.
  destruct i as [|i].
  { unfold dmul. simpl (INR 0). rewrite Rmult_0_l. rewrite (rnd_id 0) by apply zero_fmt. unfold Rdiv. rewrite Rmult_0_l, Rminus_0_r, Rabs_R0. lra. }
  assert (Hi1 : 1 <= INR (S i)) by (apply (le_INR 1); lia). assert (Hin : INR (S i) <= INR n) by (apply le_INR; lia).
  set (I := INR (S i)) in *. set (N := INR n) in *. set (q := / N). assert (Hq : 0 < q) by (apply Rinv_0_lt_compat; lra).
  assert (Hqn : q * N = 1) by (unfold q; field; lra).
  assert (Dd : - (eps * q) <= d <= eps * q) by (apply Rabs_le_inv; unfold q; exact Hd).
  unfold Rdiv. fold q. rewrite Rmult_1_l. unfold dmul. set (x := I * (q + d)).
  assert (X1 : I * q * (1 - eps) <= x) by (unfold x; nra). assert (X2 : x <= I * q * (1 + eps)) by (unfold x; nra).
  assert (Q0 : q <= I * q) by nra.
  assert (Hb : bpow radix2 (-100) <= x).
  { apply Rle_trans with (bpow radix2 (-32)); [apply bpow_le; lia|]. apply Rle_trans with (q / 2); [|nra].
    assert (Hq2 : bpow radix2 (-31) <= q).
    { change (-31)%Z with (- (31))%Z. rewrite bpow_opp. unfold q. apply Rinv_le_contravar; [lra|]. rewrite <- (IZR_Zpower radix2) by lia. unfold N. rewrite INR_IZR_INZ. apply IZR_le.
      apply Z.le_trans with 2147483647%Z; [lia|discriminate]. }
    replace (bpow radix2 (-32)) with (bpow radix2 (-31) / 2); [lra|]. change (-31)%Z with (-32 + 1)%Z. rewrite bpow_plus. change (bpow radix2 1) with 2. field. }
  pose proof (rnd_rel x Hb) as Ex. fold eps in Ex. apply Rabs_le_inv in Ex. apply Rabs_le. assert (J : 0 < I * q) by nra.
  set (z := I * q) in *. clearbody z x. assert (P1 : eps * x <= eps * (z * (1 + eps))) by (apply Rmult_le_compat_l; lra).
  assert (P2 : z * eps * eps <= z * eps * 1) by (apply Rmult_le_compat_l; [apply Rmult_le_pos; lra|lra]). split; nra.
Qed.
Lemma eq_pt_bounds : forall i, (1 <= i)%nat -> (i < n)%nat -> 0 < eq_pt i < 1.
Proof.
  intros i Hi1 Hi. assert (Hp : 1 <= INR n) by (apply (le_INR 1); lia). pose proof (eq_pt_rel i ltac:(lia)) as E. apply Rabs_le_inv in E. pose proof eps_small as [E0 E1].
  assert (A : 1 <= INR i) by (apply (le_INR 1); lia). assert (B : INR i + 1 <= INR n) by (rewrite <- S_INR; apply le_INR; lia).
  assert (C : INR n <= 2147483647) by (rewrite INR_IZR_INZ; apply IZR_le; lia).
  set (q := / INR n). assert (Hq : 0 < q) by (apply Rinv_0_lt_compat; lra). assert (Hqn : INR n * q = 1) by (unfold q; field; lra).
  unfold Rdiv in E. fold q in E. split; nra.
Qed.
Lemma eq_pt_increasing : forall i, (i + 1 <= n)%nat -> eq_pt i < eq_pt (i + 1).
Proof.
  intros i Hi. assert (Hp : 1 <= INR n) by (apply (le_INR 1); lia). pose proof (eq_pt_rel i ltac:(lia)) as E. pose proof (eq_pt_rel (i + 1) ltac:(lia)) as E'. apply Rabs_le_inv in E, E'. pose proof eps_small as [E0 E1].
  rewrite plus_INR in E'. simpl (INR 1) in E'. assert (A : 0 <= INR i) by apply pos_INR. assert (B : INR i + 1 <= INR n) by (rewrite <- S_INR; apply le_INR; lia).
  assert (C : INR n <= 2147483647) by (rewrite INR_IZR_INZ; apply IZR_le; lia).
  set (q := / INR n) in *. assert (Hq : 0 < q) by (apply Rinv_0_lt_compat; lra). assert (Hqn : INR n * q = 1) by (unfold q; field; lra).
  unfold Rdiv in *. fold q in E, E'.
  assert (K : 3 * eps * ((2 * INR i + 1)) < 1).
  { apply Rle_lt_trans with (3 * eps * (2 * 2147483647 + 1)); [apply Rmult_le_compat_l; lra|]. lra. }
  assert (K2 : 3 * eps * (2 * INR i + 1) * q < 1 * q) by (apply Rmult_lt_compat_r; lra). nra.
Qed.
End Equidistant.
