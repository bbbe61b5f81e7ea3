(** The Bernstein coefficients of the polynomial pieces of B-splines. *)
From Coq Require Import Reals Lra Lia Arith List.
From Verif Require Import RSum ModelBase ModelBernstein SpecBernstein ProofBernstein SpecDeBoor ProofDeBoor ProofDeBoorDer SpecInterp ProofInterp ProofBezier.
Local Open Scope R_scope.

(** ** multiplication of a Bernstein form by an affine function *)
Definition prev (c : nat -> R) (j : nat) : R := match j with O => 0 | S j' => c j' end.
Lemma bern_up0 : forall m j s, (j <= m)%nat -> (1 - s) * bern m j s = INR (m + 1 - j) / INR (m + 1) * bern (m + 1) j s.
Proof.
  intros m j s H. assert (Z : INR (m + 1) <> 0) by (apply not_0_INR; lia).
  unfold bern. replace (m + 1 - j)%nat with (S (m - j)) by lia.
  assert (E : C m j = INR (S (m - j)) / INR (m + 1) * C (m + 1) j).
  { unfold C. replace (m + 1 - j)%nat with (S (m - j)) by lia. rewrite (fact_simpl (m - j)). replace (m + 1)%nat with (S m) by lia.
    rewrite (fact_simpl m), !mult_INR. pose proof (INR_fact_neq_0 m). pose proof (INR_fact_neq_0 j). pose proof (INR_fact_neq_0 (m - j)).
    replace (S m) with (m + 1)%nat by lia. assert (INR (S (m - j)) <> 0) by (apply not_0_INR; lia). field. auto. }
  rewrite E. simpl pow. ring.
Qed.
Lemma affine_mul : forall m al be c s,
  ((1 - s) * al + s * be) * bernstein_form m c s
  = bernstein_form (m + 1) (fun j => INR (m + 1 - j) / INR (m + 1) * (al * c j) + INR j / INR (m + 1) * (be * prev c j)) s.
Proof.
  intros m al be c s. assert (Z : INR (m + 1) <> 0) by (apply not_0_INR; lia).
  transitivity (rsum (fun j => INR (m + 1 - j) / INR (m + 1) * (al * c j) * bern (m + 1) j s) (m + 1 + 1)
              + rsum (fun j => INR j / INR (m + 1) * (be * prev c j) * bern (m + 1) j s) (m + 1 + 1)).
  - rewrite Rmult_plus_distr_r. f_equal.
    + replace (m + 1 + 1)%nat with (S (m + 1)) by lia. rewrite rsum_S. rewrite Nat.sub_diag. replace (INR 0 / INR (m + 1)) with 0 by (simpl; field; exact Z). rewrite !Rmult_0_l, Rplus_0_r.
      unfold bernstein_form. rewrite <- rsum_scal. apply rsum_ext. intros j Hj.
      transitivity (al * c j * ((1 - s) * bern m j s)); [ring|]. rewrite bern_up0 by lia. ring.
    + replace (m + 1 + 1)%nat with (S (m + 1)) by lia. rewrite rsum_shift. replace (INR 0 / INR (m + 1)) with 0 by (simpl; field; exact Z). rewrite !Rmult_0_l, Rplus_0_l.
      unfold bernstein_form. rewrite <- rsum_scal. apply rsum_ext. intros j Hj.
      transitivity (be * c j * (s * bern m j s)); [ring|]. rewrite bern_up by lia. replace (j + 1)%nat with (S j) by lia. cbn [prev]. ring.
  - unfold bernstein_form. rewrite <- rsum_plus. apply rsum_ext. intros; ring.
Qed.
(** degree elevation *)
Definition elevate (m : nat) (c : nat -> R) : nat -> R :=
  fun j => INR (m + 1 - j) / INR (m + 1) * c j + INR j / INR (m + 1) * prev c j.
Lemma elevate_ok : forall m c s, bernstein_form m c s = bernstein_form (m + 1) (elevate m c) s.
Proof.
  intros m c s. pose proof (affine_mul m 1 1 c s) as H. replace ((1 - s) * 1 + s * 1) with 1 in H by ring. rewrite Rmult_1_l in H.
  rewrite H. unfold bernstein_form, elevate. apply rsum_ext. intros; ring.
Qed.

(** ** Bernstein polynomials are linearly independent *)
Lemma bern_at0 : forall m j, bern m j 0 = if (j =? 0)%nat then 1 else 0.
Proof.
  intros m [|j]; unfold bern; simpl.
  - unfold C. rewrite Nat.sub_0_r. simpl. rewrite Rminus_0_r, pow1. field. apply INR_fact_neq_0.
  - rewrite Rmult_0_l. ring.
Qed.
Lemma form_at0 : forall m c, bernstein_form m c 0 = c 0%nat.
Proof.
  intros m c. unfold bernstein_form. rewrite (rsum_single _ (m + 1) 0); [rewrite bern_at0; simpl; ring|lia|].
  intros j Hj Ne. rewrite bern_at0. destruct (Nat.eqb_spec j 0); [lia|ring].
Qed.
Lemma bern_at1 : forall m j, (j <= m)%nat -> bern m j 1 = if (j =? m)%nat then 1 else 0.
Proof.
  intros m j H. unfold bern. rewrite pow1, Rminus_diag_eq by reflexivity. destruct (Nat.eqb_spec j m) as [->|Ne].
  - rewrite Nat.sub_diag. simpl. unfold C. rewrite Nat.sub_diag. simpl. field. apply INR_fact_neq_0.
  - rewrite pow_i by lia. ring.
Qed.
Lemma form_at1 : forall m c, bernstein_form m c 1 = c m.
Proof.
  intros m c. unfold bernstein_form. rewrite (rsum_single _ (m + 1) m); [rewrite bern_at1, Nat.eqb_refl by lia; ring|lia|].
  intros j Hj Ne. rewrite bern_at1 by lia. destruct (Nat.eqb_spec j m); [lia|ring].
Qed.
Lemma bern_indep0 : forall m c, (forall s, bernstein_form m c s = 0) -> forall j, (j <= m)%nat -> c j = 0.
Proof.
  induction m as [|m IH]; intros c H j Hj.
  - replace j with 0%nat by lia. rewrite <- (form_at0 0 c). apply H.
  - pose proof (H 0) as H0. rewrite form_at0 in H0. destruct j as [|j]; [exact H0|].
    assert (N1 : INR (m + 1) <> 0) by (apply not_0_INR; lia).
    set (d := fun i => INR (m + 1) / INR (i + 1) * c (S i)).
    assert (E : forall s, s * bernstein_form m d s = 0).
    { intros s. rewrite <- (H s). unfold bernstein_form at 2. replace (S m + 1)%nat with (S (m + 1)) by lia. rewrite rsum_shift, H0, Rmult_0_l, Rplus_0_l.
      unfold bernstein_form. rewrite <- rsum_scal. apply rsum_ext. intros i Hi. unfold d.
      transitivity (INR (m + 1) / INR (i + 1) * c (S i) * (s * bern m i s)); [ring|]. rewrite bern_up by lia.
      replace (m + 1)%nat with (S m) by lia. replace (i + 1)%nat with (S i) by lia. field. split; apply not_0_INR; lia. }
    assert (F : forall s, bernstein_form m d s = 0).
    { apply (poly_zero (m + 1) _ (fun i => INR (i + 1))); [apply bernstein_form_poly| |].
      - intros i k _ _ Ne Q. apply INR_eq in Q. lia.
      - intros i Hi. pose proof (E (INR (i + 1))) as Q. apply Rmult_integral in Q. destruct Q as [Q|Q]; [|exact Q].
        exfalso. revert Q. apply not_0_INR. lia. }
    pose proof (IH d F j ltac:(lia)) as G. unfold d in G. apply Rmult_integral in G. destruct G as [G|G]; [|exact G].
    exfalso. revert G. apply Rmult_integral_contrapositive. split; [exact N1|]. apply Rinv_neq_0_compat, not_0_INR. lia.
Qed.
(** equality at m + 1 points suffices *)
Lemma bern_indep : forall m a b (x : nat -> R), distinct (m + 1) x ->
  (forall i, (i < m + 1)%nat -> bernstein_form m a (x i) = bernstein_form m b (x i)) -> forall j, (j <= m)%nat -> a j = b j.
Proof.
  intros m a b x D H j Hj. apply Rminus_diag_uniq. apply (bern_indep0 m (fun i => a i - b i)); [|exact Hj].
  assert (L : forall s, bernstein_form m (fun i => a i - b i) s = bernstein_form m a s - bernstein_form m b s).
  { intros s. unfold bernstein_form. rewrite <- rsum_minus. apply rsum_ext. intros; ring. }
  apply (poly_zero (m + 1) _ x); [apply bernstein_form_poly|exact D|]. intros i Hi. rewrite L, H by exact Hi. ring.
Qed.

(** ** the coefficients of a piece *)
Section Piece.
Variables (t : nat -> R) (N l : nat).
Hypothesis Hm : mono t N.
Let a := t l.
Let b := t (l + 1)%nat.
Fixpoint bc (k i j : nat) : R :=
  match k with
  | O => if (i =? l)%nat then 1 else 0
  | S m => if (j <=? m)%nat
      then (t l - t i) * ai t i (S m) * bc m i j + (t (i + 1 + S m)%nat - t l) * ai t (i + 1) (S m) * bc m (i + 1) j
      else (t (l + 1)%nat - t i) * ai t i (S m) * bc m i m + (t (i + 1 + S m)%nat - t (l + 1)%nat) * ai t (i + 1) (S m) * bc m (i + 1) m
  end.
Lemma bc_diff : forall m i j, (i + m + 2 < N)%nat -> (j <= m)%nat ->
  bc (S m) i (j + 1) - bc (S m) i j = (b - a) * (ai t i (S m) * bc m i j - ai t (i + 1) (S m) * bc m (i + 1) j).
Proof.
  induction m as [|m IH]; intros i j Hi Hj; cbn [bc]; fold a b.
  - replace j with 0%nat by lia. simpl Nat.leb. cbv iota. ring.
  - destruct (Nat.leb_spec j (S m)) as [_|]; [|lia]. destruct (Nat.leb_spec (j + 1) (S m)) as [L|L].
    + pose proof (IH i j ltac:(lia) ltac:(lia)) as D0. pose proof (IH (i + 1)%nat j ltac:(lia) ltac:(lia)) as D1.
      pose proof (ai_key t N i (S m) Hm ltac:(lia)) as K. cbn [bc] in D0, D1. fold a b in D0, D1.
      destruct (Nat.leb_spec j m) as [_|]; [|lia].
      match type of D0 with ?x - _ = _ => set (P0 := x) in * end. match type of D1 with ?x - _ = _ => set (P1 := x) in * end.
      set (A0 := ai t i (S (S m))) in *. set (A1 := ai t (i + 1) (S (S m))) in *.
      set (B0 := ai t i (S m)) in *. set (B1 := ai t (i + 1) (S m)) in *. set (B2 := ai t (i + 1 + 1) (S m)) in *.
      set (N0 := bc m i j) in *. set (N1 := bc m (i + 1) j) in *. set (N2 := bc m (i + 1 + 1) j) in *.
      replace (i + 1 + 1 + S m)%nat with (i + 1 + S (S m))%nat in * by lia. replace (i + 1 + S m)%nat with (i + S (S m))%nat in * by lia.
      set (T0 := t i) in *. set (T1 := t (i + 1)%nat) in *. set (Tk := t (i + S (S m))%nat) in *. set (Tk1 := t (i + 1 + S (S m))%nat) in *.
      assert (E0 : P0 = (a - T0) * B0 * N0 + (Tk - a) * B1 * N1 + (b - a) * (B0 * N0 - B1 * N1)) by lra.
      assert (E1 : P1 = (a - T1) * B1 * N1 + (Tk1 - a) * B2 * N2 + (b - a) * (B1 * N1 - B2 * N2)) by lra.
      clearbody P0 P1. rewrite E0, E1. clear D0 D1.
      apply Rminus_diag_uniq. transitivity (- (b - a) * N1 * (B1 * (A0 * (Tk - T0) - A1 * (Tk1 - T1)))); [ring|rewrite K; ring].
    + replace j with (S m) by lia. destruct (Nat.leb_spec (S m) m); [lia|]. fold (bc (S m)). ring.
Qed.
Lemma bc_low : forall m i j, (j <= m)%nat ->
  bc (S m) i j = (a - t i) * ai t i (S m) * bc m i j + (t (i + 1 + S m)%nat - a) * ai t (i + 1) (S m) * bc m (i + 1) j.
Proof. intros m i j Hj. cbn [bc]. destruct (Nat.leb_spec j m); [reflexivity|lia]. Qed.
Lemma bc_high : forall m i j, (i + m + 2 < N)%nat -> (j <= m)%nat ->
  bc (S m) i (S j) = (b - t i) * ai t i (S m) * bc m i j + (t (i + 1 + S m)%nat - b) * ai t (i + 1) (S m) * bc m (i + 1) j.
Proof.
  intros m i j Hi Hj. pose proof (bc_diff m i j Hi Hj) as D. rewrite (bc_low m i j Hj) in D. replace (j + 1)%nat with (S j) in D by lia. lra.
Qed.
Lemma bc_form : forall k i s, (i + k + 1 < N)%nat -> bs t l k i (a + s * (b - a)) = bernstein_form k (bc k i) s.
Proof.
  induction k as [|m IH]; intros i s Hi.
  - unfold bernstein_form, bern, C. simpl. field.
  - rewrite bs_S, !IH by lia.
    transitivity (((1 - s) * ((a - t i) * ai t i (S m)) + s * ((b - t i) * ai t i (S m))) * bernstein_form m (bc m i) s
      + ((1 - s) * ((t (i + 1 + S m)%nat - a) * ai t (i + 1) (S m)) + s * ((t (i + 1 + S m)%nat - b) * ai t (i + 1) (S m))) * bernstein_form m (bc m (i + 1)) s); [ring|].
    rewrite !affine_mul. unfold bernstein_form. rewrite <- rsum_plus. replace (S m + 1)%nat with (m + 1 + 1)%nat by lia. apply rsum_ext. intros j Hj.
    replace (bern (S m) j s) with (bern (m + 1) j s) by (f_equal; lia).
    rewrite <- Rmult_plus_distr_r. f_equal. assert (Z : INR (m + 1) <> 0) by (apply not_0_INR; lia).
    destruct j as [|j].
    + cbn [prev]. rewrite (bc_low m i 0) by lia. replace (m + 1 - 0)%nat with (m + 1)%nat by lia. simpl (INR 0). field. exact Z.
    + cbn [prev]. destruct (le_dec (S j) m) as [L|L].
      * transitivity (INR (m + 1 - S j) / INR (m + 1) * bc (S m) i (S j) + INR (S j) / INR (m + 1) * bc (S m) i (S j)).
        -- rewrite (bc_low m i (S j) L) at 1. rewrite (bc_high m i j) by lia. ring.
        -- rewrite minus_INR by lia. generalize (bc (S m) i (S j)). generalize dependent (INR (m + 1)). generalize (INR (S j)). intros u v Hv w. field. exact Hv.
      * assert (j = m) by lia. subst j. replace (m + 1 - S m)%nat with 0%nat by lia. replace (INR (S m)) with (INR (m + 1)) by (f_equal; lia).
        rewrite (bc_high m i m) by lia. change (INR 0) with 0. field. exact Z.
Qed.
Lemma bc_support : forall k i j, ~ (i <= l <= i + k)%nat -> bc k i j = 0.
Proof.
  induction k as [|m IH]; intros i j H; cbn [bc].
  - destruct (Nat.eqb_spec i l); [lia|reflexivity].
  - rewrite !(IH i), !(IH (i + 1)%nat) by lia. destruct (j <=? m)%nat; ring.
Qed.
End Piece.

(** ** reflection *)
Lemma bc_reflect : forall (t t' : nat -> R) N l l' c, mono t N -> mono t' N -> (forall x y, (x + y + 1 = N)%nat -> t' x = c - t y) -> (l + l' + 2 = N)%nat ->
  forall k i i' j j', (i + i' + k + 2 = N)%nat -> (j + j' = k)%nat -> bc t' l' k i' j' = bc t l k i j.
Proof.
  intros t t' N l l' c Hm Hm' R Hl.
  assert (A : forall i i' k, (i + i' + k + 1 = N)%nat -> ai t' i' k = ai t i k).
  { intros i i' k H. unfold ai. rewrite (R (i' + k)%nat i), (R i' (i + k)%nat) by lia.
    destruct (Req_EM_T (c - t i) (c - t (i + k)%nat)), (Req_EM_T (t (i + k)%nat) (t i)); try reflexivity; try lra.
    f_equal. ring. }
  induction k as [|m IH]; intros i i' j j' Hi Hj.
  - simpl. destruct (Nat.eqb_spec i' l'), (Nat.eqb_spec i l); try reflexivity; lia.
  - destruct j' as [|j'].
    + replace j with (S m) by lia. rewrite (bc_low t' l' m i' 0) by lia. rewrite (bc_high t N l Hm m i m) by lia.
      rewrite (R l' (l + 1)%nat), (R i' (i + 1 + S m)%nat), (R (i' + 1 + S m)%nat i) by lia.
      rewrite (A (i + 1)%nat i'), (A i (i' + 1)%nat) by lia.
      rewrite (IH (i + 1)%nat i' m 0%nat), (IH i (i' + 1)%nat m 0%nat) by lia. ring.
    + rewrite (bc_low t l m i j) by lia. rewrite (bc_high t' N l' Hm' m i' j') by lia.
      rewrite (R (l' + 1)%nat l), (R i' (i + 1 + S m)%nat), (R (i' + 1 + S m)%nat i) by lia.
      rewrite (A (i + 1)%nat i'), (A i (i' + 1)%nat) by lia.
      rewrite (IH (i + 1)%nat i' j j'), (IH i (i' + 1)%nat j j') by lia. ring.
Qed.

(** ** values at the ends of a span *)
Lemma left_end : forall (t : nat -> R) l, t l < t (l + 1)%nat -> forall k i, (forall m, (1 <= m <= k)%nat -> t (l + m)%nat = t (l + 1)%nat) ->
  bs t l k i (t (l + 1)%nat) = if (i =? l)%nat then 1 else 0.
Proof.
  intros t l Hl. induction k as [|m IH]; intros i H; [reflexivity|]. rewrite bs_S, !IH by (intros; apply H; lia).
  destruct (Nat.eqb_spec i l) as [E0|Ne].
  - subst i. destruct (Nat.eqb_spec (l + 1) l); [lia|]. unfold ai at 1. rewrite (H (S m)) by lia. destruct (Req_EM_T (t (l + 1)%nat) (t l)); [lra|]. field. lra.
  - destruct (Nat.eqb_spec (i + 1) l) as [E|Ne2]; [|ring]. rewrite E. rewrite (H (S m)) by lia. ring.
Qed.
Lemma right_end : forall (t : nat -> R) l, t l < t (l + 1)%nat -> forall k i, (k <= l)%nat -> (forall m, (m < k)%nat -> t (l - m)%nat = t l) ->
  bs t l k i (t l) = if (i + k =? l)%nat then 1 else 0.
Proof.
  intros t l Hl. induction k as [|m IH]; intros i Hk H; [simpl; rewrite Nat.add_0_r; reflexivity|].
  rewrite bs_S, !IH by (intros; try apply H; lia).
  destruct (Nat.eqb_spec (i + m) l) as [E|Ne].
  - replace i with (l - m)%nat at 1 by lia. rewrite (H m) by lia. destruct (Nat.eqb_spec (i + 1 + m) l), (Nat.eqb_spec (i + S m) l); try lia. ring.
  - destruct (Nat.eqb_spec (i + 1 + m) l) as [E|Ne2], (Nat.eqb_spec (i + S m) l) as [E2|Ne3]; try lia; [|ring].
    unfold ai at 2. replace (i + 1 + S m)%nat with (l + 1)%nat by lia. replace (i + 1)%nat with (l - m)%nat by lia. rewrite (H m) by lia.
    destruct (Req_EM_T (t (l + 1)%nat) (t l)); [lra|]. field. lra.
Qed.
(** continuity at a knot of multiplicity r <= k *)
Lemma bs_continuous : forall (t : nat -> R) l r, (1 <= r)%nat -> t l < t (l + 1)%nat -> t (l + r)%nat < t (l + r + 1)%nat ->
  (forall m, (1 <= m <= r)%nat -> t (l + m)%nat = t (l + 1)%nat) ->
  forall k i, (r <= k)%nat -> bs t l k i (t (l + 1)%nat) = bs t (l + r) k i (t (l + 1)%nat).
Proof.
  intros t l r Hr L1 L2 H. induction k as [|m IH]; intros i Hk; [lia|].
  destruct (Nat.eq_dec r (S m)) as [E|Ne].
  - rewrite left_end; [|assumption|intros; apply H; lia]. rewrite <- (H r) by lia. rewrite right_end; [|assumption|lia|].
    + destruct (Nat.eqb_spec i l), (Nat.eqb_spec (i + S m) (l + r)); try reflexivity; lia.
    + intros q Hq. replace (l + r - q)%nat with (l + (r - q))%nat by lia. rewrite (H (r - q)%nat), (H r) by lia. reflexivity.
  - rewrite !bs_S, !IH by lia. reflexivity.
Qed.

(** ** size of the coefficients *)
Section Grid.
Variables (t : nat -> R) (N l n : nat) (kx : nat -> nat).
Hypothesis Hn : (1 <= n)%nat.
Hypothesis Hk : forall i, (i < N)%nat -> t i = INR (kx i) / INR n.
Hypothesis Hmono : forall i j, (i <= j)%nat -> (j < N)%nat -> (kx i <= kx j)%nat.
Hypothesis Hstep : forall i k, (i + k < N)%nat -> (kx (i + k) <= kx i + k)%nat.
Hypothesis Hl : (l + 1 < N)%nat.
Lemma ratio : forall (x y d : nat) k, (1 <= k)%nat -> (y <= x)%nat -> (d <= k)%nat ->
  (INR x / INR n - INR y / INR n) * (if (d =? 0)%nat then 0 else / (INR d / INR n)) = 0
  \/ / INR k <= (INR x / INR n - INR y / INR n) * (if (d =? 0)%nat then 0 else / (INR d / INR n)).
Proof.
  intros x y d k Hk1 Hxy Hd. assert (P : 0 < INR n) by (apply lt_0_INR; lia). destruct (Nat.eqb_spec d 0) as [->|Nz]; [left; ring|].
  destruct (Nat.eq_dec x y) as [->|Ne]; [left; ring|]. right. assert (Pd : 0 < INR d) by (apply lt_0_INR; lia).
  assert (1 <= INR x - INR y) by (rewrite <- minus_INR by lia; change 1 with (INR 1); apply le_INR; lia).
  assert (INR d <= INR k) by (apply le_INR; lia).
  replace ((INR x / INR n - INR y / INR n) * / (INR d / INR n)) with ((INR x - INR y) * / INR d) by (field; lra).
  apply Rle_trans with (/ INR d); [apply Rinv_le_contravar; assumption|]. rewrite <- (Rmult_1_l (/ INR d)) at 1.
  apply Rmult_le_compat_r; [left; apply Rinv_0_lt_compat; assumption|assumption].
Qed.
Lemma ai_ratio : forall i k, (i + k < N)%nat -> ai t i k = if (kx (i + k) - kx i =? 0)%nat then 0 else / (INR (kx (i + k) - kx i) / INR n).
Proof.
  intros i k H. assert (P : 0 < INR n) by (apply lt_0_INR; lia). unfold ai. rewrite !Hk by lia. pose proof (Hmono i (i + k) ltac:(lia) H).
  destruct (Nat.eqb_spec (kx (i + k) - kx i) 0) as [E|E].
  - replace (kx (i + k)) with (kx i) by lia. destruct Req_EM_T; [reflexivity|lra].
  - destruct (Req_EM_T (INR (kx (i + k)) / INR n) (INR (kx i) / INR n)) as [Q|Q].
    + exfalso. apply E. apply Rmult_eq_reg_r in Q; [|apply Rinv_neq_0_compat; lra]. apply INR_eq in Q. lia.
    + f_equal. rewrite minus_INR by lia. field. lra.
Qed.
Lemma prod_bound : forall f g k K, 0 < k -> 0 < K -> (f = 0 \/ / k <= f) -> (g = 0 \/ / K <= g) -> f * g = 0 \/ / (k * K) <= f * g.
Proof.
  intros f g k K Pk PK [->|F] [->|G]; try (left; ring). right. rewrite Rinv_mult.
  apply Rmult_le_compat; try assumption; left; apply Rinv_0_lt_compat; assumption.
Qed.
Lemma sum_bound : forall f g k, 0 < k -> (f = 0 \/ / k <= f) -> (g = 0 \/ / k <= g) -> f + g = 0 \/ / k <= f + g.
Proof. intros f g k P [->|F] [->|G]; pose proof (Rinv_0_lt_compat k P); [left; ring|right; lra|right; lra|right; lra]. Qed.
Lemma bc_bound : forall k i j, (i + k + 1 < N)%nat -> (j <= k)%nat -> bc t l k i j = 0 \/ / INR (fact k) <= bc t l k i j.
Proof.
  induction k as [|m IH]; intros i j Hi Hj.
  - simpl. destruct (i =? l)%nat; [right; lra|left; reflexivity].
  - assert (Pf : 0 < INR (fact m)) by apply INR_fact_lt_0. assert (Ps : 0 < INR (S m)) by (apply lt_0_INR; lia).
    assert (F1 : forall u j', (l <= u <= l + 1)%nat -> (j' <= m)%nat -> (t u - t i) * ai t i (S m) * bc t l m i j' = 0
       \/ / INR (fact (S m)) <= (t u - t i) * ai t i (S m) * bc t l m i j').
    { intros u j' Hu Hj'. destruct (le_dec i l) as [L|L]; [|left; rewrite bc_support by lia; ring].
      rewrite fact_simpl, mult_INR. apply prod_bound; try assumption; [|apply IH; lia].
      rewrite ai_ratio by lia. rewrite !Hk by lia. apply ratio; [lia|apply Hmono; lia|]. pose proof (Hstep i (S m) ltac:(lia)). lia. }
    assert (F2 : forall u j', (l <= u <= l + 1)%nat -> (j' <= m)%nat -> (t (i + 1 + S m)%nat - t u) * ai t (i + 1) (S m) * bc t l m (i + 1) j' = 0
       \/ / INR (fact (S m)) <= (t (i + 1 + S m)%nat - t u) * ai t (i + 1) (S m) * bc t l m (i + 1) j').
    { intros u j' Hu Hj'. destruct (le_dec l (i + 1 + m)) as [L|L]; [|left; rewrite bc_support by lia; ring].
      rewrite fact_simpl, mult_INR. apply prod_bound; try assumption; [|apply IH; lia].
      rewrite ai_ratio by lia. rewrite !Hk by lia. apply ratio; [lia|apply Hmono; lia|]. pose proof (Hstep (i + 1)%nat (S m) ltac:(lia)). lia. }
    cbn [bc]. destruct (Nat.leb_spec j m); apply sum_bound; try apply INR_fact_lt_0; (apply F1 || apply F2); lia.
Qed.
Lemma elevate_bound : forall m i j, (i + m + 1 < N)%nat -> (j <= m + 1)%nat ->
  elevate m (bc t l m i) j = 0 \/ / INR (fact (m + 1)) <= elevate m (bc t l m i) j.
Proof.
  intros m i j Hi Hj. assert (Pf : 0 < INR (fact m)) by apply INR_fact_lt_0. assert (Ps : 0 < INR (m + 1)) by (apply lt_0_INR; lia).
  replace (m + 1)%nat with (S m) by lia. rewrite fact_simpl, mult_INR. replace (S m) with (m + 1)%nat by lia.
  assert (Q : forall q, (q <= m + 1)%nat -> INR q / INR (m + 1) = 0 \/ / INR (m + 1) <= INR q / INR (m + 1)).
  { intros q Hq. destruct q as [|q]; [left; simpl; field; lra|]. right. unfold Rdiv. rewrite <- (Rmult_1_l (/ INR (m + 1))) at 1.
    apply Rmult_le_compat_r; [left; apply Rinv_0_lt_compat; exact Ps|]. change 1 with (INR 1). apply le_INR. lia. }
  assert (Pp : 0 < INR (m + 1) * INR (fact m)) by (apply Rmult_lt_0_compat; assumption).
  unfold elevate. apply sum_bound; [exact Pp| |].
  - destruct (Nat.eq_dec j (m + 1)) as [->|]; [left; rewrite Nat.sub_diag; simpl; field; lra|]. apply prod_bound; try assumption; [apply Q; lia|]. apply bc_bound; lia.
  - destruct j as [|j]; cbn [prev]; [left; ring|]. apply prod_bound; try assumption; [apply Q; lia|]. apply bc_bound; lia.
Qed.
End Grid.
