(** Evaluation of patches (C42, C43). *)
From Coq Require Import Reals Lra Lia Arith List ZArith Sorting.
From Verif Require Import RSum ModelBase ModelBernstein SpecBernstein ProofBernstein ModelKnots ProofKnots
  ModelDeBoor SpecDeBoor ModelPatch SpecPatch.
Import ListNotations.
Local Open Scope R_scope.

(** ** loops that add to an array *)
Lemma acc_loop : forall (g : nat -> nat -> R) n (body : nat -> arr -> option arr) tmp,
  (forall i tmp, (i < n)%nat -> exists tmp', body i tmp = Some tmp' /\ forall k, tmp' k = tmp k + g i k) ->
  exists tmp', for_opt n body tmp = Some tmp' /\ forall k, tmp' k = tmp k + rsum (fun i => g i k) n.
Proof.
  intros g n body tmp H.
  destruct (for_opt_inv (fun m t => forall k, t k = tmp k + rsum (fun i => g i k) m) n body tmp) as [t [E I]].
  - intros k. simpl. ring.
  - intros i s Hi Is. destruct (H i s Hi) as [s' [E I]]. exists s'. split; [assumption|].
    intros k. rewrite I, Is. simpl. ring.
  - exists t. split; assumption.
Qed.

Lemma acc_loop3 : forall (g g1 g2 : nat -> nat -> R) n (body : nat -> arr * arr * arr -> option (arr * arr * arr)) s,
  (forall i s, (i < n)%nat -> exists s', body i s = Some s'
     /\ (forall k, fst (fst s') k = fst (fst s) k + g i k)
     /\ (forall k, snd (fst s') k = snd (fst s) k + g1 i k)
     /\ (forall k, snd s' k = snd s k + g2 i k)) ->
  exists s', for_opt n body s = Some s'
     /\ (forall k, fst (fst s') k = fst (fst s) k + rsum (fun i => g i k) n)
     /\ (forall k, snd (fst s') k = snd (fst s) k + rsum (fun i => g1 i k) n)
     /\ (forall k, snd s' k = snd s k + rsum (fun i => g2 i k) n).
Proof.
  intros g g1 g2 n body s H.
  destruct (for_opt_inv (fun m t => (forall k, fst (fst t) k = fst (fst s) k + rsum (fun i => g i k) m)
     /\ (forall k, snd (fst t) k = snd (fst s) k + rsum (fun i => g1 i k) m)
     /\ (forall k, snd t k = snd s k + rsum (fun i => g2 i k) m)) n body s) as [t [E I]].
  - repeat split; intros k; symmetry; apply Rplus_0_r.
  - intros i u Hi [I0 [I1 I2]]. destruct (H i u Hi) as [s' [E [J0 [J1 J2]]]]. exists s'. split; [assumption|].
    repeat split; intros k; [rewrite J0, I0|rewrite J1, I1|rewrite J2, I2]; simpl; ring.
  - exists t. auto.
Qed.

Lemma four_sum : forall (d : nat -> R) k,
  rsum (fun i => if (k =? i)%nat then d i else 0) 4 = if (k <? 4)%nat then d k else 0.
Proof.
  intros d k. destruct (Nat.ltb_spec k 4) as [H|H].
  - rewrite (rsum_single _ 4 k H); [rewrite Nat.eqb_refl; reflexivity|].
    intros i Hi Ne. destruct (Nat.eqb_spec k i); [lia|reflexivity].
  - apply rsum_zero. intros i Hi. destruct (Nat.eqb_spec k i); [lia|reflexivity].
Qed.

(** the control point coefficient used in span (xl, yl) *)
Definition coef (P : patch) (xl yl k i j : nat) : R := nth (accs P xl yl i j + k)%nat (p_data P) 0.
Definition hom (P : patch) (xl yl : nat) (X Y : arr) (k : nat) : R :=
  rsum (fun i => rsum (fun j => coef P xl yl k i j * (X i * Y j)) (p_degy P)) (p_degx P).

Lemma accs_range : forall P xl yl i j k, patch_ok P -> (xl < length (p_knx P) - 1)%nat -> (yl < length (p_kny P) - 1)%nat ->
  (i < p_degx P)%nat -> (j < p_degy P)%nat -> (k < 4)%nat -> (accs P xl yl i j + k < length (p_data P))%nat.
Proof.
  intros P xl yl i j k H Hx Hy Hi Hj Hk. rewrite (pk_data P H). unfold accs.
  set (nx := (length (p_knx P) - 1)%nat) in *. set (ny := (length (p_kny P) - 1)%nat) in *.
  set (px := p_degx P) in *. set (py := p_degy P) in *. clearbody nx ny px py. clear H.
  assert (A : (px * xl + i < px * nx)%nat) by (clear - Hx Hi; nia).
  assert (B : (py * yl + j < ny * py)%nat) by (clear - Hy Hj; nia).
  assert (D : (ny * py * (px * xl + i) + (py * yl + j) < px * nx * py * ny)%nat).
  { generalize dependent (px * xl + i)%nat. generalize dependent (py * yl + j)%nat. intros b B a A.
    replace (px * nx * py * ny)%nat with (ny * py * (px * nx))%nat by ring. clear - A B. nia. }
  lia.
Qed.

Lemma add4 : forall P xl yl i j v tmp, patch_ok P -> (xl < length (p_knx P) - 1)%nat -> (yl < length (p_kny P) - 1)%nat ->
  (i < p_degx P)%nat -> (j < p_degy P)%nat ->
  exists tmp', for_opt 4 (fun k tmp => d <- get (p_data P) (accs P xl yl i j + k)%nat ;;
                 Some (upd tmp k (tmp k + d * v))) tmp = Some tmp'
    /\ forall k, tmp' k = tmp k + if (k <? 4)%nat then coef P xl yl k i j * v else 0.
Proof.
  intros P xl yl i j v tmp H Hx Hy Hi Hj.
  destruct (acc_loop (fun k' k => if (k =? k')%nat then coef P xl yl k' i j * v else 0) 4
     (fun k tmp => d <- get (p_data P) (accs P xl yl i j + k)%nat ;; Some (upd tmp k (tmp k + d * v))) tmp) as [t [E I]].
  - intros k t Hk. rewrite (get_nth _ _ 0) by (apply accs_range; assumption). cbn [bind]. eexists. split; [reflexivity|].
    intros k'. unfold upd. destruct (Nat.eqb_spec k' k) as [->|]; [reflexivity|ring].
  - exists t. split; [exact E|]. intros k. rewrite I. f_equal. apply (four_sum (fun i0 => coef P xl yl i0 i j * v)).
Qed.

Lemma eval_loop : forall P xl yl X Y, patch_ok P -> (xl < length (p_knx P) - 1)%nat -> (yl < length (p_kny P) - 1)%nat ->
  exists tmp, for_opt (p_degx P) (fun i tmp =>
           for_opt (p_degy P) (fun j tmp =>
             let tpbasisval := X i * Y j in
             for_opt 4 (fun k tmp =>
               d <- get (p_data P) (accs P xl yl i j + k)%nat ;;
               Some (upd tmp k (tmp k + d * tpbasisval))) tmp) tmp) zero_arr = Some tmp
    /\ forall k, (k < 4)%nat -> tmp k = hom P xl yl X Y k.
Proof.
  intros P xl yl X Y H Hx Hy.
  destruct (acc_loop (fun i k => rsum (fun j => if (k <? 4)%nat then coef P xl yl k i j * (X i * Y j) else 0) (p_degy P))
    (p_degx P) (fun i tmp =>
           for_opt (p_degy P) (fun j tmp =>
             let tpbasisval := X i * Y j in
             for_opt 4 (fun k tmp =>
               d <- get (p_data P) (accs P xl yl i j + k)%nat ;;
               Some (upd tmp k (tmp k + d * tpbasisval))) tmp) tmp) zero_arr) as [t [E I]].
  - intros i tmp Hi.
    apply (acc_loop (fun j k => if (k <? 4)%nat then coef P xl yl k i j * (X i * Y j) else 0)).
    intros j tmp' Hj. cbv zeta. apply add4; assumption.
  - exists t. split; [exact E|]. intros k Hk. rewrite I. unfold zero_arr, hom. rewrite Rplus_0_l.
    apply rsum_ext. intros i _. apply rsum_ext. intros j _. destruct (Nat.ltb_spec k 4); [reflexivity|lia].
Qed.

Lemma jacobian_loop : forall P xl yl X Y XD YD, patch_ok P -> (xl < length (p_knx P) - 1)%nat -> (yl < length (p_kny P) - 1)%nat ->
  exists tmp tx ty, jacobian_sums P xl yl X Y XD YD = Some (tmp, tx, ty)
    /\ (forall k, (k < 4)%nat -> tmp k = hom P xl yl X Y k)
    /\ (forall k, (k < 4)%nat -> tx k = hom P xl yl XD Y k)
    /\ (forall k, (k < 4)%nat -> ty k = hom P xl yl X YD k).
Proof.
  intros P xl yl X Y XD YD H Hx Hy.
  set (G := fun (U V : arr) i j k => if (k <? 4)%nat then coef P xl yl k i j * (U i * V j) else 0).
  destruct (acc_loop3 (fun i k => rsum (fun j => G X Y i j k) (p_degy P))
     (fun i k => rsum (fun j => G XD Y i j k) (p_degy P)) (fun i k => rsum (fun j => G X YD i j k) (p_degy P))
     (p_degx P) (fun i st =>
    for_opt (p_degy P) (fun j st =>
      let tpbasisval := X i * Y j in
      let tpbasisvalDx := XD i * Y j in
      let tpbasisvalDy := X i * YD j in
      for_opt 4 (fun k st =>
        d <- get (p_data P) (accs P xl yl i j + k)%nat ;;
        let '(tmp, tmpDx, tmpDy) := st in
        Some (upd tmp k (tmp k + d * tpbasisval),
              upd tmpDx k (tmpDx k + d * tpbasisvalDx),
              upd tmpDy k (tmpDy k + d * tpbasisvalDy))) st) st) (zero_arr, zero_arr, zero_arr)) as [[[t tx] ty] [E [I [Ix Iy]]]].
  - intros i s Hi. apply (acc_loop3 (G X Y i) (G XD Y i) (G X YD i)). intros j s' Hj. cbv zeta.
    destruct (acc_loop3 (fun k' k => if (k =? k')%nat then coef P xl yl k' i j * (X i * Y j) else 0)
        (fun k' k => if (k =? k')%nat then coef P xl yl k' i j * (XD i * Y j) else 0)
        (fun k' k => if (k =? k')%nat then coef P xl yl k' i j * (X i * YD j) else 0) 4
        (fun k st =>
        d <- get (p_data P) (accs P xl yl i j + k)%nat ;;
        let '(tmp, tmpDx, tmpDy) := st in
        Some (upd tmp k (tmp k + d * (X i * Y j)),
              upd tmpDx k (tmpDx k + d * (XD i * Y j)),
              upd tmpDy k (tmpDy k + d * (X i * YD j)))) s') as [u [E [J [Jx Jy]]]].
    + intros k [[a b] c] Hk. rewrite (get_nth _ _ 0) by (apply accs_range; assumption). cbn [bind]. eexists. split; [reflexivity|].
      cbn [fst snd]. repeat split; intros k'; unfold upd; destruct (Nat.eqb_spec k' k) as [->|]; try reflexivity; ring.
    + exists u. split; [exact E|]. unfold G. repeat split; intros k; [rewrite J|rewrite Jx|rewrite Jy]; f_equal.
      * apply (four_sum (fun i0 => coef P xl yl i0 i j * (X i * Y j))).
      * apply (four_sum (fun i0 => coef P xl yl i0 i j * (XD i * Y j))).
      * apply (four_sum (fun i0 => coef P xl yl i0 i j * (X i * YD j))).
  - exists t, tx, ty. split; [exact E|]. cbn [fst snd] in I, Ix, Iy. unfold zero_arr in I, Ix, Iy.
    repeat split; intros k Hk; [rewrite I|rewrite Ix|rewrite Iy]; rewrite Rplus_0_l; unfold hom;
      apply rsum_ext; intros i _; apply rsum_ext; intros j _; unfold G; destruct (Nat.ltb_spec k 4); try reflexivity; lia.
Qed.

(** ** spans *)
Lemma sep_sorted : forall u, StronglySorted (fun a b => a + generic_tolerance < b) u -> StronglySorted Rlt u.
Proof.
  induction 1; constructor; [assumption|]. eapply Forall_impl; [|eassumption]. intros a0 Ha. cbv beta in Ha.
  unfold generic_tolerance in Ha. lra.
Qed.

Lemma sep_nth : forall u i j, StronglySorted (fun a b => a + generic_tolerance < b) u -> (i < j < length u)%nat ->
  nth i u 0 + generic_tolerance < nth j u 0.
Proof.
  intros u i j H. revert i j. induction H as [|a u H IH F]; intros i j Hij; simpl in Hij; [lia|].
  destruct j as [|j]; [lia|]. destruct i as [|i]; simpl.
  - rewrite Forall_forall in F. apply F. apply nth_In. lia.
  - apply IH. lia.
Qed.

Lemma last_nth : forall (u : list R) d, last u d = nth (length u - 1) u d.
Proof.
  induction u as [|a u IH]; intros d; [reflexivity|]. destruct u as [|b u]; [reflexivity|].
  change (last (a :: b :: u) d) with (last (b :: u) d). rewrite IH. simpl. rewrite Nat.sub_0_r. reflexivity.
Qed.

Lemma in_span_range : forall u i x, (2 <= length u)%nat -> StronglySorted Rlt u -> nth 0 u 0 = 0 -> in_span u i x -> 0 <= x <= last u 0.
Proof.
  intros u i x L S Z [Hi [A B]].
  assert (M : forall a b, (a <= b < length u)%nat -> nth a u 0 <= nth b u 0).
  { intros a b Hab. destruct (Nat.eq_dec a b) as [->|]; [lra|]. left.
    clear - S n Hab. revert a b n Hab. induction S as [|c u S IH F]; intros a b n Hab; simpl in Hab; [lia|].
    destruct b as [|b]; [lia|]. destruct a as [|a]; simpl; [|apply IH; lia].
    rewrite Forall_forall in F. apply F. apply nth_In. lia. }
  rewrite last_nth. split.
  - rewrite <- Z. apply Rle_trans with (nth i u 0); [apply M; lia|assumption].
  - apply Rle_trans with (nth (i + 1) u 0); [destruct B as [B|[_ B]]; lra|apply M; lia].
Qed.

Lemma in_span_unique : forall u i j x, StronglySorted Rlt u -> in_span u i x -> in_span u j x -> i = j.
Proof.
  intros u i j x S Hi Hj.
  assert (M : forall a b, (a <= b < length u)%nat -> nth a u 0 <= nth b u 0).
  { intros a b Hab. destruct (Nat.eq_dec a b) as [->|]; [lra|]. left.
    clear - S n Hab. revert a b n Hab. induction S as [|c u S IH F]; intros a b n Hab; simpl in Hab; [lia|].
    destruct b as [|b]; [lia|]. destruct a as [|a]; simpl; [|apply IH; lia].
    rewrite Forall_forall in F. apply F. apply nth_In. lia. }
  assert (W : forall i j, in_span u i x -> in_span u j x -> ~ (i < j)%nat).
  { clear i j Hi Hj. intros i j [Hi [A B]] [Hj [A' B']] L.
    destruct B as [B|[B _]]; [|lia]. pose proof (M (i + 1)%nat j ltac:(lia)). lra. }
  pose proof (W i j Hi Hj). pose proof (W j i Hj Hi). lia.
Qed.

Lemma locate_span : forall u i x, (2 <= length u)%nat -> StronglySorted (fun a b => a + generic_tolerance < b) u ->
  nth 0 u 0 = 0 -> in_span u i x ->
  locate x u = Some (i, (x - nth i u 0) / (nth (i + 1) u 0 - nth i u 0)).
Proof.
  intros u i x L S Z H.
  pose proof (in_span_range u i x L (sep_sorted u S) Z H) as Hr.
  destruct (find_location u x 0 L (sep_sorted u S) Z Hr) as [k [E [Hk [A B]]]].
  assert (Hk' : in_span u k x).
  { split; [assumption|]. split; [assumption|]. destruct B as [B|[B|[B1 B2]]]; [left; assumption|right; assumption|].
    left. subst k. pose proof (sep_nth u 0 1 S ltac:(lia)). simpl. rewrite Z in H0. lra. }
  rewrite (in_span_unique u k i x (sep_sorted u S) Hk' H) in *. clear Hk'.
  unfold locate. rewrite E. destruct (Z.leb_spec 0 (Z.of_nat i)); [|lia]. cbn [assert bind].
  rewrite Nat2Z.id. rewrite (get_nth u i 0) by lia. cbn [bind]. rewrite (get_nth u (i + 1) 0) by lia. cbn [bind].
  rewrite rescale_eq; [reflexivity|]. pose proof (sep_nth u i (i + 1) S ltac:(lia)). unfold generic_tolerance in *. lra.
Qed.

Lemma span_exists : forall u x, (2 <= length u)%nat -> StronglySorted (fun a b => a + generic_tolerance < b) u ->
  nth 0 u 0 = 0 -> 0 <= x <= last u 0 -> exists i, in_span u i x.
Proof.
  intros u x L S Z Hr. destruct (find_location u x 0 L (sep_sorted u S) Z Hr) as [k [E [Hk [A B]]]].
  exists k. split; [assumption|]. split; [assumption|]. destruct B as [B|[B|[B1 B2]]]; [left; assumption|right; assumption|].
  left. subst k. pose proof (sep_nth u 0 1 S ltac:(lia)). simpl. rewrite Z in H. lra.
Qed.

(** for the knots {0, 1} every x is located in the only span *)
Lemma locate_unit : forall x, locate x [0; 1] = Some (0%nat, x).
Proof.
  intros x. unfold locate.
  assert (E : FindLocationInKnotVector x [0; 1] = 0%Z).
  { pose proof (find_location_range [0; 1] x ltac:(simpl; lia)). simpl in H. lia. }
  rewrite E. cbn [Z.leb Z.compare assert bind Z.to_nat get nth_error Nat.add].
  rewrite rescale_eq by lra. f_equal. f_equal. field.
Qed.

(** ** eval, evalJacobian, updateSurfacePoint in terms of [hom] *)
Definition B (d : nat) (t : R) : arr := fun i => bern d i t.
Definition dB (d : nat) (t : R) : arr := fun i => dbern d i t.

Lemma hom_ext : forall P xl yl X Y X' Y' k,
  (forall i, (i < p_degx P)%nat -> X i = X' i) -> (forall j, (j < p_degy P)%nat -> Y j = Y' j) ->
  hom P xl yl X Y k = hom P xl yl X' Y' k.
Proof.
  intros P xl yl X Y X' Y' k HX HY. unfold hom. apply rsum_ext. intros i Hi. apply rsum_ext. intros j Hj.
  rewrite HX, HY by assumption. reflexivity.
Qed.

Lemma basis_B : forall d junk t i, (1 <= d <= MaxP + 1)%nat -> (i < d)%nat -> evalBasis (d - 1) junk t i = B (d - 1) t i.
Proof.
  intros d junk t i Hd Hi. unfold evalBasis, B. rewrite dispatch_le by lia. rewrite EvalBernsteinBasis_spec.
  destruct (Nat.leb_spec i (d - 1)); [reflexivity|lia].
Qed.
Lemma basis_dB : forall d junk t i, (1 <= d <= MaxP + 1)%nat -> (i < d)%nat -> evalDerBasis (d - 1) junk t i = dB (d - 1) t i.
Proof.
  intros d junk t i Hd Hi. unfold evalDerBasis, dB. rewrite dispatch_le by lia. rewrite EvalBernsteinDerBasis_spec.
  destruct (Nat.leb_spec i (d - 1)); [reflexivity|lia].
Qed.

Section Located.
Variables (P : patch) (xl yl : nat) (x y s t : R).
Hypothesis H : patch_ok P.
Hypothesis Lx : locate x (p_knx P) = Some (xl, s).
Hypothesis Ly : locate y (p_kny P) = Some (yl, t).
Hypothesis Rx : (xl < length (p_knx P) - 1)%nat.
Hypothesis Ry : (yl < length (p_kny P) - 1)%nat.

Let px := p_degx P.
Let py := p_degy P.
Definition W k := hom P xl yl (B (p_degx P - 1) s) (B (p_degy P - 1) t) k.
Definition Wx k := hom P xl yl (dB (p_degx P - 1) s) (B (p_degy P - 1) t) k.
Definition Wy k := hom P xl yl (B (p_degx P - 1) s) (dB (p_degy P - 1) t) k.

Lemma eval_located : forall j1 j2,
  eval j1 j2 P x y = if Req_EM_T (W 3) 0 then None else Some (projected W).
Proof.
  intros j1 j2. unfold eval. rewrite Lx, Ly. cbn [bind fst snd].
  pose proof (pk_degx P H) as Dx. pose proof (pk_degy P H) as Dy.
  replace ((1 <=? p_degx P) && (1 <=? p_degy P))%nat%bool with true
    by (symmetry; apply andb_true_intro; split; apply Nat.leb_le; lia).
  cbn [assert bind].
  destruct (eval_loop P xl yl (evalBasis (p_degx P - 1) j1 s) (evalBasis (p_degy P - 1) j2 t) H Rx Ry) as [tmp [E I]].
  cbv zeta in E. cbv zeta. rewrite E. cbn [bind].
  assert (Q : forall k, (k < 4)%nat -> tmp k = W k).
  { intros k Hk. rewrite I by assumption. apply hom_ext; intros; apply basis_B; lia. }
  rewrite !Q by lia. reflexivity.
Qed.

Lemma sums_located : forall j1 j2 j3 j4, exists tmp tx ty,
  jacobian_sums P xl yl (evalBasis (p_degx P - 1) j1 s) (evalBasis (p_degy P - 1) j2 t)
    (evalDerBasis (p_degx P - 1) j3 s) (evalDerBasis (p_degy P - 1) j4 t) = Some (tmp, tx, ty)
  /\ (forall k, (k < 4)%nat -> tmp k = W k) /\ (forall k, (k < 4)%nat -> tx k = Wx k) /\ (forall k, (k < 4)%nat -> ty k = Wy k).
Proof.
  intros j1 j2 j3 j4. pose proof (pk_degx P H) as Dx. pose proof (pk_degy P H) as Dy.
  destruct (jacobian_loop P xl yl (evalBasis (p_degx P - 1) j1 s) (evalBasis (p_degy P - 1) j2 t)
    (evalDerBasis (p_degx P - 1) j3 s) (evalDerBasis (p_degy P - 1) j4 t) H Rx Ry) as [tmp [tx [ty [E [I [Ix Iy]]]]]].
  exists tmp, tx, ty. split; [exact E|].
  repeat split; intros k Hk; [rewrite I|rewrite Ix|rewrite Iy]; try assumption; apply hom_ext; intros;
    first [apply basis_B; lia|apply basis_dB; lia].
Qed.

Lemma jacobian_located : forall j1 j2 j3 j4,
  evalJacobian j1 j2 j3 j4 P x y = if Req_EM_T (W 3) 0 then None else
    Some (map (fun k => (Wx k * W 3 - W k * Wx 3) / (W 3 * W 3)) [0; 1; 2]%nat,
          map (fun k => (Wy k * W 3 - W k * Wy 3) / (W 3 * W 3)) [0; 1; 2]%nat).
Proof.
  intros j1 j2 j3 j4. unfold evalJacobian. rewrite Lx, Ly. cbn [bind fst snd].
  pose proof (pk_degx P H) as Dx. pose proof (pk_degy P H) as Dy.
  replace ((1 <=? p_degx P) && (1 <=? p_degy P))%nat%bool with true
    by (symmetry; apply andb_true_intro; split; apply Nat.leb_le; lia).
  cbn [assert bind]. cbv zeta. destruct (sums_located j1 j2 j3 j4) as [tmp [tx [ty [E [I [Ix Iy]]]]]]. rewrite E. cbn [bind].
  rewrite (I 3%nat) by lia. destruct (Req_EM_T (W 3) 0); [reflexivity|]. cbn [map].
  rewrite !I, !Ix, !Iy by lia. unfold Rdiv. rewrite !Rmult_1_l. reflexivity.
Qed.

Lemma surface_located : forall j1 j2 j3 j4 w xi0 xi1,
  updateSurfacePoint j1 j2 j3 j4 P x y w xi0 xi1 = if Req_EM_T (W 3) 0 then None else
    Some ([xi0; xi1; w] ++ projected W
       ++ map (fun k => (Wx k * W 3 - W k * Wx 3) / (W 3 * W 3)) [0; 1; 2]%nat
       ++ map (fun k => (Wy k * W 3 - W k * Wy 3) / (W 3 * W 3)) [0; 1; 2]%nat).
Proof.
  intros j1 j2 j3 j4 w xi0 xi1. unfold updateSurfacePoint. rewrite Lx, Ly. cbn [bind fst snd].
  pose proof (pk_degx P H) as Dx. pose proof (pk_degy P H) as Dy.
  replace ((1 <=? p_degx P) && (1 <=? p_degy P))%nat%bool with true
    by (symmetry; apply andb_true_intro; split; apply Nat.leb_le; lia).
  cbn [assert bind]. cbv zeta. destruct (sums_located j1 j2 j3 j4) as [tmp [tx [ty [E [I [Ix Iy]]]]]]. rewrite E. cbn [bind].
  rewrite (I 3%nat) by lia. destruct (Req_EM_T (W 3) 0) as [Q|Q]; [reflexivity|]. unfold projected. cbn [map app].
  rewrite !I, !Ix, !Iy by lia.
  assert (R1 : forall a, a * (1 / W 3) = a / W 3) by (intros; field; assumption).
  assert (R2 : forall a, a * (1 / W 3 * (1 / W 3)) = a / (W 3 * W 3)) by (intros; field; assumption).
  rewrite !R2, !R1. reflexivity.
Qed.

End Located.
