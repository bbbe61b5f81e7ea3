(** Patches built from spline control nets (C42, C57). *)
From Coq Require Import Reals Lra Lia Arith List ZArith Sorting Bool.
From Verif Require Import RSum ModelBase ModelBernstein SpecBernstein ProofBernstein ModelKnots ProofKnots
  ModelDeBoor SpecDeBoor ProofDeBoor ProofDeBoorDer ProofDeBoorTP SpecInterp ProofInterp
  ModelPatch SpecPatch ProofBezier ProofPatch ProofPatchInit ProofProjection.
Import ListNotations.
Local Open Scope R_scope.

Lemma map_opt_nth : forall {A} (f : nat -> option A) n d, (forall c, (c < n)%nat -> exists v, f c = Some v) ->
  exists l, map_opt f (seq 0 n) = Some l /\ length l = n /\ forall c, (c < n)%nat -> f c = Some (nth c l d).
Proof.
  intros A f n d H.
  assert (X : forall k a, (forall c, (a <= c < a + k)%nat -> exists v, f c = Some v) ->
    exists l, map_opt f (seq a k) = Some l /\ length l = k /\ forall c, (c < k)%nat -> f (a + c)%nat = Some (nth c l d)).
  { induction k as [|k IH]; intros a Ha; cbn [seq map_opt].
    - exists []. split; [reflexivity|]. split; [reflexivity|]. intros; lia.
    - destruct (Ha a ltac:(lia)) as [v Ev]. rewrite Ev. cbn [bind].
      destruct (IH (S a)) as [l [El [Ll Il]]]; [intros; apply Ha; lia|]. rewrite El. cbn [bind].
      exists (v :: l). split; [reflexivity|]. split; [simpl; lia|]. intros [|c] Hc; simpl.
      + rewrite Nat.add_0_r. assumption.
      + replace (a + S c)%nat with (S a + c)%nat by lia. apply Il. lia. }
  destruct (X n 0%nat) as [l [E [L I]]]; [intros; apply H; lia|]. exists l. auto.
Qed.

Lemma unit_rect : forall m n j i, rectangular m n (unit_matrix m n j i).
Proof.
  intros m n j i. unfold unit_matrix. split; [rewrite map_length; apply seq_length|].
  intros row Hr. apply in_map_iff in Hr. destruct Hr as [a [<- _]]. rewrite map_length. apply seq_length.
Qed.
Lemma unit_entry : forall m n j i a b, (a < m)%nat -> (b < n)%nat ->
  entry (unit_matrix m n j i) a b = if ((a =? j) && (b =? i))%nat%bool then 1 else 0.
Proof.
  intros m n j i a b Ha Hb. unfold entry, unit_matrix.
  rewrite (nth_indep _ [] (map (fun b => if ((0 =? j)%nat && (b =? i)%nat)%bool then 1 else 0) (seq 0 n))) by (rewrite map_length, seq_length; assumption).
  rewrite (map_nth (fun a => map (fun b => if ((a =? j)%nat && (b =? i)%nat)%bool then 1 else 0) (seq 0 n)) (seq 0 m) 0%nat a).
  rewrite seq_nth by assumption. cbn [Nat.add].
  rewrite (nth_indep _ 0 (if ((a =? j)%nat && (0 =? i)%nat)%bool then 1 else 0)) by (rewrite map_length, seq_length; assumption).
  rewrite (map_nth (fun b => if ((a =? j)%nat && (b =? i)%nat)%bool then 1 else 0) (seq 0 n) 0%nat b).
  rewrite seq_nth by assumption. reflexivity.
Qed.

Section Spline.
Variables (kx ux ky uy : list R) (p n q m : nat).
Hypothesis Hcx : clamped generic_tolerance kx p n.
Hypothesis Hux : uniq_of kx ux.
Hypothesis Hcy : clamped generic_tolerance ky q m.
Hypothesis Huy : uniq_of ky uy.
Hypothesis HpM : (p <= MaxP)%nat.
Hypothesis HqM : (q <= MaxP)%nat.
Variables (xpoint ypoint : list R).
Hypothesis Ex : MakeInterpolationPoints ux (MakeInterpolationMask (p + 1)) = Some xpoint.
Hypothesis Ey : MakeInterpolationPoints uy (MakeInterpolationMask (q + 1)) = Some ypoint.
Variable inv : (nat -> nat -> R) -> nat -> nat -> nat -> R.
Variable ws : list R.
Hypothesis Hws : (MaxP <= length ws)%nat.

Let nx := (length ux - 1)%nat.
Let ny := (length uy - 1)%nat.
Let sx := (nx * (p + 1))%nat.
Let sy := (ny * (q + 1))%nat.
Let N := (sx * sy)%nat.
Let T := tempsolver ux uy (p + 1) (q + 1) xpoint ypoint.
Let col := column kx ux ky uy p q xpoint ypoint (inv T N).

Lemma nx_pos : (0 < nx)%nat.
Proof. pose proof (uo_len _ _ Hux). unfold nx. lia. Qed.
Lemma ny_pos : (0 < ny)%nat.
Proof. pose proof (uo_len _ _ Huy). unfold ny. lia. Qed.

Lemma Lxp : length xpoint = sx.
Proof. destruct (points_of kx ux p Hux) as [pts [E [L _]]]. rewrite Ex in E. injection E as <-. exact L. Qed.
Lemma Lyp : length ypoint = sy.
Proof. destruct (points_of ky uy q Huy) as [pts [E [L _]]]. rewrite Ey in E. injection E as <-. exact L. Qed.

Lemma point_in : forall knots u d cnt pts, clamped generic_tolerance knots d cnt -> uniq_of knots u ->
  MakeInterpolationPoints u (MakeInterpolationMask (d + 1)) = Some pts ->
  forall x, In x pts -> nth d knots 0 <= x < nth cnt knots 0.
Proof.
  intros knots u d cnt pts Hc Hu E x Hx. destruct (points_of knots u d Hu) as [pts' [E' [L V]]]. rewrite E in E'. injection E' as <-.
  destruct (In_nth pts x 0 Hx) as [r [Hr <-]]. rewrite L in Hr.
  assert (Hs : (r / (d + 1) < length u - 1)%nat) by (apply Nat.div_lt_upper_bound; lia).
  assert (Ha : (r mod (d + 1) < d + 1)%nat) by (apply Nat.mod_upper_bound; lia).
  replace r with (r / (d + 1) * (d + 1) + r mod (d + 1))%nat by (rewrite (Nat.div_mod r (d + 1)) at 3 by lia; lia).
  rewrite V by lia. pose proof (mask_at_01 d _ Ha) as Mk. fold (mask_at d (r mod (d + 1))).
  apply (span_in knots u d cnt Hc Hu (r / (d + 1))); [lia|].
  pose proof (u_lt knots u Hu (r / (d + 1)) (r / (d + 1) + 1) ltac:(lia)) as W.
  set (w := nth (r / (d + 1) + 1) u 0 - nth (r / (d + 1)) u 0) in *.
  assert (0 < mask_at d (r mod (d + 1)) * w) by (apply Rmult_lt_0_compat; unfold w; lra).
  assert (mask_at d (r mod (d + 1)) * w < w) by (rewrite <- (Rmult_1_l w) at 2; apply Rmult_lt_compat_r; unfold w; lra).
  unfold w in *. lra.
Qed.

Lemma deboor_unit : forall i j, (i < n)%nat -> (j < m)%nat ->
  DeBoorTP ws (unit_matrix m n j i) kx ky xpoint ypoint
  = Some (map (fun x => map (fun y => tp_spline kx ky (unit_matrix m n j i) p q x y) ypoint) xpoint).
Proof.
  intros i j Hi Hj.
  assert (Lx := Lxp). unfold sx in Lx.
  assert (Ly := Lyp). unfold sy in Ly.
  destruct (unit_rect m n j i) as [Lu Ru].
  apply DeBoorTP_spline; try assumption.
  - intros x y Hx Hy. split.
    + intros row Hr. unfold regular_input. rewrite (Ru row Hr). destruct Hcx as [A [B _]].
      split; [assumption|]. split; [assumption|]. split; [apply (clamped_nondecreasing kx p n Hcx)|].
      apply (point_in kx ux p n xpoint Hcx Hux Ex x Hx).
    + rewrite Lu. destruct Hcy as [A [B _]].
      split; [assumption|]. split; [assumption|]. split; [apply (clamped_nondecreasing ky q m Hcy)|].
      apply (point_in ky uy q m ypoint Hcy Huy Ey y Hy).
  - intros Q. rewrite Q in Lx. simpl in Lx. pose proof nx_pos. nia.
  - intros Q. rewrite Q in Ly. simpl in Ly. pose proof ny_pos. nia.
Qed.

Lemma unit_spline : forall i j x y, (i < n)%nat -> (j < m)%nat ->
  tp_spline kx ky (unit_matrix m n j i) p q x y
  = bspline (fun k => nth k kx 0) p i x * bspline (fun k => nth k ky 0) q j y.
Proof.
  intros i j x y Hi Hj. rewrite (tp_entry kx ux ky uy p n q m HpM HqM _ (unit_rect m n j i)).
  rewrite (rsum_single _ (n * m) (i * m + j)%nat).
  - destruct (divmod_pair i j m Hj) as [-> ->]. rewrite unit_entry by assumption. rewrite !Nat.eqb_refl. cbn [andb]. ring.
  - apply pair_lt; assumption.
  - intros c Hc Ne. rewrite unit_entry; [|apply Nat.mod_upper_bound; lia|apply Nat.div_lt_upper_bound; lia].
    destruct (Nat.eqb_spec (c mod m) j) as [E1|], (Nat.eqb_spec (c / m) i) as [E2|]; cbn [andb]; try ring.
    exfalso. apply Ne. pose proof (Nat.div_mod c m ltac:(lia)) as DM. rewrite E1, E2 in DM. lia.
Qed.

Lemma projection_columns : exists phi, MakeProjection inv ws kx ky ux uy (p + 1) (q + 1) = Some phi
  /\ length phi = (n * m)%nat
  /\ forall c, (c < n * m)%nat -> length (nth c phi []) = N
       /\ forall r, (r < N)%nat -> nth r (nth c phi []) 0 = prune (col (c / m) (c mod m) r).
Proof.
  unfold MakeProjection. fold nx ny. cbv zeta. fold sx sy. fold N. rewrite Ex, Ey. cbn [bind].
  assert (Lx := Lxp).
  assert (Ly := Lyp).
  rewrite Lx, Ly, !Nat.eqb_refl. cbn [assert bind].
  assert (En : (length kx - (p + 1) = n)%nat) by (destruct Hcx as [A _]; lia).
  assert (Em : (length ky - (q + 1) = m)%nat) by (destruct Hcy as [A _]; lia).
  rewrite En, Em. fold T.
  assert (Psx : (0 < sx)%nat) by (pose proof nx_pos; unfold sx; nia).
  match goal with |- context [map_opt ?f _] => set (F := f) end.
  assert (HF : forall c, (c < n * m)%nat -> F c = Some (map (fun r => prune (col (c / m) (c mod m) r)) (seq 0 N))).
  { intros c Hc. assert (m <> 0)%nat by (intros ->; lia).
    assert (Hi : (c / m < n)%nat) by (apply Nat.div_lt_upper_bound; lia).
    assert (Hj : (c mod m < m)%nat) by (apply Nat.mod_upper_bound; assumption).
    unfold F. rewrite deboor_unit by assumption. cbn [bind].
    set (G := map (fun x => map (fun y => tp_spline kx ky (unit_matrix m n (c mod m) (c / m)) p q x y) ypoint) xpoint).
    assert (RG : rectangular sx sy G).
    { split; [unfold G; rewrite map_length; assumption|]. intros row Hr. unfold G in Hr. apply in_map_iff in Hr.
      destruct Hr as [x [<- _]]. rewrite map_length. assumption. }
    destruct (Unroll_spec sx sy G RG Psx) as [o [Eo [Lo Io]]]. rewrite Eo. cbn [bind]. rewrite Lo.
    rewrite (Nat.mul_comm sy sx). fold N. rewrite Nat.eqb_refl. cbn [assert bind]. f_equal.
    apply map_ext_in. intros r Hr. f_equal. unfold col, column. fold N. apply rsum_ext. intros l Hl. f_equal.
    assert (Dl : (l / sx < sy)%nat) by (apply Nat.div_lt_upper_bound; [lia|exact Hl]).
    assert (Ml : (l mod sx < sx)%nat) by (apply Nat.mod_upper_bound; lia).
    replace l with (l / sx * sx + l mod sx)%nat at 1 by (rewrite (Nat.div_mod l sx) at 3 by lia; lia).
    rewrite Io by assumption. unfold entry, G.
    rewrite (nth_indep _ [] (map (fun y => tp_spline kx ky (unit_matrix m n (c mod m) (c / m)) p q 0 y) ypoint)) by (rewrite map_length; lia).
    rewrite (map_nth (fun x => map (fun y => tp_spline kx ky (unit_matrix m n (c mod m) (c / m)) p q x y) ypoint) xpoint 0).
    rewrite (nth_indep _ 0 (tp_spline kx ky (unit_matrix m n (c mod m) (c / m)) p q (nth (l mod sx) xpoint 0) 0)) by (rewrite map_length; lia).
    rewrite (map_nth (fun y => tp_spline kx ky (unit_matrix m n (c mod m) (c / m)) p q (nth (l mod sx) xpoint 0) y) ypoint 0).
    rewrite unit_spline by assumption. reflexivity. }
  destruct (map_opt_nth F (n * m) []) as [phi [E [L I]]].
  - intros c Hc. rewrite HF by assumption. eauto.
  - exists phi. split; [exact E|]. split; [assumption|]. intros c Hc. pose proof (I c Hc) as Q. rewrite HF in Q by assumption.
    injection Q as <-. split; [rewrite map_length; apply seq_length|]. intros r Hr.
    rewrite (nth_indep _ 0 (prune (col (c / m) (c mod m) 0))) by (rewrite map_length, seq_length; assumption).
    rewrite (map_nth (fun r => prune (col (c / m) (c mod m) r)) (seq 0 N) 0%nat r). rewrite seq_nth by assumption. reflexivity.
Qed.

Lemma init_spline : forall xyzw, length xyzw = 4%nat -> (forall M, In M xyzw -> rectangular m n M) ->
  ~ (length ux = 2%nat /\ length uy = 2%nat) ->
  exists data, init_Patch inv ws xyzw kx ky = Some (Patch data (p + 1) (q + 1) ux uy)
    /\ length data = (4 * N)%nat
    /\ forall k r, (k < 4)%nat -> (r < N)%nat -> nth (4 * r + k) data 0
         = rsum (fun c => entry (nth k xyzw []) (c mod m) (c / m) * prune (col (c / m) (c mod m) r)) (n * m).
Proof.
  intros xyzw L4 Rc Hne. unfold init_Patch. rewrite L4. cbn [Nat.eqb assert bind].
  assert (G : forall k, (k < 4)%nat -> get xyzw k = Some (nth k xyzw [])) by (intros; apply get_nth; lia).
  assert (Rk : forall k, (k < 4)%nat -> rectangular m n (nth k xyzw [])) by (intros; apply Rc, nth_In; lia).
  destruct Hcx as [Lx [Px _]]. destruct Hcy as [Ly [Py _]].
  rewrite (G 0%nat) by lia. cbn [bind]. rewrite (uo_ext _ _ Hux), (uo_ext _ _ Huy). cbn [bind].
  destruct (rect_cols m n (nth 0 xyzw []) (Rk 0%nat ltac:(lia)) ltac:(lia)) as [Ec Er]. rewrite Ec, Er, Lx, Ly.
  replace (n <=? n + p + 1)%nat with true by (symmetry; apply Nat.leb_le; lia).
  replace (m <=? m + q + 1)%nat with true by (symmetry; apply Nat.leb_le; lia). cbn [assert bind].
  replace (n + p + 1 - n)%nat with (p + 1)%nat by lia. replace (m + q + 1 - m)%nat with (q + 1)%nat by lia.
  replace ((length ux =? 2) && (length uy =? 2))%nat%bool with false.
  2:{ symmetry. apply andb_false_iff. destruct (Nat.eqb_spec (length ux) 2); [|left; reflexivity].
      right. apply Nat.eqb_neq. intros Q. apply Hne. auto. }
  fold nx ny. fold sx sy.
  destruct projection_columns as [phi [Ephi [Lphi Iphi]]]. rewrite Ephi. cbn [bind]. rewrite Lphi. fold N.
  replace (4 * ((p + 1) * nx * (q + 1) * ny))%nat with (4 * N)%nat by (unfold N, sx, sy; ring).
  set (f := fun i => M <- get xyzw i ;; u <- Unroll M ;; _ <- assert (length u =? n * m)%nat ;;
     Some (map (fun r => rsum (fun c => nth c u 0 * nth r (nth c phi []) 0) (n * m)) (seq 0 N))).
  assert (Hf : forall k, (k < 4)%nat -> exists u, Unroll (nth k xyzw []) = Some u /\ length u = (n * m)%nat
     /\ (forall i j, (i < n)%nat -> (j < m)%nat -> nth (i * m + j) u 0 = entry (nth k xyzw []) j i)
     /\ f k = Some (map (fun r => rsum (fun c => nth c u 0 * nth r (nth c phi []) 0) (n * m)) (seq 0 N))).
  { intros k Hk. destruct (Unroll_spec m n (nth k xyzw []) (Rk k Hk) ltac:(lia)) as [u [Eu [Lu Iu]]].
    exists u. split; [exact Eu|]. split; [assumption|]. split; [assumption|]. unfold f. rewrite (G k Hk). cbn [bind]. rewrite Eu. cbn [bind].
    rewrite Lu, Nat.eqb_refl. reflexivity. }
  destruct (store_four f N (repeat 0 (4 * N))) as [data [E [L I]]].
  - apply repeat_length.
  - intros k Hk. destruct (Hf k Hk) as [u [_ [_ [_ Ef]]]]. rewrite Ef. eexists. split; [reflexivity|].
    rewrite map_length. apply seq_length.
  - exists data.
    assert (E2 : for_opt 4 (fun i data => M <- get xyzw i ;; u <- Unroll M ;; _ <- assert (length u =? n * m)%nat ;;
          store_component i (map (fun r => rsum (fun c => nth c u 0 * nth r (nth c phi []) 0) (n * m)) (seq 0 N)) data)
        (repeat 0 (4 * N)) = Some data).
    { rewrite <- E. cbn [for_opt bind]. unfold f.
      assert (A : forall k d, (k < 4)%nat ->
        (M <- get xyzw k ;; u <- Unroll M ;; _ <- assert (length u =? n * m)%nat ;;
          store_component k (map (fun r => rsum (fun c => nth c u 0 * nth r (nth c phi []) 0) (n * m)) (seq 0 N)) d)
        = (tmp <- (M <- get xyzw k ;; u <- Unroll M ;; _ <- assert (length u =? n * m)%nat ;;
             Some (map (fun r => rsum (fun c => nth c u 0 * nth r (nth c phi []) 0) (n * m)) (seq 0 N))) ;;
           store_component k tmp d)).
      { intros k d Hk. destruct (Hf k Hk) as [u [Eu [Lu _]]]. rewrite (G k Hk). cbn [bind]. rewrite Eu. cbn [bind].
        rewrite Lu, Nat.eqb_refl. reflexivity. }
      rewrite A by lia.
      destruct (tmp <- _ ;; store_component 0 tmp (repeat 0 (4 * N))) as [d0|]; cbn [bind]; [|reflexivity].
      rewrite A by lia.
      destruct (tmp <- _ ;; store_component 1 tmp d0) as [d1|]; cbn [bind]; [|reflexivity].
      rewrite A by lia.
      destruct (tmp <- _ ;; store_component 2 tmp d1) as [d2|]; cbn [bind]; [|reflexivity].
      rewrite A by lia. reflexivity. }
    rewrite E2. cbn [bind]. split; [reflexivity|]. split; [assumption|]. intros k r Hk Hr.
    destruct (Hf k Hk) as [u [Eu [Lu [Iu Ef]]]]. rewrite (I k _ r Hk Ef Hr).
    rewrite (nth_indep _ 0 (rsum (fun c => nth c u 0 * nth 0 (nth c phi []) 0) (n * m))) by (rewrite map_length, seq_length; assumption).
    rewrite (map_nth (fun r => rsum (fun c => nth c u 0 * nth r (nth c phi []) 0) (n * m)) (seq 0 N) 0%nat r).
    rewrite seq_nth by assumption. cbn [Nat.add]. apply rsum_ext. intros c Hc.
    destruct (Iphi c Hc) as [_ Ic]. rewrite Ic by assumption. f_equal.
    assert (m <> 0)%nat by lia.
    replace c with (c / m * m + c mod m)%nat at 1 by (rewrite (Nat.div_mod c m) at 3 by lia; lia).
    apply Iu; [apply Nat.div_lt_upper_bound; lia|apply Nat.mod_upper_bound; assumption].
Qed.

End Spline.
