(** Properties C42, C43 and C57: patches, cutting of patches, Bezier extraction.
    [bezier_surface], [tp_spline], [clamped], [rectangular], [entry], [projected], [in_span],
    [patch_ok], [is_inverse]: SpecPatch, SpecDeBoor.  The functions j1 .. j4 are the contents of
    uninitialised work arrays, [ws] that of the scratch array of de Boor's algorithm. *)
From Coq Require Import Reals Lra Lia Arith List ZArith Sorting Bool.
From Verif Require Import RSum ModelBase ModelBernstein SpecBernstein ProofBernstein ModelKnots ProofKnots
  ModelDeBoor SpecDeBoor SpecInterp ProofInterp
  ModelPatch SpecPatch ProofBezier ProofPatch ProofPatchInit ProofProjection ProofPatchSpline.
Import ListNotations.
Local Open Scope R_scope.

Lemma W_surface : forall P xl yl s t k, (1 <= p_degx P)%nat -> (1 <= p_degy P)%nat ->
  W P xl yl s t k = bezier_surface (p_degx P - 1) (p_degy P - 1) (coef P xl yl k) s t.
Proof.
  intros P xl yl s t k Hx Hy. unfold W, hom, bezier_surface, B.
  replace (p_degx P - 1 + 1)%nat with (p_degx P) by lia. replace (p_degy P - 1 + 1)%nat with (p_degy P) by lia. reflexivity.
Qed.

Lemma unit_sorted : StronglySorted (fun a b => a + generic_tolerance < b) [0; 1].
Proof. repeat constructor. unfold generic_tolerance. lra. Qed.

Lemma unit_patch_ok : forall data p q, (p <= MaxP)%nat -> (q <= MaxP)%nat -> length data = (4 * ((p + 1) * (q + 1)))%nat ->
  patch_ok (Patch data (p + 1) (q + 1) [0; 1] [0; 1]).
Proof.
  intros data p q Hp Hq L. constructor; cbn [p_data p_degx p_degy p_knx p_kny length nth]; try lia; try apply unit_sorted; try reflexivity.
Qed.

Lemma surface_ext : forall m n C D x y, (forall i j, (i <= m)%nat -> (j <= n)%nat -> C i j = D i j) ->
  bezier_surface m n C x y = bezier_surface m n D x y.
Proof.
  intros m n C D x y H. unfold bezier_surface. apply rsum_ext. intros i Hi. apply rsum_ext. intros j Hj. rewrite H by lia. reflexivity.
Qed.

(** ** derivatives *)
Lemma bern_dx : forall p i x, derivable_pt_lim (bern p i) x (if (i <=? p)%nat then dbern p i x else 0) \/ (p < i)%nat.
Proof.
  intros p i x. destruct (Nat.leb_spec i p); [left; apply bern_derivable; assumption|right; assumption].
Qed.

Lemma W_dx : forall P xl yl s t k, (1 <= p_degx P)%nat ->
  derivable_pt_lim (fun z => W P xl yl z t k) s (Wx P xl yl s t k).
Proof.
  intros P xl yl s t k Hx. unfold W, Wx, hom, B, dB.
  apply (rsum_derivable (fun i z => rsum (fun j => coef P xl yl k i j * (bern (p_degx P - 1) i z * bern (p_degy P - 1) j t)) (p_degy P))
    (fun i z => rsum (fun j => coef P xl yl k i j * (dbern (p_degx P - 1) i z * bern (p_degy P - 1) j t)) (p_degy P))).
  intros i Hi.
  apply (rsum_derivable (fun j z => coef P xl yl k i j * (bern (p_degx P - 1) i z * bern (p_degy P - 1) j t))
    (fun j z => coef P xl yl k i j * (dbern (p_degx P - 1) i z * bern (p_degy P - 1) j t))).
  intros j Hj.
  apply (derivable_pt_lim_ext (fun z => (coef P xl yl k i j * bern (p_degy P - 1) j t) * bern (p_degx P - 1) i z)); [intros; ring|].
  replace (coef P xl yl k i j * (dbern (p_degx P - 1) i s * bern (p_degy P - 1) j t))
    with ((coef P xl yl k i j * bern (p_degy P - 1) j t) * dbern (p_degx P - 1) i s) by ring.
  apply (derivable_pt_lim_scal (bern (p_degx P - 1) i)). apply bern_derivable. lia.
Qed.

Lemma W_dy : forall P xl yl s t k, (1 <= p_degy P)%nat ->
  derivable_pt_lim (fun z => W P xl yl s z k) t (Wy P xl yl s t k).
Proof.
  intros P xl yl s t k Hy. unfold W, Wy, hom, B, dB.
  apply (rsum_derivable (fun i z => rsum (fun j => coef P xl yl k i j * (bern (p_degx P - 1) i s * bern (p_degy P - 1) j z)) (p_degy P))
    (fun i z => rsum (fun j => coef P xl yl k i j * (bern (p_degx P - 1) i s * dbern (p_degy P - 1) j z)) (p_degy P))).
  intros i Hi.
  apply (rsum_derivable (fun j z => coef P xl yl k i j * (bern (p_degx P - 1) i s * bern (p_degy P - 1) j z))
    (fun j z => coef P xl yl k i j * (bern (p_degx P - 1) i s * dbern (p_degy P - 1) j z))).
  intros j Hj.
  apply (derivable_pt_lim_ext (fun z => (coef P xl yl k i j * bern (p_degx P - 1) i s) * bern (p_degy P - 1) j z)); [intros; ring|].
  replace (coef P xl yl k i j * (bern (p_degx P - 1) i s * dbern (p_degy P - 1) j t))
    with ((coef P xl yl k i j * bern (p_degx P - 1) i s) * dbern (p_degy P - 1) j t) by ring.
  apply (derivable_pt_lim_scal (bern (p_degy P - 1) j)). apply bern_derivable. lia.
Qed.

Lemma quotient_local : forall (f g h : R -> R) x df dg lo hi,
  lo < x < hi -> derivable_pt_lim f x df -> derivable_pt_lim g x dg -> g x <> 0 ->
  (forall z, lo < z < hi -> g z <> 0 -> h z = f z / g z) ->
  derivable_pt_lim h x ((df * g x - f x * dg) / (g x * g x)).
Proof.
  intros f g h x df dg lo hi Hx Df Dg Hg Hh.
  assert (Cg : continuity_pt g x) by (apply derivable_continuous_pt; exists dg; exact Dg).
  destruct (Cg (Rabs (g x)) (Rabs_pos_lt _ Hg)) as [del [Hdel Hc]].
  set (a := Rmax lo (x - del)). set (b := Rmin hi (x + del)).
  assert (Ha : a < x) by (unfold a; apply Rmax_lub_lt; lra). assert (Hb : x < b) by (unfold b; apply Rmin_glb_lt; lra).
  apply (derivable_pt_lim_locally_ext (fun z => f z / g z) h x a b); [lra| |].
  - intros z Hz. symmetry. apply Hh.
    + pose proof (Rmax_l lo (x - del)). pose proof (Rmin_l hi (x + del)). unfold a, b in Hz. lra.
    + pose proof (Rmax_r lo (x - del)). pose proof (Rmin_r hi (x + del)). unfold a, b in Hz.
      destruct (Req_dec z x) as [->|Ne]; [assumption|]. intros Q.
      assert (Hd : R_dist (g z) (g x) < Rabs (g x)).
      { apply Hc. split; [split; [exact I|intros E; apply Ne; symmetry; exact E]|].
        unfold R_met, dist, R_dist. apply Rabs_def1; lra. }
      unfold R_dist in Hd. rewrite Q in Hd. rewrite Rminus_0_l, Rabs_Ropp in Hd. lra.
  - replace ((df * g x - f x * dg) / (g x * g x)) with ((df * g x - dg * f x) / Rsqr (g x)) by (unfold Rsqr; f_equal; ring).
    apply (derivable_pt_lim_div f g); assumption.
Qed.

(** ** C42: Bezier patches *)
(** A patch with the knots 0 .. 0 1 .. 1 is the rational tensor-product Bezier surface of its control
    points; the statement holds for every real x, y at which the weight does not vanish. *)
Theorem C42_bezier_eval : forall inv ws xyzw p q,
  length xyzw = 4%nat -> (forall M, In M xyzw -> rectangular (q + 1) (p + 1) M) -> (p <= MaxP)%nat -> (q <= MaxP)%nat ->
  exists P, init_Patch inv ws xyzw (MakeBezierKnotVector (p + 1)) (MakeBezierKnotVector (q + 1)) = Some P
    /\ patch_ok P
    /\ forall x y, let H k := bezier_surface p q (fun i j => entry (nth k xyzw []) j i) x y in
         forall j1 j2, H 3%nat <> 0 -> eval j1 j2 P x y = Some (projected H).
Proof.
  intros inv ws xyzw p q L4 Rc Hp Hq.
  destruct (init_bezier inv ws xyzw (MakeBezierKnotVector (p + 1)) (MakeBezierKnotVector (q + 1)) (p + 1) (q + 1))
    as [data [E [L I]]]; try assumption; try lia; try apply bezier_length; try (apply unique_bezier; lia).
  exists (Patch data (p + 1) (q + 1) [0; 1] [0; 1]). split; [exact E|].
  pose proof (unit_patch_ok data p q Hp Hq L) as OK. split; [assumption|]. intros x y H j1 j2 HW.
  rewrite (eval_located _ 0 0 x y x y OK (locate_unit x) (locate_unit y) ltac:(simpl; lia) ltac:(simpl; lia)).
  set (P := Patch data (p + 1) (q + 1) [0; 1] [0; 1]) in *.
  assert (EW : forall k, (k < 4)%nat -> W P 0 0 x y k = H k).
  { intros k Hk. rewrite W_surface by (cbn; lia). unfold H. cbn [p_degx p_degy P]. replace (p + 1 - 1)%nat with p by lia.
    replace (q + 1 - 1)%nat with q by lia. apply surface_ext. intros i j Hi Hj. unfold coef, accs, P. cbn [p_degx p_degy p_kny p_data length].
    rewrite <- (I k i j) by lia. f_equal. lia. }
  rewrite (EW 3%nat) by lia. destruct Req_EM_T as [Q|_]; [contradiction|]. unfold projected. rewrite !EW by lia. reflexivity.
Qed.

(** Positive weights: no division by zero on the reference square, and the point is a convex
    combination of the control points. *)
Theorem C42_bezier_positive_weights : forall inv ws xyzw p q,
  length xyzw = 4%nat -> (forall M, In M xyzw -> rectangular (q + 1) (p + 1) M) -> (p <= MaxP)%nat -> (q <= MaxP)%nat ->
  (forall i j, (i <= p)%nat -> (j <= q)%nat -> 0 < entry (nth 3 xyzw []) j i) ->
  exists P, init_Patch inv ws xyzw (MakeBezierKnotVector (p + 1)) (MakeBezierKnotVector (q + 1)) = Some P
    /\ forall x y j1 j2, 0 <= x <= 1 -> 0 <= y <= 1 ->
       exists pt, eval j1 j2 P x y = Some pt
       /\ forall k lo hi, (k < 3)%nat ->
            (forall i j, (i <= p)%nat -> (j <= q)%nat ->
               lo <= entry (nth k xyzw []) j i / entry (nth 3 xyzw []) j i <= hi) ->
            lo <= nth k pt 0 <= hi.
Proof.
  intros inv ws xyzw p q L4 Rc Hp Hq Pos.
  destruct (C42_bezier_eval inv ws xyzw p q L4 Rc Hp Hq) as [P [E [_ V]]]. exists P. split; [exact E|].
  intros x y j1 j2 Hx Hy. set (H := fun k => bezier_surface p q (fun i j => entry (nth k xyzw []) j i) x y).
  assert (Wpos : 0 < H 3%nat).
  { assert (X : exists c, 0 < c /\ forall i j, (i <= p)%nat -> (j <= q)%nat -> c <= entry (nth 3 xyzw []) j i).
    { assert (Y : forall n m, exists c, 0 < c /\ forall i j, (i < n)%nat -> (j < m)%nat -> (i <= p)%nat -> (j <= q)%nat -> c <= entry (nth 3 xyzw []) j i).
      { induction n as [|n IH]; intros m; [exists 1; split; [lra|intros; lia]|].
        destruct (IH m) as [c [Hc Ic]].
        assert (Z : forall m, exists d, 0 < d /\ forall j, (j < m)%nat -> (n <= p)%nat -> (j <= q)%nat -> d <= entry (nth 3 xyzw []) j n).
        { induction m0 as [|m0 [d [Hd Id]]]; [exists 1; split; [lra|intros; lia]|].
          destruct (le_dec n p) as [A|A]; [|exists 1; split; [lra|intros; lia]].
          destruct (le_dec m0 q) as [A'|A'].
          - exists (Rmin d (entry (nth 3 xyzw []) m0 n)). split; [apply Rmin_glb_lt; [assumption|apply Pos; assumption]|].
            intros j Hj _ Hjq. destruct (Nat.eq_dec j m0) as [->|]; [apply Rmin_r|].
            eapply Rle_trans; [apply Rmin_l|]. apply Id; lia.
          - exists d. split; [assumption|]. intros j Hj _ Hjq. apply Id; lia. }
        destruct (Z m) as [d [Hd Id]]. exists (Rmin c d). split; [apply Rmin_glb_lt; assumption|].
        intros i j Hi Hj Hip Hjq. destruct (Nat.eq_dec i n) as [->|].
        - eapply Rle_trans; [apply Rmin_r|]. apply Id; assumption.
        - eapply Rle_trans; [apply Rmin_l|]. apply Ic; lia. }
      destruct (Y (p + 1)%nat (q + 1)%nat) as [c [Hc Ic]]. exists c. split; [assumption|]. intros i j Hi Hj. apply Ic; lia. }
    destruct X as [c [Hc Ic]]. apply Rlt_le_trans with c; [assumption|]. unfold H, bezier_surface.
    replace c with (rsum (fun i => rsum (fun j => c * (bern p i x * bern q j y)) (q + 1)) (p + 1)).
    - apply rsum_le. intros i Hi. apply rsum_le. intros j Hj. apply Rmult_le_compat_r.
      + apply Rmult_le_pos; apply bern_nonneg; assumption.
      + apply Ic; lia.
    - transitivity (rsum (fun i => c * bern p i x) (p + 1)).
      + apply rsum_ext. intros i _. transitivity (rsum (fun j => (c * bern p i x) * bern q j y) (q + 1)); [apply rsum_ext; intros; ring|].
        rewrite rsum_scal, bern_sum. ring.
      + rewrite rsum_scal, bern_sum. ring. }
  exists (projected H). split; [exact (V x y j1 j2 (Rgt_not_eq _ _ Wpos))|]. intros k lo hi Hk Hb.
  assert (EH : nth k (projected H) 0 = H k / H 3%nat) by (destruct k as [|[|[|k]]]; [reflexivity..|lia]). rewrite EH.
  assert (Low : lo * H 3%nat <= H k).
  { unfold H, bezier_surface. rewrite <- rsum_scal. apply rsum_le. intros i Hi. rewrite <- rsum_scal. apply rsum_le. intros j Hj.
    rewrite <- Rmult_assoc. apply Rmult_le_compat_r; [apply Rmult_le_pos; apply bern_nonneg; assumption|].
    pose proof (Pos i j ltac:(lia) ltac:(lia)) as Pw. destruct (Hb i j ltac:(lia) ltac:(lia)) as [Q _].
    apply (Rmult_le_compat_r (entry (nth 3 xyzw []) j i)) in Q; [|lra]. unfold Rdiv in Q. rewrite Rmult_assoc, Rinv_l in Q by lra. lra. }
  assert (High : H k <= hi * H 3%nat).
  { unfold H, bezier_surface. rewrite <- rsum_scal. apply rsum_le. intros i Hi. rewrite <- rsum_scal. apply rsum_le. intros j Hj.
    rewrite <- (Rmult_assoc hi). apply Rmult_le_compat_r; [apply Rmult_le_pos; apply bern_nonneg; assumption|].
    pose proof (Pos i j ltac:(lia) ltac:(lia)) as Pw. destruct (Hb i j ltac:(lia) ltac:(lia)) as [_ Q].
    apply (Rmult_le_compat_r (entry (nth 3 xyzw []) j i)) in Q; [|lra]. unfold Rdiv in Q. rewrite Rmult_assoc, Rinv_l in Q by lra. lra. }
  split; apply (Rmult_le_reg_r (H 3%nat)); try assumption; unfold Rdiv; rewrite Rmult_assoc, Rinv_l by lra; lra.
Qed.

(** ** C42: derivatives *)
Lemma in_span_lt : forall u i x, (i + 1 < length u)%nat -> nth i u 0 < x < nth (i + 1) u 0 -> in_span u i x.
Proof. intros u i x H Hx. split; [assumption|]. split; [lra|left; lra]. Qed.

Lemma affine_chain : forall f x a w d, w <> 0 -> derivable_pt_lim f ((x - a) / w) d -> derivable_pt_lim (fun z => f ((z - a) / w)) x (d * / w).
Proof.
  intros f x a w d Hw D.
  apply (derivable_pt_lim_comp (fun z => (z - a) / w) f x (/ w) d); [|exact D].
  apply (derivable_pt_lim_ext (fun z => / w * z + (- a / w))); [intros z; unfold Rdiv; ring|].
  match goal with |- derivable_pt_lim ?g x ?d => assert (Q : derivable_pt_lim g x (/ w * 1 + 0)) end.
  2:{ replace (/ w * 1 + 0) with (/ w) in Q by ring. exact Q. }
  apply (derivable_pt_lim_plus (fun z => / w * z) (fun _ => - a / w)); [|apply derivable_pt_lim_const].
  apply (derivable_pt_lim_scal id). apply derivable_pt_lim_id.
Qed.

(** Inside a span of length w the columns of evalJacobian are w times the partial derivatives of eval. *)
Theorem C42_jacobian : forall P xl yl x y pt i1 i2, patch_ok P ->
  (xl + 1 < length (p_knx P))%nat -> nth xl (p_knx P) 0 < x < nth (xl + 1) (p_knx P) 0 ->
  (yl + 1 < length (p_kny P))%nat -> nth yl (p_kny P) 0 < y < nth (yl + 1) (p_kny P) 0 ->
  eval i1 i2 P x y = Some pt ->
  let wx := nth (xl + 1) (p_knx P) 0 - nth xl (p_knx P) 0 in
  let wy := nth (yl + 1) (p_kny P) 0 - nth yl (p_kny P) 0 in
  forall j1 j2 j3 j4, exists jx jy, evalJacobian j1 j2 j3 j4 P x y = Some (jx, jy)
    /\ length jx = 3%nat /\ length jy = 3%nat
    /\ forall k, (k < 3)%nat ->
         derivable_pt_lim (fun z => coordinate k (eval i1 i2 P z y)) x (nth k jx 0 / wx)
         /\ derivable_pt_lim (fun z => coordinate k (eval i1 i2 P x z)) y (nth k jy 0 / wy).
Proof.
  intros P xl yl x y pt i1 i2 OK Hxl Hx Hyl Hy E wx wy j1 j2 j3 j4.
  pose proof (pk_degx P OK) as Dx. pose proof (pk_degy P OK) as Dy.
  assert (LX : forall z, nth xl (p_knx P) 0 < z < nth (xl + 1) (p_knx P) 0 ->
     locate z (p_knx P) = Some (xl, (z - nth xl (p_knx P) 0) / wx)).
  { intros z Hz. apply locate_span; [apply (pk_lenx P OK)|apply (pk_sortx P OK)|apply (pk_0x P OK)|apply in_span_lt; assumption]. }
  assert (LY : forall z, nth yl (p_kny P) 0 < z < nth (yl + 1) (p_kny P) 0 ->
     locate z (p_kny P) = Some (yl, (z - nth yl (p_kny P) 0) / wy)).
  { intros z Hz. apply locate_span; [apply (pk_leny P OK)|apply (pk_sorty P OK)|apply (pk_0y P OK)|apply in_span_lt; assumption]. }
  set (s := (x - nth xl (p_knx P) 0) / wx) in *. set (t := (y - nth yl (p_kny P) 0) / wy) in *.
  assert (EV : forall z z', nth xl (p_knx P) 0 < z < nth (xl + 1) (p_knx P) 0 -> nth yl (p_kny P) 0 < z' < nth (yl + 1) (p_kny P) 0 ->
    eval i1 i2 P z z' = if Req_EM_T (W P xl yl ((z - nth xl (p_knx P) 0) / wx) ((z' - nth yl (p_kny P) 0) / wy) 3) 0 then None
       else Some (projected (W P xl yl ((z - nth xl (p_knx P) 0) / wx) ((z' - nth yl (p_kny P) 0) / wy)))).
  { intros z z' Hz Hz'. apply eval_located; try assumption; [apply LX; assumption|apply LY; assumption|lia|lia]. }
  assert (NZ : W P xl yl s t 3 <> 0).
  { intros Q. rewrite EV in E by assumption. fold s t in E. destruct Req_EM_T; [discriminate|contradiction]. }
  rewrite (jacobian_located P xl yl x y s t OK (LX x Hx) (LY y Hy) ltac:(lia) ltac:(lia)).
  destruct Req_EM_T as [Q|_]; [contradiction|]. eexists. eexists. split; [reflexivity|].
  split; [reflexivity|]. split; [reflexivity|]. intros k Hk.
  assert (CP : forall F : nat -> R, coordinate k (Some (projected F)) = F k / F 3%nat)
    by (intros F; destruct k as [|[|[|k]]]; [reflexivity..|lia]).
  assert (NM : forall F : nat -> R, nth k (map F [0; 1; 2]%nat) 0 = F k)
    by (intros F; destruct k as [|[|[|k]]]; [reflexivity..|lia]).
  rewrite !NM.
  assert (Wx0 : wx <> 0) by (unfold wx; lra). assert (Wy0 : wy <> 0) by (unfold wy; lra).
  split.
  - pose proof (quotient_local (fun z => W P xl yl ((z - nth xl (p_knx P) 0) / wx) t k)
      (fun z => W P xl yl ((z - nth xl (p_knx P) 0) / wx) t 3)
      (fun z => coordinate k (eval i1 i2 P z y)) x (Wx P xl yl s t k * / wx) (Wx P xl yl s t 3 * / wx)
      (nth xl (p_knx P) 0) (nth (xl + 1) (p_knx P) 0) Hx) as QL. cbv beta in QL. fold s in QL.
    replace ((Wx P xl yl s t k * W P xl yl s t 3 - W P xl yl s t k * Wx P xl yl s t 3) / (W P xl yl s t 3 * W P xl yl s t 3) / wx)
      with ((Wx P xl yl s t k * / wx * W P xl yl s t 3 - W P xl yl s t k * (Wx P xl yl s t 3 * / wx)) / (W P xl yl s t 3 * W P xl yl s t 3))
      by (field; split; assumption).
    apply QL; clear QL.
    + apply (affine_chain (fun z => W P xl yl z t k)); [assumption|]. apply W_dx. lia.
    + apply (affine_chain (fun z => W P xl yl z t 3)); [assumption|]. apply W_dx. lia.
    + assumption.
    + intros z Hz Hn. rewrite EV by assumption. fold t. destruct Req_EM_T as [Q|_]; [contradiction|]. apply CP.
  - pose proof (quotient_local (fun z => W P xl yl s ((z - nth yl (p_kny P) 0) / wy) k)
      (fun z => W P xl yl s ((z - nth yl (p_kny P) 0) / wy) 3)
      (fun z => coordinate k (eval i1 i2 P x z)) y (Wy P xl yl s t k * / wy) (Wy P xl yl s t 3 * / wy)
      (nth yl (p_kny P) 0) (nth (yl + 1) (p_kny P) 0) Hy) as QL. cbv beta in QL. fold t in QL.
    replace ((Wy P xl yl s t k * W P xl yl s t 3 - W P xl yl s t k * Wy P xl yl s t 3) / (W P xl yl s t 3 * W P xl yl s t 3) / wy)
      with ((Wy P xl yl s t k * / wy * W P xl yl s t 3 - W P xl yl s t k * (Wy P xl yl s t 3 * / wy)) / (W P xl yl s t 3 * W P xl yl s t 3))
      by (field; split; assumption).
    apply QL; clear QL.
    + apply (affine_chain (fun z => W P xl yl s z k)); [assumption|]. apply W_dy. lia.
    + apply (affine_chain (fun z => W P xl yl s z 3)); [assumption|]. apply W_dy. lia.
    + assumption.
    + intros z Hz Hn. rewrite EV by assumption. fold s. destruct Req_EM_T as [Q|_]; [contradiction|]. apply CP.
Qed.

(** For Bezier patches (one span of length 1) evalJacobian is the derivative. *)
Theorem C42_bezier_jacobian : forall P x y pt i1 i2, patch_ok P -> p_knx P = [0; 1] -> p_kny P = [0; 1] ->
  0 < x < 1 -> 0 < y < 1 -> eval i1 i2 P x y = Some pt ->
  forall j1 j2 j3 j4, exists jx jy, evalJacobian j1 j2 j3 j4 P x y = Some (jx, jy)
    /\ forall k, (k < 3)%nat ->
         derivable_pt_lim (fun z => coordinate k (eval i1 i2 P z y)) x (nth k jx 0)
         /\ derivable_pt_lim (fun z => coordinate k (eval i1 i2 P x z)) y (nth k jy 0).
Proof.
  intros P x y pt i1 i2 OK Kx Ky Hx Hy E j1 j2 j3 j4.
  destruct (C42_jacobian P 0 0 x y pt i1 i2 OK) with (j1 := j1) (j2 := j2) (j3 := j3) (j4 := j4) as [jx [jy [EJ [_ [_ D]]]]];
    rewrite ?Kx, ?Ky; simpl; try lia; try assumption.
  exists jx, jy. split; [exact EJ|]. intros k Hk. specialize (D k Hk). rewrite Kx, Ky in D. cbn [nth Nat.add] in D.
  replace (nth k jx 0) with (nth k jx 0 / (1 - 0)) by field. replace (nth k jy 0) with (nth k jy 0 / (1 - 0)) by field. exact D.
Qed.

(** The surface point holds the local coordinates, the weight, the point and both columns of the Jacobian. *)
Theorem C42_surface_point : forall P x y, patch_ok P -> 0 <= x <= last (p_knx P) 0 -> 0 <= y <= last (p_kny P) 0 ->
  forall i1 i2 i3 i4 j1 j2 j3 j4 k1 k2 w xi0 xi1,
  match eval k1 k2 P x y, evalJacobian j1 j2 j3 j4 P x y with
  | Some pt, Some (jx, jy) =>
      updateSurfacePoint i1 i2 i3 i4 P x y w xi0 xi1 = Some ([xi0; xi1; w] ++ pt ++ jx ++ jy)
      /\ length pt = 3%nat /\ length jx = 3%nat /\ length jy = 3%nat
  | None, None => updateSurfacePoint i1 i2 i3 i4 P x y w xi0 xi1 = None
  | _, _ => False
  end.
Proof.
  intros P x y OK Hx Hy i1 i2 i3 i4 j1 j2 j3 j4 k1 k2 w xi0 xi1.
  destruct (span_exists (p_knx P) x (pk_lenx P OK) (pk_sortx P OK) (pk_0x P OK) Hx) as [xl Sx].
  destruct (span_exists (p_kny P) y (pk_leny P OK) (pk_sorty P OK) (pk_0y P OK) Hy) as [yl Sy].
  pose proof (locate_span (p_knx P) xl x (pk_lenx P OK) (pk_sortx P OK) (pk_0x P OK) Sx) as LX.
  pose proof (locate_span (p_kny P) yl y (pk_leny P OK) (pk_sorty P OK) (pk_0y P OK) Sy) as LY.
  pose proof (proj1 Sx) as Rx. pose proof (proj1 Sy) as Ry.
  rewrite (eval_located P xl yl x y _ _ OK LX LY ltac:(lia) ltac:(lia)).
  rewrite (jacobian_located P xl yl x y _ _ OK LX LY ltac:(lia) ltac:(lia)).
  rewrite (surface_located P xl yl x y _ _ OK LX LY ltac:(lia) ltac:(lia)).
  destruct Req_EM_T; [reflexivity|]. repeat split.
Qed.

(** The normal is orthogonal to both tangents and its length is the area element. *)
Theorem C42_normal : forall P x y j1 j2 j3 j4 jx jy, evalJacobian j1 j2 j3 j4 P x y = Some (jx, jy) ->
  let dot a b := nth 0 a 0 * nth 0 b 0 + nth 1 a 0 * nth 1 b 0 + nth 2 a 0 * nth 2 b 0 in
  exists v, evalNormal j1 j2 j3 j4 P x y = Some v /\ length v = 3%nat
    /\ dot v jx = 0 /\ dot v jy = 0 /\ dot v v = dot jx jx * dot jy jy - dot jx jy * dot jx jy.
Proof.
  intros P x y j1 j2 j3 j4 jx jy E dot. unfold evalNormal. rewrite E. cbn [bind fst snd]. eexists. split; [reflexivity|].
  unfold dot, cross. cbn [nth length]. repeat split; ring.
Qed.

(** ** C43: cutting *)
Lemma piece_ok : forall P ix iy, patch_ok P -> (ix < length (p_knx P) - 1)%nat -> (iy < length (p_kny P) - 1)%nat ->
  patch_ok (piece P ix iy (p_degx P * p_degy P)).
Proof.
  intros P ix iy OK Hx Hy. pose proof (pk_degx P OK). pose proof (pk_degy P OK).
  constructor; unfold piece; cbn [p_data p_degx p_degy p_knx p_kny length nth]; try lia; try apply unit_sorted; try reflexivity.
  rewrite chunks_length by (assumption || lia). cbn [Nat.sub]. rewrite !Nat.mul_1_r. reflexivity.
Qed.

Lemma piece_coef : forall P ix iy k i j, patch_ok P -> (ix < length (p_knx P) - 1)%nat -> (iy < length (p_kny P) - 1)%nat ->
  (i < p_degx P)%nat -> (j < p_degy P)%nat -> (k < 4)%nat ->
  coef (piece P ix iy (p_degx P * p_degy P)) 0 0 k i j = coef P ix iy k i j.
Proof.
  intros P ix iy k i j OK Hx Hy Hi Hj Hk. unfold coef at 1. unfold accs at 1. unfold piece. cbn [p_data p_degx p_degy p_kny length Nat.sub].
  pose proof (chunks_nth P ix iy (p_degx P * p_degy P) (i * p_degy P + j) k OK Hx Hy (le_n _) ltac:(nia) Hk) as E.
  destruct (divmod_pair i j (p_degy P) Hj) as [D1 D2]. rewrite D1, D2 in E.
  replace (4 * (1 * p_degy P * (p_degx P * 0 + i) + p_degy P * 0 + j) + k)%nat with (4 * (i * p_degy P + j) + k)%nat by lia. exact E.
Qed.

Lemma piece_hom : forall P ix iy X Y k, patch_ok P -> (ix < length (p_knx P) - 1)%nat -> (iy < length (p_kny P) - 1)%nat -> (k < 4)%nat ->
  hom (piece P ix iy (p_degx P * p_degy P)) 0 0 X Y k = hom P ix iy X Y k.
Proof.
  intros P ix iy X Y k OK Hx Hy Hk. unfold hom. cbn [piece p_degx p_degy]. apply rsum_ext. intros i Hi. apply rsum_ext. intros j Hj.
  rewrite <- (piece_coef P ix iy k i j OK Hx Hy Hi Hj Hk). reflexivity.
Qed.

(** Cutting a well-formed patch that has inner knots: one Bezier patch per pair of spans, and piece (ix, iy)
    evaluates at (s, t) to what the patch evaluates to at the corresponding point of the span; the same for
    the Jacobian and the surface point. *)
Theorem C43_pieces : forall P, patch_ok P -> ~ (length (p_knx P) = 2%nat /\ length (p_kny P) = 2%nat) ->
  exists out, PatchShredder P = Some out
    /\ length out = ((length (p_knx P) - 1) * (length (p_kny P) - 1))%nat
    /\ forall ix iy, (ix + 1 < length (p_knx P))%nat -> (iy + 1 < length (p_kny P))%nat ->
       exists Q, nth_error out (ix * (length (p_kny P) - 1) + iy) = Some Q
       /\ patch_ok Q /\ p_knx Q = [0; 1] /\ p_kny Q = [0; 1] /\ p_degx Q = p_degx P /\ p_degy Q = p_degy P
       /\ forall s t x y,
            x = nth ix (p_knx P) 0 + s * (nth (ix + 1) (p_knx P) 0 - nth ix (p_knx P) 0) ->
            y = nth iy (p_kny P) 0 + t * (nth (iy + 1) (p_kny P) 0 - nth iy (p_kny P) 0) ->
            in_span (p_knx P) ix x -> in_span (p_kny P) iy y ->
            (forall i1 i2 j1 j2, eval i1 i2 Q s t = eval j1 j2 P x y)
            /\ (forall i1 i2 i3 i4 j1 j2 j3 j4, evalJacobian i1 i2 i3 i4 Q s t = evalJacobian j1 j2 j3 j4 P x y)
            /\ (forall i1 i2 i3 i4 j1 j2 j3 j4 w xi0 xi1,
                  updateSurfacePoint i1 i2 i3 i4 Q s t w xi0 xi1 = updateSurfacePoint j1 j2 j3 j4 P x y w xi0 xi1).
Proof.
  intros P OK Hne. destruct (shred_spec P OK) as [out [E [L I]]]; [tauto|].
  exists out. split; [exact E|]. split; [exact L|]. intros ix iy Hix Hiy.
  exists (piece P ix iy (p_degx P * p_degy P)). split; [apply I; lia|].
  pose proof (piece_ok P ix iy OK ltac:(lia) ltac:(lia)) as OKQ. split; [exact OKQ|].
  split; [reflexivity|]. split; [reflexivity|]. split; [reflexivity|]. split; [reflexivity|].
  intros s t x y Ex Ey Sx Sy. set (Q := piece P ix iy (p_degx P * p_degy P)) in *.
  pose proof (locate_span (p_knx P) ix x (pk_lenx P OK) (pk_sortx P OK) (pk_0x P OK) Sx) as LX.
  pose proof (locate_span (p_kny P) iy y (pk_leny P OK) (pk_sorty P OK) (pk_0y P OK) Sy) as LY.
  pose proof (sep_nth _ ix (ix + 1) (pk_sortx P OK) ltac:(lia)) as Wx'. pose proof (sep_nth _ iy (iy + 1) (pk_sorty P OK) ltac:(lia)) as Wy'.
  unfold generic_tolerance in Wx', Wy'.
  replace ((x - nth ix (p_knx P) 0) / (nth (ix + 1) (p_knx P) 0 - nth ix (p_knx P) 0)) with s in LX by (rewrite Ex; field; lra).
  replace ((y - nth iy (p_kny P) 0) / (nth (iy + 1) (p_kny P) 0 - nth iy (p_kny P) 0)) with t in LY by (rewrite Ey; field; lra).
  assert (HH : forall X Y k, (k < 4)%nat -> hom Q 0 0 X Y k = hom P ix iy X Y k) by (intros; apply piece_hom; assumption || lia).
  assert (HW : forall k, (k < 4)%nat -> W Q 0 0 s t k = W P ix iy s t k) by (intros; apply HH; assumption).
  assert (HWx : forall k, (k < 4)%nat -> Wx Q 0 0 s t k = Wx P ix iy s t k) by (intros; apply HH; assumption).
  assert (HWy : forall k, (k < 4)%nat -> Wy Q 0 0 s t k = Wy P ix iy s t k) by (intros; apply HH; assumption).
  split; [|split].
  - intros i1 i2 j1 j2. rewrite (eval_located P ix iy x y s t OK LX LY ltac:(lia) ltac:(lia)).
    rewrite (eval_located Q 0 0 s t s t OKQ (locate_unit s) (locate_unit t) ltac:(simpl; lia) ltac:(simpl; lia)).
    unfold projected. rewrite !HW by lia. reflexivity.
  - intros i1 i2 i3 i4 j1 j2 j3 j4. rewrite (jacobian_located P ix iy x y s t OK LX LY ltac:(lia) ltac:(lia)).
    rewrite (jacobian_located Q 0 0 s t s t OKQ (locate_unit s) (locate_unit t) ltac:(simpl; lia) ltac:(simpl; lia)).
    cbn [map]. rewrite !HW, !HWx, !HWy by lia. reflexivity.
  - intros i1 i2 i3 i4 j1 j2 j3 j4 w xi0 xi1. rewrite (surface_located P ix iy x y s t OK LX LY ltac:(lia) ltac:(lia)).
    rewrite (surface_located Q 0 0 s t s t OKQ (locate_unit s) (locate_unit t) ltac:(simpl; lia) ltac:(simpl; lia)).
    unfold projected. cbn [map]. rewrite !HW, !HWx, !HWy by lia. reflexivity.
Qed.

(** A patch without inner knots is returned unchanged. *)
Theorem C43_bezier_unchanged : forall P, length (p_knx P) = 2%nat -> length (p_kny P) = 2%nat -> PatchShredder P = Some [P].
Proof. intros P Hx Hy. unfold PatchShredder. rewrite Hx, Hy. reflexivity. Qed.

(** The overload for a vector of patches: the pieces of the patches in order; every piece is a Bezier patch. *)
Theorem C43_all_patches : forall patches, (forall P, In P patches -> patch_ok P) ->
  exists outs, map_opt PatchShredder patches = Some outs /\ PatchShredder_all patches = Some (concat outs)
    /\ (forall Q, In Q (concat outs) -> patch_ok Q /\ length (p_knx Q) = 2%nat /\ length (p_kny Q) = 2%nat).
Proof.
  intros patches Hok.
  assert (X : forall acc, exists outs, map_opt PatchShredder patches = Some outs /\ shred_loop patches acc = Some (acc ++ concat outs)
     /\ (forall Q, In Q (concat outs) -> patch_ok Q /\ length (p_knx Q) = 2%nat /\ length (p_kny Q) = 2%nat)).
  { induction patches as [|P rest IH]; intros acc.
    - exists []. split; [reflexivity|]. cbn [shred_loop concat]. rewrite app_nil_r. split; [reflexivity|]. intros Q [].
    - assert (OK : patch_ok P) by (apply Hok; left; reflexivity).
      assert (Y : exists out, PatchShredder P = Some out /\ forall Q, In Q out -> patch_ok Q /\ length (p_knx Q) = 2%nat /\ length (p_kny Q) = 2%nat).
      { destruct (Nat.eq_dec (length (p_knx P)) 2) as [Ex|Ex]; [destruct (Nat.eq_dec (length (p_kny P)) 2) as [Ey|Ey]|].
        - exists [P]. split; [apply C43_bezier_unchanged; assumption|]. intros Q [<-|[]]. auto.
        - destruct (C43_pieces P OK ltac:(tauto)) as [out [E [L I]]]. exists out. split; [exact E|]. intros Q HQ.
          destruct (In_nth_error out Q HQ) as [r Er]. assert (Hr : (r < length out)%nat) by (apply nth_error_Some; congruence).
          set (ny := (length (p_kny P) - 1)%nat) in *. assert (ny <> 0)%nat by (pose proof (pk_leny P OK); unfold ny; lia).
          destruct (I (r / ny)%nat (r mod ny)%nat) as [Q' [EQ [OKQ [Kx [Ky _]]]]].
          + assert (r / ny < length (p_knx P) - 1)%nat by (apply Nat.div_lt_upper_bound; [assumption|lia]). lia.
          + pose proof (Nat.mod_upper_bound r ny ltac:(assumption)). unfold ny in *. lia.
          + replace (r / ny * ny + r mod ny)%nat with r in EQ by (rewrite (Nat.div_mod r ny) at 1 by assumption; lia).
            rewrite Er in EQ. injection EQ as <-. rewrite Kx, Ky. auto.
        - destruct (C43_pieces P OK ltac:(tauto)) as [out [E [L I]]]. exists out. split; [exact E|]. intros Q HQ.
          destruct (In_nth_error out Q HQ) as [r Er]. assert (Hr : (r < length out)%nat) by (apply nth_error_Some; congruence).
          set (ny := (length (p_kny P) - 1)%nat) in *. assert (ny <> 0)%nat by (pose proof (pk_leny P OK); unfold ny; lia).
          destruct (I (r / ny)%nat (r mod ny)%nat) as [Q' [EQ [OKQ [Kx [Ky _]]]]].
          + assert (r / ny < length (p_knx P) - 1)%nat by (apply Nat.div_lt_upper_bound; [assumption|lia]). lia.
          + pose proof (Nat.mod_upper_bound r ny ltac:(assumption)). unfold ny in *. lia.
          + replace (r / ny * ny + r mod ny)%nat with r in EQ by (rewrite (Nat.div_mod r ny) at 1 by assumption; lia).
            rewrite Er in EQ. injection EQ as <-. rewrite Kx, Ky. auto. }
      destruct Y as [out [E HQ]]. cbn [map_opt shred_loop]. rewrite E. cbn [bind].
      destruct (IH ltac:(intros; apply Hok; right; assumption) (acc ++ out)) as [outs [E1 [E2 H2]]].
      rewrite E1. cbn [bind]. exists (out :: outs). split; [reflexivity|]. rewrite E2. cbn [concat]. rewrite app_assoc.
      split; [reflexivity|]. intros Q HQ'. apply in_app_or in HQ'. destruct HQ'; [apply HQ|apply H2]; assumption. }
  destruct (X []) as [outs [E1 [E2 H2]]]. exists outs. auto.
Qed.

(** ** C09: the local interpolation problem of GetCoefficients *)
(** For pairwise different points the collocation matrix has an inverse, and with any such inverse GetCoefficients
    returns the coefficients of the interpolating Bernstein polynomials (C09_get_coefficients). *)
Theorem C09_collocation_invertible : forall junk p mask, (p <= MaxP)%nat ->
  (forall i j, (i <= p)%nat -> (j <= p)%nat -> i <> j -> mask i <> mask j) ->
  exists im, (forall j k, (j <= p)%nat -> (k <= p)%nat ->
     rsum (fun i => collocation junk p mask j i * im i k) (p + 1) = if (j =? k)%nat then 1 else 0)
  /\ forall incr values coefs i j, (i < incr)%nat -> (j <= p)%nat ->
       bernstein_form p (fun l => GetCoefficients im p incr values coefs (i * (p + 1) + l)%nat) (mask j)
       = values (i * (p + 1) + j)%nat.
Proof.
  intros junk p mask Hp D.
  assert (D' : distinct (p + 1) mask) by (intros i j Hi Hj Ne; apply D; assumption || lia).
  destruct (collocation_inverse p mask D') as [im Him].
  assert (X : forall j k, (j <= p)%nat -> (k <= p)%nat ->
     rsum (fun i => collocation junk p mask j i * im i k) (p + 1) = if (j =? k)%nat then 1 else 0).
  { intros j k Hj Hk. rewrite <- (Him j k Hj Hk). apply rsum_ext. intros i Hi. f_equal.
    unfold collocation, evalBasis. rewrite dispatch_le by assumption. rewrite EvalBernsteinBasis_spec.
    replace (i <=? p)%nat with true by (symmetry; apply Nat.leb_le; lia). reflexivity. }
  exists im. split; [exact X|]. intros incr values coefs i j Hi Hj. apply (get_coefficients_spec junk); assumption.
Qed.

(** ** C57: Bezier extraction *)
Lemma local_unit : forall a b x, a <= x < b -> 0 <= (x - a) / (b - a) < 1.
Proof.
  intros a b x H. split.
  - apply Rmult_le_pos; [lra|]. left. apply Rinv_0_lt_compat. lra.
  - apply (Rmult_lt_reg_r (b - a)); [lra|]. unfold Rdiv. rewrite Rmult_assoc, Rinv_l by lra. lra.
Qed.

(** For every pair of clamped knot vectors the interpolation points are found and the interpolation matrix is
    invertible, so the rank assertion holds. *)
Theorem C57_matrix_invertible : forall kx ky p q n m,
  clamped generic_tolerance kx p n -> clamped generic_tolerance ky q m -> (p <= MaxP)%nat -> (q <= MaxP)%nat ->
  exists ux uy xpoint ypoint, ExtractUniqueKnotVector kx = Some ux /\ ExtractUniqueKnotVector ky = Some uy
    /\ MakeInterpolationPoints ux (MakeInterpolationMask (p + 1)) = Some xpoint
    /\ MakeInterpolationPoints uy (MakeInterpolationMask (q + 1)) = Some ypoint
    /\ exists B, is_inverse ((length ux - 1) * (p + 1) * ((length uy - 1) * (q + 1))) (tempsolver ux uy (p + 1) (q + 1) xpoint ypoint) B.
Proof.
  intros kx ky p q n m Cx Cy Hp Hq.
  destruct (clamped_uniq kx p n Cx) as [ux Ux]. destruct (clamped_uniq ky q m Cy) as [uy Uy].
  destruct (points_of kx ux p Ux) as [xp [Exp _]]. destruct (points_of ky uy q Uy) as [yp [Eyp _]].
  exists ux, uy, xp, yp. split; [apply (uo_ext _ _ Ux)|]. split; [apply (uo_ext _ _ Uy)|]. split; [exact Exp|]. split; [exact Eyp|].
  apply (T_invertible kx ux ky uy p q); assumption.
Qed.

(** Column i * m + j of the projection holds, span by span, the Bernstein coefficients of the tensor-product
    B-spline N_i(x) N_j(y), up to the pruning tolerance. *)
Theorem C57_reproduces : forall inv ws kx ky p q n m, good_inverse inv -> (MaxP <= length ws)%nat ->
  clamped generic_tolerance kx p n -> clamped generic_tolerance ky q m -> (p <= MaxP)%nat -> (q <= MaxP)%nat ->
  exists ux uy phi, ExtractUniqueKnotVector kx = Some ux /\ ExtractUniqueKnotVector ky = Some uy
    /\ MakeProjection inv ws kx ky ux uy (p + 1) (q + 1) = Some phi
    /\ length phi = (n * m)%nat
    /\ (forall col, In col phi -> length col = ((length ux - 1) * (p + 1) * ((length uy - 1) * (q + 1)))%nat)
    /\ forall i j s t x y, (i < n)%nat -> (j < m)%nat -> (s + 1 < length ux)%nat -> (t + 1 < length uy)%nat ->
         nth s ux 0 <= x < nth (s + 1) ux 0 -> nth t uy 0 <= y < nth (t + 1) uy 0 ->
         let C c1 c2 := nth ((s * (p + 1) + c1) * ((length uy - 1) * (q + 1)) + (t * (q + 1) + c2)) (nth (i * m + j) phi []) 0 in
         Rabs (bezier_surface p q C ((x - nth s ux 0) / (nth (s + 1) ux 0 - nth s ux 0)) ((y - nth t uy 0) / (nth (t + 1) uy 0 - nth t uy 0))
               - bspline (fun k => nth k kx 0) p i x * bspline (fun k => nth k ky 0) q j y) <= prune_tol.
Proof.
  intros inv ws kx ky p q n m GI Hws Cx Cy Hp Hq.
  destruct (clamped_uniq kx p n Cx) as [ux Ux]. destruct (clamped_uniq ky q m Cy) as [uy Uy].
  destruct (points_of kx ux p Ux) as [xp [Exp _]]. destruct (points_of ky uy q Uy) as [yp [Eyp _]].
  pose proof (GI _ _ (T_invertible kx ux ky uy p q Ux Uy Hp Hq xp yp Exp Eyp)) as HI.
  destruct (projection_columns kx ux ky uy p n q m Cx Ux Cy Uy Hp Hq xp yp Exp Eyp inv ws Hws) as [phi [Ephi [Lphi Iphi]]].
  exists ux, uy, phi. split; [apply (uo_ext _ _ Ux)|]. split; [apply (uo_ext _ _ Uy)|]. split; [exact Ephi|]. split; [exact Lphi|].
  split.
  { intros col Hc. destruct (In_nth phi col [] Hc) as [c [Hc' <-]]. apply Iphi. lia. }
  intros i j s t x y Hi Hj Hs Ht Hx Hy C.
  set (xi := (x - nth s ux 0) / (nth (s + 1) ux 0 - nth s ux 0)). set (eta := (y - nth t uy 0) / (nth (t + 1) uy 0 - nth t uy 0)).
  assert (Hxi : 0 <= xi < 1).
  { unfold xi; apply local_unit; lra. }
  assert (Heta : 0 <= eta < 1).
  { unfold eta; apply local_unit; lra. }
  assert (EX : x = ptx ux s xi) by (unfold ptx, xi; field; lra).
  assert (EY : y = pty uy t eta) by (unfold pty, eta; field; lra).
  rewrite EX, EY.
  rewrite <- (column_exact kx ux ky uy p q Ux Uy Hp Hq xp yp Exp Eyp _ HI i j s t xi eta ltac:(lia) ltac:(lia) Hxi Heta).
  unfold bezier_surface. rewrite <- rsum_minus.
  eapply Rle_trans; [apply rsum_abs|].
  replace prune_tol with (rsum (fun c1 => rsum (fun c2 => prune_tol * (bern p c1 xi * bern q c2 eta)) (q + 1)) (p + 1)).
  - apply rsum_le. intros c1 Hc1. rewrite <- rsum_minus. eapply Rle_trans; [apply rsum_abs|]. apply rsum_le. intros c2 Hc2.
    assert (EC : C c1 c2 = prune (column kx ux ky uy p q xp yp (inv (tempsolver ux uy (p + 1) (q + 1) xp yp)
         ((length ux - 1) * (p + 1) * ((length uy - 1) * (q + 1)))%nat) i j
         ((s * (p + 1) + c1) * ((length uy - 1) * (q + 1)) + (t * (q + 1) + c2)))).
    { unfold C. destruct (Iphi (i * m + j)%nat ltac:(apply pair_lt; assumption)) as [_ V]. rewrite V.
      - destruct (divmod_pair i j m Hj) as [-> ->]. reflexivity.
      - apply pair_lt; [apply pair_lt; lia|apply pair_lt; lia]. }
    rewrite EC. rewrite <- Rmult_minus_distr_r, Rabs_mult.
    rewrite (Rabs_right (bern p c1 xi * bern q c2 eta)) by (apply Rle_ge, Rmult_le_pos; apply bern_nonneg; lra).
    apply Rmult_le_compat_r; [apply Rmult_le_pos; apply bern_nonneg; lra|apply prune_error].
  - transitivity (rsum (fun c1 => prune_tol * bern p c1 xi) (p + 1)).
    + apply rsum_ext. intros c1 _. transitivity (rsum (fun c2 => (prune_tol * bern p c1 xi) * bern q c2 eta) (q + 1)); [apply rsum_ext; intros; ring|].
      rewrite rsum_scal, bern_sum. ring.
    + rewrite rsum_scal, bern_sum. ring.
Qed.

(** ** C42: patches with inner knots *)
(** homogeneous coordinate k of the patch at (x, y) *)
Definition homogeneous (P : patch) (k : nat) (x y : R) : R :=
  match locate x (p_knx P), locate y (p_kny P) with
  | Some (xl, s), Some (yl, t) => W P xl yl s t k
  | _, _ => 0
  end.

Lemma homogeneous_span : forall P xl yl k x y, patch_ok P -> in_span (p_knx P) xl x -> in_span (p_kny P) yl y ->
  homogeneous P k x y = W P xl yl ((x - nth xl (p_knx P) 0) / (nth (xl + 1) (p_knx P) 0 - nth xl (p_knx P) 0))
     ((y - nth yl (p_kny P) 0) / (nth (yl + 1) (p_kny P) 0 - nth yl (p_kny P) 0)) k.
Proof.
  intros P xl yl k x y OK Sx Sy. unfold homogeneous.
  rewrite (locate_span (p_knx P) xl x (pk_lenx P OK) (pk_sortx P OK) (pk_0x P OK) Sx).
  rewrite (locate_span (p_kny P) yl y (pk_leny P OK) (pk_sorty P OK) (pk_0y P OK) Sy). reflexivity.
Qed.

Lemma eval_homogeneous : forall P x y j1 j2, patch_ok P -> 0 <= x <= last (p_knx P) 0 -> 0 <= y <= last (p_kny P) 0 ->
  eval j1 j2 P x y = if Req_EM_T (homogeneous P 3 x y) 0 then None else Some (projected (fun k => homogeneous P k x y)).
Proof.
  intros P x y j1 j2 OK Hx Hy.
  destruct (span_exists (p_knx P) x (pk_lenx P OK) (pk_sortx P OK) (pk_0x P OK) Hx) as [xl Sx].
  destruct (span_exists (p_kny P) y (pk_leny P OK) (pk_sorty P OK) (pk_0y P OK) Hy) as [yl Sy].
  pose proof (locate_span (p_knx P) xl x (pk_lenx P OK) (pk_sortx P OK) (pk_0x P OK) Sx) as LX.
  pose proof (locate_span (p_kny P) yl y (pk_leny P OK) (pk_sorty P OK) (pk_0y P OK) Sy) as LY.
  pose proof (proj1 Sx) as Rx. pose proof (proj1 Sy) as Ry.
  rewrite (eval_located P xl yl x y _ _ OK LX LY ltac:(lia) ltac:(lia)).
  unfold projected. rewrite !(homogeneous_span P xl yl _ x y OK Sx Sy). reflexivity.
Qed.

Lemma left_limit_affine : forall (f g : R -> R) a b w, a < b -> w <> 0 -> (exists d, derivable_pt_lim f ((b - a) / w) d) ->
  (forall z, a < z < b -> g z = f ((z - a) / w)) -> left_limit g b (f ((b - a) / w)).
Proof.
  intros f g a b w Hab Hw [d D] E eps He.
  assert (Cn : continuity_pt (fun z => f ((z - a) / w)) b).
  { apply derivable_continuous_pt. eexists. apply (affine_chain f b a w d Hw D). }
  destruct (Cn eps He) as [del [Hd Hc]]. exists (Rmin del (b - a)). split; [apply Rmin_glb_lt; lra|].
  intros t Ht. pose proof (Rmin_l del (b - a)). pose proof (Rmin_r del (b - a)). rewrite E by lra.
  apply (Hc t). split; [split; [exact I|lra]|]. unfold R_met, dist, R_dist. apply Rabs_def1; lra.
Qed.

(** at the right end the value is the limit from the left *)
Lemma homogeneous_left_x : forall P k y, patch_ok P -> 0 <= y <= last (p_kny P) 0 ->
  left_limit (fun z => homogeneous P k z y) (last (p_knx P) 0) (homogeneous P k (last (p_knx P) 0) y).
Proof.
  intros P k y OK Hy. set (L := length (p_knx P)). pose proof (pk_lenx P OK) as HL. fold L in HL.
  assert (El : last (p_knx P) 0 = nth (L - 2 + 1) (p_knx P) 0) by (rewrite last_nth; f_equal; unfold L in *; lia).
  pose proof (sep_nth _ (L - 2) (L - 2 + 1) (pk_sortx P OK) ltac:(unfold L in *; lia)) as Sp. unfold generic_tolerance in Sp.
  destruct (span_exists (p_kny P) y (pk_leny P OK) (pk_sorty P OK) (pk_0y P OK) Hy) as [yl Sy].
  rewrite El. rewrite (homogeneous_span P (L - 2) yl k _ y OK).
  - set (t := (y - nth yl (p_kny P) 0) / (nth (yl + 1) (p_kny P) 0 - nth yl (p_kny P) 0)).
    apply (left_limit_affine (fun z => W P (L - 2) yl z t k)); [lra|lra| |].
    + eexists. apply W_dx. pose proof (pk_degx P OK). lia.
    + intros z Hz. apply (homogeneous_span P (L - 2) yl k z y OK); [|assumption]. split; [unfold L in *; lia|]. split; lra.
  - split; [unfold L in *; lia|]. split; [lra|]. right. split; [unfold L in *; lia|reflexivity].
  - assumption.
Qed.
Lemma homogeneous_left_y : forall P k x, patch_ok P -> 0 <= x <= last (p_knx P) 0 ->
  left_limit (fun z => homogeneous P k x z) (last (p_kny P) 0) (homogeneous P k x (last (p_kny P) 0)).
Proof.
  intros P k x OK Hx. set (L := length (p_kny P)). pose proof (pk_leny P OK) as HL. fold L in HL.
  assert (El : last (p_kny P) 0 = nth (L - 2 + 1) (p_kny P) 0) by (rewrite last_nth; f_equal; unfold L in *; lia).
  pose proof (sep_nth _ (L - 2) (L - 2 + 1) (pk_sorty P OK) ltac:(unfold L in *; lia)) as Sp. unfold generic_tolerance in Sp.
  destruct (span_exists (p_knx P) x (pk_lenx P OK) (pk_sortx P OK) (pk_0x P OK) Hx) as [xl Sx].
  rewrite El. rewrite (homogeneous_span P xl (L - 2) k x _ OK).
  - set (s := (x - nth xl (p_knx P) 0) / (nth (xl + 1) (p_knx P) 0 - nth xl (p_knx P) 0)).
    apply (left_limit_affine (fun z => W P xl (L - 2) s z k)); [lra|lra| |].
    + eexists. apply W_dy. pose proof (pk_degy P OK). lia.
    + intros z Hz. apply (homogeneous_span P xl (L - 2) k x z OK); [assumption|]. split; [unfold L in *; lia|]. split; lra.
  - assumption.
  - split; [unfold L in *; lia|]. split; [lra|]. right. split; [unfold L in *; lia|reflexivity].
Qed.

Theorem C42_spline_surface : forall inv ws xyzw kx ky p q n m, good_inverse inv -> (MaxP <= length ws)%nat ->
  clamped generic_tolerance kx p n -> clamped generic_tolerance ky q m -> (p <= MaxP)%nat -> (q <= MaxP)%nat ->
  length xyzw = 4%nat -> (forall M, In M xyzw -> rectangular m n M) ->
  has_inner_knot kx \/ has_inner_knot ky ->
  exists P, init_Patch inv ws xyzw kx ky = Some P /\ patch_ok P
    /\ ExtractUniqueKnotVector kx = Some (p_knx P) /\ ExtractUniqueKnotVector ky = Some (p_kny P)
    /\ exists H : nat -> R -> R -> R,
         (forall j1 j2 x y, 0 <= x <= last kx 0 -> 0 <= y <= last ky 0 ->
            eval j1 j2 P x y = if Req_EM_T (H 3%nat x y) 0 then None else Some (projected (fun k => H k x y)))
         /\ (forall k x y, (k < 4)%nat -> 0 <= x < last kx 0 -> 0 <= y < last ky 0 ->
               Rabs (H k x y - tp_spline kx ky (nth k xyzw []) p q x y)
               <= prune_tol * rsum (fun i => rsum (fun j => Rabs (entry (nth k xyzw []) j i)) m) n)
         /\ (forall k y, 0 <= y <= last ky 0 -> left_limit (fun z => H k z y) (last kx 0) (H k (last kx 0) y))
         /\ (forall k x, 0 <= x <= last kx 0 -> left_limit (fun z => H k x z) (last ky 0) (H k x (last ky 0))).
Proof.
  intros inv ws xyzw kx ky p q n m GI Hws Cx Cy Hp Hq L4 Rc Hin.
  destruct (clamped_uniq kx p n Cx) as [ux Ux]. destruct (clamped_uniq ky q m Cy) as [uy Uy].
  destruct (points_of kx ux p Ux) as [xp [Exp _]]. destruct (points_of ky uy q Uy) as [yp [Eyp _]].
  pose proof (GI _ _ (T_invertible kx ux ky uy p q Ux Uy Hp Hq xp yp Exp Eyp)) as HI.
  assert (Three : forall k u, uniq_of k u -> has_inner_knot k -> length u <> 2%nat).
  { intros k u Hu [x [Ix Hx]] L. apply (uo_in _ _ Hu) in Ix. pose proof (uo_last _ _ Hu) as El. pose proof (uo_0 _ _ Hu) as E0.
    destruct u as [|a [|b [|c u]]]; simpl in *; try lia. destruct Ix as [<-|[<-|[]]]; lra. }
  destruct (init_spline kx ux ky uy p n q m Cx Ux Cy Uy Hp Hq xp yp Exp Eyp inv ws Hws xyzw L4 Rc) as [data [E [Ld Id]]].
  { intros [A B]. destruct Hin as [Hi|Hi]; [apply (Three kx ux Ux Hi A)|apply (Three ky uy Uy Hi B)]. }
  set (P := Patch data (p + 1) (q + 1) ux uy) in *. exists P. split; [exact E|].
  assert (OK : patch_ok P).
  { constructor; cbn [P p_data p_degx p_degy p_knx p_kny]; try lia; try apply (uo_len _ _ Ux); try apply (uo_len _ _ Uy);
      try apply (uo_sep _ _ Ux); try apply (uo_sep _ _ Uy); try apply (uo_0 _ _ Ux); try apply (uo_0 _ _ Uy). }
  split; [exact OK|]. split; [apply (uo_ext _ _ Ux)|]. split; [apply (uo_ext _ _ Uy)|]. exists (homogeneous P).
  assert (LX : last (p_knx P) 0 = last kx 0) by apply (uo_last _ _ Ux).
  assert (LY : last (p_kny P) 0 = last ky 0) by apply (uo_last _ _ Uy).
  split; [|split; [|split]].
  - intros j1 j2 x y Hx Hy. apply eval_homogeneous; rewrite ?LX, ?LY; assumption.
  - intros k x y Hk Hx Hy.
    destruct (span_exists ux x (uo_len _ _ Ux) (uo_sep _ _ Ux) (uo_0 _ _ Ux)) as [s Sx]; [rewrite (uo_last _ _ Ux); lra|].
    destruct (span_exists uy y (uo_len _ _ Uy) (uo_sep _ _ Uy) (uo_0 _ _ Uy)) as [t Sy]; [rewrite (uo_last _ _ Uy); lra|].
    rewrite (homogeneous_span P s t k x y OK Sx Sy). cbn [P p_knx p_kny].
    destruct Sx as [Hs [Ax Bx]]. destruct Sy as [Ht [Ay By]].
    pose proof (sep_nth _ s (s + 1) (uo_sep _ _ Ux) ltac:(lia)) as Wx'. pose proof (sep_nth _ t (t + 1) (uo_sep _ _ Uy) ltac:(lia)) as Wy'.
    unfold generic_tolerance in Wx', Wy'.
    assert (Bx' : x < nth (s + 1) ux 0).
    { destruct Bx as [B|[B1 B2]]; [exact B|]. exfalso. rewrite <- (uo_last _ _ Ux), last_nth in Hx.
      replace (length ux - 1)%nat with (s + 1)%nat in Hx by lia. lra. }
    assert (By' : y < nth (t + 1) uy 0).
    { destruct By as [B|[B1 B2]]; [exact B|]. exfalso. rewrite <- (uo_last _ _ Uy), last_nth in Hy.
      replace (length uy - 1)%nat with (t + 1)%nat in Hy by lia. lra. }
    set (xi := (x - nth s ux 0) / (nth (s + 1) ux 0 - nth s ux 0)). set (eta := (y - nth t uy 0) / (nth (t + 1) uy 0 - nth t uy 0)).
    assert (Hxi : 0 <= xi < 1) by (unfold xi; apply local_unit; lra).
    assert (Heta : 0 <= eta < 1) by (unfold eta; apply local_unit; lra).
    assert (EX : x = ptx ux s xi) by (unfold ptx, xi; field; lra).
    assert (EY : y = pty uy t eta) by (unfold pty, eta; field; lra).
    rewrite EX, EY.
    assert (Rk : rectangular m n (nth k xyzw [])) by (apply Rc, nth_In; lia).
    pose proof (pruned_error kx ux ky uy p n q m Ux Uy Hp Hq xp yp Exp Eyp _ HI (nth k xyzw []) s t xi eta Rk ltac:(lia) ltac:(lia) Hxi Heta) as PE.
    replace (W P s t xi eta k) with (pruned_form kx ux ky uy p n q m xp yp
       (inv (tempsolver ux uy (p + 1) (q + 1) xp yp) ((length ux - 1) * (p + 1) * ((length uy - 1) * (q + 1)))%nat) (nth k xyzw []) s t xi eta); [exact PE|].
    rewrite W_surface by (cbn; lia). unfold pruned_form, bezier_surface. cbn [P p_degx p_degy].
    replace (p + 1 - 1)%nat with p by lia. replace (q + 1 - 1)%nat with q by lia.
    apply rsum_ext. intros c1 Hc1. apply rsum_ext. intros c2 Hc2. f_equal.
    rewrite <- Id; [|assumption|apply pair_lt; [apply pair_lt; lia|apply pair_lt; lia]].
    unfold coef, accs. cbn [P p_degx p_degy p_kny p_data]. f_equal. ring.
  - intros k y Hy. rewrite <- LX. apply homogeneous_left_x; rewrite ?LY; assumption.
  - intros k x Hx. rewrite <- LY. apply homogeneous_left_y; rewrite ?LX; assumption.
Qed.

(** ** a flat patch with an inner knot: the map (x, y) -> (x, y, 0) *)
Definition flat_kx : list R := [0; 0; 1/2; 1; 1].
Definition flat_ky : list R := [0; 0; 1; 1].
Definition flat_net : list (list (list R)) :=
  [ [[0; 1/2; 1]; [0; 1/2; 1]]; [[0; 0; 0]; [1; 1; 1]]; [[0; 0; 0]; [0; 0; 0]]; [[1; 1; 1]; [1; 1; 1]] ].

Ltac nat_cases H := match type of H with (?i < _)%nat => repeat (destruct i as [|i]; [|try lia]) end.

Lemma flat_kx_clamped : clamped generic_tolerance flat_kx 1 3.
Proof.
  unfold clamped, flat_kx, generic_tolerance. cbn [length last]. split; [reflexivity|]. split; [lia|]. split; [|split; [|split; [|lra]]].
  - intros [|[|i]] H; simpl; lra || lia.
  - intros i H. destruct i as [|[|[|[|[|i]]]]]; simpl; lra || lia.
  - intros i j H. destruct i as [|[|[|[|[|i]]]]]; try lia; destruct j as [|[|[|[|[|j]]]]]; try lia; simpl; (left; lra) || (right; lra).
Qed.
Lemma flat_ky_clamped : clamped generic_tolerance flat_ky 1 2.
Proof.
  unfold clamped, flat_ky, generic_tolerance. cbn [length last]. split; [reflexivity|]. split; [lia|]. split; [|split; [|split; [|lra]]].
  - intros [|[|i]] H; simpl; lra || lia.
  - intros i H. destruct i as [|[|[|[|[|i]]]]]; simpl; lra || lia.
  - intros i j H. destruct i as [|[|[|[|[|i]]]]]; try lia; destruct j as [|[|[|[|[|j]]]]]; try lia; simpl; (left; lra) || (right; lra).
Qed.
Lemma flat_rect : forall M, In M flat_net -> rectangular 2 3 M.
Proof.
  intros M H. unfold flat_net in H. simpl in H. repeat destruct H as [<-|H]; try contradiction;
    (split; [reflexivity|]; intros row Hr; simpl in Hr; repeat destruct Hr as [<-|Hr]; try contradiction; reflexivity).
Qed.
Lemma flat_inner : has_inner_knot flat_kx \/ has_inner_knot flat_ky.
Proof. left. exists (1/2). split; [simpl; tauto|simpl; lra]. Qed.

Lemma flat_value : forall x k, 0 < x < 1/2 -> k = 0%nat \/ k = 3%nat ->
  tp_spline flat_kx flat_ky (nth k flat_net []) 1 1 x (1/2) = if (k =? 0)%nat then x else 1.
Proof.
  intros x k Hx Hk. unfold tp_spline, flat_kx, flat_ky, flat_net.
  destruct Hk as [-> | ->]; cbn [nth length rsum bspline Nat.add Nat.eqb];
    repeat (match goal with |- context [Rle_dec ?a ?b] => destruct (Rle_dec a b); try lra
                       | |- context [Rlt_dec ?a ?b] => destruct (Rlt_dec a b); try lra
                       | |- context [Req_EM_T ?a ?b] => destruct (Req_EM_T a b); try lra end); field.
Qed.

Lemma flat_unique : ExtractUniqueKnotVector flat_kx = Some [0; 1/2; 1] /\ ExtractUniqueKnotVector flat_ky = Some [0; 1].
Proof.
  unfold flat_kx, flat_ky, ExtractUniqueKnotVector. cbn [unique_loop push_back app]. unfold generic_tolerance.
  split; repeat (match goal with |- context [Rlt_dec ?a ?b] => destruct (Rlt_dec a b); try lra
                       | |- context [Rle_dec ?a ?b] => destruct (Rle_dec a b); try lra end); try reflexivity.
  all: exfalso; repeat match goal with H : context [Rabs ?z] |- _ => first [rewrite (Rabs_right z) in H by lra | rewrite (Rabs_left z) in H by lra] end; lra.
Qed.

(** evalJacobian (and with it updateSurfacePoint) is not the derivative when the patch has inner knots: for the flat
    patch above the first column is off by the factor 1/2. *)
Theorem C42_jacobian_is_derivative_refuted : forall inv ws, good_inverse inv -> (MaxP <= length ws)%nat ->
  exists P, init_Patch inv ws flat_net flat_kx flat_ky = Some P /\ patch_ok P
    /\ exists x, 0 < x < 1/2 /\ forall j1 j2 j3 j4 i1 i2, exists jx jy, evalJacobian j1 j2 j3 j4 P x (1/2) = Some (jx, jy)
         /\ ~ derivable_pt_lim (fun z => coordinate 0 (eval i1 i2 P z (1/2))) x (nth 0 jx 0)
         /\ derivable_pt_lim (fun z => coordinate 0 (eval i1 i2 P z (1/2))) x (2 * nth 0 jx 0).
Proof.
  intros inv ws GI Hws.
  destruct (C42_spline_surface inv ws flat_net flat_kx flat_ky 1 1 3 2 GI Hws flat_kx_clamped flat_ky_clamped)
    as [P [E [OK [Kx [Ky [H [EV [Err _]]]]]]]]; [unfold MaxP; lia|unfold MaxP; lia|reflexivity|apply flat_rect|apply flat_inner|].
  exists P. split; [exact E|]. split; [exact OK|]. destruct flat_unique as [Fx Fy].
  rewrite Fx in Kx. injection Kx as Kx. rewrite Fy in Ky. injection Ky as Ky.
  assert (B0 : forall z, 0 < z < 1/2 -> Rabs (H 0%nat z (1/2) - z) <= 1/1000 /\ Rabs (H 3%nat z (1/2) - 1) <= 1/1000).
  { intros z Hz. pose proof (Err 0%nat z (1/2) ltac:(lia)) as A0. pose proof (Err 3%nat z (1/2) ltac:(lia)) as A3.
    rewrite flat_value in A0 by (lra || tauto). rewrite flat_value in A3 by (lra || tauto). cbn [Nat.eqb] in A0, A3.
    assert (S0 : prune_tol * rsum (fun i => rsum (fun j => Rabs (entry (nth 0 flat_net []) j i)) 2) 3 <= 1/1000).
    { unfold flat_net, entry, prune_tol. cbn [rsum nth]. rewrite !(Rabs_right 0), !(Rabs_right (1/2)), !(Rabs_right 1) by lra. lra. }
    assert (S3 : prune_tol * rsum (fun i => rsum (fun j => Rabs (entry (nth 3 flat_net []) j i)) 2) 3 <= 1/1000).
    { unfold flat_net, entry, prune_tol. cbn [rsum nth]. rewrite !(Rabs_right 1) by lra. lra. }
    unfold flat_kx, flat_ky in A0, A3. cbn [last] in A0, A3.
    split; [eapply Rle_trans; [apply A0; lra|exact S0]|eapply Rle_trans; [apply A3; lra|exact S3]]. }
  assert (Wp : forall z, 0 < z < 1/2 -> 999/1000 <= H 3%nat z (1/2) <= 1001/1000 /\ z - 1/1000 <= H 0%nat z (1/2) <= z + 1/1000).
  { intros z Hz. destruct (B0 z Hz) as [A C]. unfold Rabs in A, C. destruct Rcase_abs in A; destruct Rcase_abs in C; lra. }
  assert (EV' : forall i1 i2 z, 0 < z < 1/2 -> eval i1 i2 P z (1/2) = Some (projected (fun k => H k z (1/2)))).
  { intros i1 i2 z Hz. rewrite EV; unfold flat_kx, flat_ky; cbn [last]; try lra.
    destruct Req_EM_T as [Q|_]; [|reflexivity]. pose proof (Wp z Hz). lra. }
  set (f := fun z => coordinate 0 (eval zero_arr zero_arr P z (1/2))).
  assert (Ef : forall i1 i2 z, 0 < z < 1/2 -> coordinate 0 (eval i1 i2 P z (1/2)) = f z).
  { intros i1 i2 z Hz. unfold f. rewrite !EV' by assumption. reflexivity. }
  assert (D : forall z, 0 < z < 1/2 -> forall j1 j2 j3 j4, exists jx jy, evalJacobian j1 j2 j3 j4 P z (1/2) = Some (jx, jy)
     /\ forall i1 i2, derivable_pt_lim (fun z => coordinate 0 (eval i1 i2 P z (1/2))) z (2 * nth 0 jx 0)).
  { intros z Hz j1 j2 j3 j4.
    assert (X : forall i1 i2, exists jx jy, evalJacobian j1 j2 j3 j4 P z (1/2) = Some (jx, jy)
       /\ derivable_pt_lim (fun z => coordinate 0 (eval i1 i2 P z (1/2))) z (2 * nth 0 jx 0)).
    { intros i1 i2. pose proof (C42_jacobian P 0 0 z (1/2) (projected (fun k => H k z (1/2))) i1 i2 OK) as CJ. rewrite <- Kx, <- Ky in CJ. cbn [length nth Nat.add] in CJ.
      specialize (CJ ltac:(lia) ltac:(lra) ltac:(lia) ltac:(lra) (EV' i1 i2 z Hz)). cbv zeta in CJ.
      destruct (CJ j1 j2 j3 j4) as [jx [jy [EJ [_ [_ Dv]]]]].
      exists jx, jy. split; [exact EJ|]. destruct (Dv 0%nat ltac:(lia)) as [Dx _].
      replace (2 * nth 0 jx 0) with (nth 0 jx 0 / (1/2 - 0)) by field. exact Dx. }
    destruct (X zero_arr zero_arr) as [jx [jy [EJ _]]]. exists jx, jy. split; [exact EJ|]. intros i1 i2.
    destruct (X i1 i2) as [jx' [jy' [EJ' Q]]]. rewrite EJ in EJ'. injection EJ' as <- <-. exact Q. }
  set (f' := fun z => match evalJacobian zero_arr zero_arr zero_arr zero_arr P z (1/2) with Some (jx, _) => 2 * nth 0 jx 0 | None => 0 end).
  destruct (MVT_cor2 f f' (1/8) (3/8)) as [c [Ec Hc]]; [lra| |].
  { intros z Hz. destruct (D z ltac:(lra) zero_arr zero_arr zero_arr zero_arr) as [jx [jy [EJ Q]]]. unfold f'. rewrite EJ. apply Q. }
  exists c. split; [lra|]. intros j1 j2 j3 j4 i1 i2. destruct (D c ltac:(lra) j1 j2 j3 j4) as [jx [jy [EJ Q]]].
  exists jx, jy. split; [exact EJ|]. split; [|apply Q]. intros Bad.
  pose proof (uniqueness_limite _ _ _ _ Bad (Q i1 i2)) as U.
  assert (Z : f' c = 0).
  { destruct (D c ltac:(lra) zero_arr zero_arr zero_arr zero_arr) as [jx' [jy' [EJ' Q']]]. unfold f'. rewrite EJ'.
    rewrite <- (uniqueness_limite _ _ _ _ (Q i1 i2) (Q' i1 i2)). lra. }
  rewrite Z in Ec.
  assert (V : forall z, 0 < z < 1/2 -> f z * H 3%nat z (1/2) = H 0%nat z (1/2)).
  { intros z Hz. unfold f. rewrite EV' by assumption. cbn [coordinate projected nth]. pose proof (Wp z Hz). field. lra. }
  pose proof (V (1/8) ltac:(lra)) as V1. pose proof (V (3/8) ltac:(lra)) as V2.
  destruct (Wp (1/8) ltac:(lra)) as [A1 A2]. destruct (Wp (3/8) ltac:(lra)) as [A3 A4].
  assert (f (1/8) <= 2/10) by nra. assert (3/10 <= f (3/8)) by nra. lra.
Qed.

(** ** examples *)
From Coq Require Import ClassicalEpsilon.
(** an operation such as [good_inverse] asks for exists *)
Example C57_inverse_exists : exists inv, good_inverse inv.
Proof.
  exists (fun A N => epsilon (inhabits (fun _ _ => 0)) (fun B => is_inverse N A B)).
  intros A N HB. apply epsilon_spec. exact HB.
Qed.

Example C42_C57_spline_hypotheses : clamped generic_tolerance flat_kx 1 3 /\ clamped generic_tolerance flat_ky 1 2
  /\ has_inner_knot flat_kx /\ length flat_net = 4%nat /\ (forall M, In M flat_net -> rectangular 2 3 M).
Proof.
  split; [apply flat_kx_clamped|]. split; [apply flat_ky_clamped|]. split; [|split; [reflexivity|apply flat_rect]].
  exists (1/2). split; [simpl; tauto|simpl; lra].
Qed.

(** a quarter of a cylinder: a rational Bezier net with positive weights *)
Definition quarter_net : list (list (list R)) :=
  [ [[1; 1; 0]; [1; 1; 0]]; [[0; 1; 2]; [0; 1; 2]]; [[0; 0; 0]; [1; 1; 2]]; [[1; 1; 2]; [1; 1; 2]] ].
Example C42_bezier_hypotheses : length quarter_net = 4%nat /\ (forall M, In M quarter_net -> rectangular (1 + 1) (2 + 1) M)
  /\ (forall i j, (i <= 2)%nat -> (j <= 1)%nat -> 0 < entry (nth 3 quarter_net []) j i).
Proof.
  split; [reflexivity|]. split.
  - intros M H. unfold quarter_net in H. simpl in H. repeat destruct H as [<-|H]; try contradiction;
    (split; [reflexivity|]; intros row Hr; simpl in Hr; repeat destruct Hr as [<-|Hr]; try contradiction; reflexivity).
  - intros i j Hi Hj. destruct i as [|[|[|i]]]; try lia; destruct j as [|[|j]]; try lia; unfold entry, quarter_net; simpl; lra.
Qed.

(** a well-formed patch with two spans in x *)
Example C43_two_spans : let P := Patch (repeat 1 16) 1 1 [0; 1/2; 1] [0; 1/4; 1] in
  patch_ok P /\ ~ (length (p_knx P) = 2%nat /\ length (p_kny P) = 2%nat).
Proof.
  cbv zeta. split; [|cbn; lia].
  constructor; cbn [p_data p_degx p_degy p_knx p_kny length nth repeat]; unfold MaxP, generic_tolerance; try lia; try reflexivity;
    repeat constructor; lra.
Qed.

(* BEGIN ASSUMPTIONS *)
Print Assumptions C42_bezier_eval.
Print Assumptions C42_bezier_positive_weights.
Print Assumptions C42_jacobian.
Print Assumptions C42_bezier_jacobian.
Print Assumptions C42_surface_point.
Print Assumptions C42_normal.
Print Assumptions C43_pieces.
Print Assumptions C43_bezier_unchanged.
Print Assumptions C43_all_patches.
Print Assumptions C09_collocation_invertible.
Print Assumptions C57_matrix_invertible.
Print Assumptions C57_reproduces.
Print Assumptions C42_spline_surface.
Print Assumptions C42_jacobian_is_derivative_refuted.
