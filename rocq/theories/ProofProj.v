(** Proofs about the projector: uniform knots, the local interpolation problem. *)
From Coq Require Import Reals Lra Lia Arith Bool List QArith Qreals Sorting.
From Verif Require Import RSum ModelBase ModelBernstein SpecBernstein ProofBernstein ModelKnots ProofKnots ModelTree
  ModelDeBoor SpecDeBoor ProofDeBoor ProofDeBoorDer SpecInterp ProofInterp SpecPatch ProofBezier ProofProjection ProofPiece ProofMoment ProofAssembly PropBernstein PropDeBoor ModelProj SpecProj.
Import ListNotations.
Local Close Scope Q_scope.
Local Open Scope R_scope.

Lemma nth_repeat_lt : forall (A : Type) (x d : A) n i, (i < n)%nat -> nth i (repeat x n) d = x.
Proof. intros A x d n. induction n as [|n IH]; intros [|i] H; simpl; try lia; [reflexivity|]. apply IH. lia. Qed.
Lemma nth_map_d : forall (f : R -> R) l i d, (i < length l)%nat -> nth i (map f l) d = f (nth i l d).
Proof. intros f l i d H. rewrite (nth_indep _ d (f d)) by (rewrite map_length; exact H). apply map_nth. Qed.
(** ** the uniform knot vector *)
Lemma blocks_nth : forall h rep m i, (1 <= rep)%nat -> (i < m * rep)%nat -> nth i (blocks h rep m) 0 = INR (i / rep + 1) * h.
Proof.
  intros h rep m i Hr. induction m as [|m IH]; intros Hi; [lia|]. rewrite blocks_S.
  destruct (lt_dec i (m * rep)) as [L|L].
  - rewrite app_nth1 by (rewrite blocks_length; exact L). apply IH, L.
  - rewrite app_nth2 by (rewrite blocks_length; lia). rewrite blocks_length. rewrite nth_repeat_lt by lia.
    replace (i / rep)%nat with m; [reflexivity|]. apply (Nat.div_unique i rep m (i - m * rep)); lia.
Qed.

Section OneDim.
Variables (pp1 n rep : nat).
Hypothesis Hp : (1 <= pp1)%nat.
Hypothesis Hn : (1 <= n)%nat.
Hypothesis Hr : (1 <= rep)%nat.
Definition K : list R := MakeUniformKnotVector pp1 (n - 1) rep.
Definition dim : nat := (pp1 + (n - 1) * rep)%nat.
Lemma K_length : length K = (dim + pp1)%nat.
Proof. unfold K, dim. rewrite uniform_eq, !app_length, !repeat_length, blocks_length. lia. Qed.
(** the number of the knot i, in units of 1/n *)
Definition kidx (i : nat) : nat := if (i <? pp1)%nat then 0%nat else Nat.min n ((i - pp1) / rep + 1).
Lemma nR : 0 < INR n.
Proof. apply lt_0_INR. lia. Qed.
Lemma knot_at : forall i, (i < dim + pp1)%nat -> nth i K 0 = INR (kidx i) / INR n.
Proof.
  intros i Hi. pose proof nR as Pn. unfold K, kidx, dim in *. rewrite uniform_eq. replace (n - 1 + 1)%nat with n by lia.
  destruct (Nat.ltb_spec i pp1) as [L|L].
  - rewrite app_nth1 by (rewrite repeat_length; lia). rewrite nth_repeat_lt by lia. simpl. unfold Rdiv. ring.
  - rewrite app_nth2 by (rewrite repeat_length; lia). rewrite repeat_length. destruct (lt_dec (i - pp1) ((n - 1) * rep)) as [L2|L2].
    + rewrite app_nth1 by (rewrite blocks_length; lia). rewrite blocks_nth by assumption.
      assert ((i - pp1) / rep < n - 1)%nat by (apply Nat.div_lt_upper_bound; lia).
      rewrite Nat.min_r by lia. unfold Rdiv. ring.
    + rewrite app_nth2 by (rewrite blocks_length; lia). rewrite blocks_length. rewrite nth_repeat_lt by lia.
      assert (n - 1 <= (i - pp1) / rep)%nat by (apply Nat.div_le_lower_bound; lia).
      rewrite Nat.min_l by lia. field. lra.
Qed.
Lemma kidx_mono : forall i j, (i <= j)%nat -> (kidx i <= kidx j)%nat.
Proof.
  intros i j H. unfold kidx. destruct (Nat.ltb_spec i pp1), (Nat.ltb_spec j pp1); try lia.
  assert ((i - pp1) / rep <= (j - pp1) / rep)%nat by (apply Nat.div_le_mono; lia). lia.
Qed.
Lemma kidx_low : forall X i, (i < pp1 + X * rep)%nat -> (kidx i <= X)%nat.
Proof.
  intros X i H. unfold kidx. destruct (Nat.ltb_spec i pp1); [lia|].
  assert ((i - pp1) / rep < X)%nat by (apply Nat.div_lt_upper_bound; lia). lia.
Qed.
Lemma kidx_high : forall X i, (X < n)%nat -> (pp1 + X * rep <= i)%nat -> (X < kidx i)%nat.
Proof.
  intros X i HX H. unfold kidx. destruct (Nat.ltb_spec i pp1); [lia|].
  assert (X <= (i - pp1) / rep)%nat by (apply Nat.div_le_lower_bound; lia). lia.
Qed.
Lemma K_nondecreasing : nondecreasing K.
Proof.
  intros i j Hij Hj. rewrite K_length in Hj. rewrite !knot_at by lia. apply Rmult_le_compat_r; [left; apply Rinv_0_lt_compat, nR|].
  apply le_INR, kidx_mono, Hij.
Qed.
(** the element X is [X/n, (X+1)/n) *)
Definition at_el (X : nat) (s : R) : R := (INR X + s) / INR n.
Lemma idx_le : forall a b, (a <= b)%nat -> INR a / INR n <= INR b / INR n.
Proof. intros. apply Rmult_le_compat_r; [left; apply Rinv_0_lt_compat, nR|]. apply le_INR. assumption. Qed.
Lemma gap : forall X i, (X < n)%nat -> nth i K 0 <= at_el X 0 \/ at_el X 1 <= nth i K 0.
Proof.
  intros X i HX. pose proof nR. unfold at_el. rewrite Rplus_0_r. change (INR X + 1) with (INR X + INR 1). rewrite <- plus_INR.
  destruct (lt_dec i (dim + pp1)) as [L|L].
  - rewrite knot_at by exact L. destruct (lt_dec i (pp1 + X * rep)) as [L2|L2].
    + left. apply idx_le, kidx_low, L2.
    + right. apply idx_le. pose proof (kidx_high X i HX ltac:(lia)). lia.
  - left. rewrite nth_overflow by (rewrite K_length; lia). apply Rmult_le_pos; [apply pos_INR|left; apply Rinv_0_lt_compat; assumption].
Qed.
Lemma at_el_lt : forall X s t, s < t -> at_el X s < at_el X t.
Proof. intros X s t H. unfold at_el. apply Rmult_lt_compat_r; [apply Rinv_0_lt_compat, nR|]. lra. Qed.
Lemma at_el_le : forall X s t, s <= t -> at_el X s <= at_el X t.
Proof. intros X s t H. unfold at_el. apply Rmult_le_compat_r; [left; apply Rinv_0_lt_compat, nR|]. lra. Qed.
Lemma at_el_01 : forall X s, (X < n)%nat -> 0 <= s < 1 -> 0 <= at_el X s < 1.
Proof.
  intros X s HX [A B]. pose proof nR as P. assert (INR X + 1 <= INR n) by (change 1 with (INR 1); rewrite <- plus_INR; apply le_INR; lia).
  pose proof (pos_INR X). unfold at_el. split; [apply Rmult_le_pos; [lra|left; apply Rinv_0_lt_compat, P]|].
  apply (Rmult_lt_reg_r (INR n)); [exact P|]. unfold Rdiv. rewrite Rmult_assoc, Rinv_l by lra. lra.
Qed.
(** the B-spline number d *)
Definition Bs (d : nat) (x : R) : R := bspline (fun j => nth j K 0) (pp1 - 1) d x.
Definition tK : nat -> R := fun j => nth j K 0.
(** the last knot that is at most X / n *)
Definition sp (X : nat) : nat := (pp1 - 1 + X * rep)%nat.
Lemma kidx_sp : forall X, kidx (sp X) = Nat.min n X.
Proof.
  intros X. unfold kidx, sp. destruct (Nat.ltb_spec (pp1 - 1 + X * rep) pp1) as [L|L].
  - assert (X = 0)%nat by nia. subst. lia.
  - destruct X as [|X]; [lia|]. replace (pp1 - 1 + S X * rep - pp1)%nat with (X * rep + (rep - 1))%nat by nia.
    rewrite Nat.div_add_l by lia. rewrite Nat.div_small by lia. f_equal. lia.
Qed.
Lemma kidx_sp1 : forall X, kidx (sp X + 1) = Nat.min n (X + 1).
Proof.
  intros X. unfold kidx, sp. destruct (Nat.ltb_spec (pp1 - 1 + X * rep + 1) pp1); [lia|].
  replace (pp1 - 1 + X * rep + 1 - pp1)%nat with (X * rep)%nat by lia. rewrite Nat.div_mul by lia. reflexivity.
Qed.
Lemma sp_lt : forall X, (X < n)%nat -> (sp X + 1 < dim + pp1)%nat.
Proof. intros X H. unfold sp, dim. assert (X * rep <= (n - 1) * rep)%nat by (apply Nat.mul_le_mono_r; lia). lia. Qed.
Lemma sp_lo : forall X, (X < n)%nat -> tK (sp X) = at_el X 0.
Proof. intros X H. unfold tK. rewrite knot_at by (pose proof (sp_lt X H); lia). rewrite kidx_sp, Nat.min_r by lia. unfold at_el. rewrite Rplus_0_r. reflexivity. Qed.
Lemma sp_hi : forall X, (X < n)%nat -> tK (sp X + 1) = at_el X 1.
Proof. intros X H. unfold tK. rewrite knot_at by (apply sp_lt; exact H). rewrite kidx_sp1, Nat.min_r by lia. unfold at_el. rewrite plus_INR. reflexivity. Qed.
Lemma tK_mono : mono tK (dim + pp1).
Proof. intros i j H1 H2. apply K_nondecreasing; [assumption|rewrite K_length; assumption]. Qed.
Lemma piece : forall X d s, (X < n)%nat -> (d < dim)%nat -> 0 <= s < 1 -> Bs d (at_el X s) = bs tK (sp X) (pp1 - 1) d (at_el X s).
Proof.
  intros X d s HX Hd Hs. unfold Bs. apply (bs_eq tK (dim + pp1)); [exact tK_mono|apply sp_lt; exact HX| |unfold dim in *; lia].
  rewrite sp_lo, sp_hi by exact HX. split; [apply at_el_le; lra|apply at_el_lt; lra].
Qed.
(** its coefficients with respect to the Bernstein polynomials of degree D on the element X *)
Definition cf (D X d j : nat) : R :=
  if (D =? pp1 - 1)%nat then bc tK (sp X) (pp1 - 1) d j else elevate (pp1 - 1) (bc tK (sp X) (pp1 - 1) d) j.
Lemma cf_poly : forall D X d s, (D = pp1 - 1 \/ D = pp1)%nat -> (X < n)%nat -> (d < dim)%nat ->
  bs tK (sp X) (pp1 - 1) d (at_el X s) = bernstein_form D (cf D X d) s.
Proof.
  intros D X d s HD HX Hd. pose proof nR as P.
  replace (at_el X s) with (tK (sp X) + s * (tK (sp X + 1) - tK (sp X))) by (rewrite sp_lo, sp_hi by exact HX; unfold at_el; field; lra).
  rewrite (bc_form tK (dim + pp1) (sp X) tK_mono) by (unfold dim in *; lia).
  unfold cf. destruct (Nat.eqb_spec D (pp1 - 1)) as [->|Ne]; [reflexivity|].
  rewrite elevate_ok. replace (pp1 - 1 + 1)%nat with D by lia. reflexivity.
Qed.
Lemma cf_form : forall D X d s, (D = pp1 - 1 \/ D = pp1)%nat -> (X < n)%nat -> (d < dim)%nat -> 0 <= s < 1 ->
  Bs d (at_el X s) = bernstein_form D (cf D X d) s.
Proof. intros. rewrite piece by assumption. apply cf_poly; assumption. Qed.
Lemma cf_support : forall D X d j, ~ (X * rep <= d < X * rep + pp1)%nat -> cf D X d j = 0.
Proof.
  intros D X d j H. assert (S : forall j', bc tK (sp X) (pp1 - 1) d j' = 0) by (intros; apply bc_support; unfold sp; lia).
  unfold cf. destruct (D =? pp1 - 1)%nat; [apply S|]. unfold elevate. rewrite S. destruct j; cbn [prev]; [|rewrite S]; ring.
Qed.
Lemma kidx_step : forall i k, (i + k < dim + pp1)%nat -> (kidx (i + k) <= kidx i + k)%nat.
Proof.
  intros i k _. induction k as [|k IH]; [rewrite Nat.add_0_r; lia|].
  assert (S1 : forall m, (kidx (S m) <= kidx m + 1)%nat).
  { intros m. unfold kidx. destruct (Nat.ltb_spec (S m) pp1), (Nat.ltb_spec m pp1); try lia.
    - replace (S m - pp1)%nat with 0%nat by lia. rewrite Nat.div_0_l by lia. lia.
    - assert ((S m - pp1) / rep <= (m - pp1) / rep + 1)%nat; [|lia].
      apply Nat.lt_succ_r. apply Nat.div_lt_upper_bound; [lia|]. pose proof (Nat.div_mod (m - pp1) rep ltac:(lia)). pose proof (Nat.mod_upper_bound (m - pp1) rep ltac:(lia)).
      set (q := ((m - pp1) / rep)%nat) in *. clearbody q. nia. }
  replace (i + S k)%nat with (S (i + k)) by lia. pose proof (S1 (i + k)%nat). lia.
Qed.
(** every coefficient is zero or at least 1 / D! *)
Lemma cf_bound : forall D X d j, (D = pp1 - 1 \/ D = pp1)%nat -> (X < n)%nat -> (d < dim)%nat -> (j <= D)%nat ->
  cf D X d j = 0 \/ / INR (fact D) <= cf D X d j.
Proof.
  intros D X d j HD HX Hd Hj. unfold cf. destruct (Nat.eqb_spec D (pp1 - 1)) as [E|Ne].
  - rewrite E in *. apply (bc_bound tK (dim + pp1) (sp X) n kidx); [exact Hn|exact knot_at|intros; apply kidx_mono; assumption|exact kidx_step|apply sp_lt; exact HX|unfold dim in *; lia|lia].
  - replace D with (pp1 - 1 + 1)%nat by lia. apply (elevate_bound tK (dim + pp1) (sp X) n kidx); [exact Hn|exact knot_at|intros; apply kidx_mono; assumption|exact kidx_step|apply sp_lt; exact HX|unfold dim in *; lia|lia].
Qed.
(** the active degrees of freedom *)
Lemma filter_interval : forall (f : nat -> bool) lo w m, (forall d, (d < m)%nat -> f d = true <-> (lo <= d < lo + w)%nat) ->
  filter f (seq 0 m) = seq lo (Nat.min w (m - lo)).
Proof.
  intros f lo w m. induction m as [|m IH]; intros H; [rewrite Nat.min_0_r; reflexivity|].
  rewrite seq_S, filter_app, IH by (intros; apply H; lia). cbn [filter Nat.add]. pose proof (H m ltac:(lia)) as Hm.
  destruct (f m).
  - assert (lo <= m < lo + w)%nat by (apply Hm; reflexivity). replace (Nat.min w (m - lo)) with (m - lo)%nat by lia.
    replace (Nat.min w (S m - lo)) with (S (m - lo)) by lia. rewrite seq_S. do 2 f_equal. lia.
  - rewrite app_nil_r. f_equal. assert (~ (lo <= m < lo + w)%nat) by (intros Q; apply Hm in Q; discriminate). lia.
Qed.
Lemma for_opt_filter : forall (test : nat -> option bool) (f : nat -> bool) m, (forall d, (d < m)%nat -> test d = Some (f d)) ->
  for_opt m (fun d l => b <- test d ;; Some (if b then l ++ [d] else l)) [] = Some (filter f (seq 0 m)).
Proof.
  intros test f m. induction m as [|m IH]; intros H; [reflexivity|]. cbn [for_opt]. rewrite IH by (intros; apply H; lia).
  cbn [bind]. rewrite H by lia. cbn [bind]. rewrite seq_S, filter_app. cbn [filter Nat.add]. destruct (f m); [reflexivity|]. rewrite app_nil_r. reflexivity.
Qed.
Lemma for_opt_ext : forall {A} m (f g : nat -> A -> option A) s, (forall d l, (d < m)%nat -> f d l = g d l) -> for_opt m f s = for_opt m g s.
Proof. intros A m f g s. induction m as [|m IH]; intros H; [reflexivity|]. cbn [for_opt]. rewrite IH by (intros; apply H; lia). destruct (for_opt m g s); [apply H; lia|reflexivity]. Qed.
Lemma nonzero_ok : forall X, (X < n)%nat -> nonzero_dofs K pp1 dim (at_el X (/ 2)) = Some (seq (X * rep) pp1).
Proof.
  intros X HX. unfold nonzero_dofs.
  set (f := fun d => (Rleb (nth d K 0) (at_el X (/ 2)) && Rleb (at_el X (/ 2)) (nth (d + pp1) K 0))%bool).
  rewrite (for_opt_ext dim _ (fun d l => b <- Some (f d) ;; Some (if b then l ++ [d] else l))).
  - rewrite (for_opt_filter (fun d => Some (f d)) f) by reflexivity. f_equal.
    rewrite (filter_interval f (X * rep) pp1).
    + f_equal. unfold dim. assert (X * rep <= (n - 1) * rep)%nat by (apply Nat.mul_le_mono_r; lia). lia.
    + intros d Hd. unfold f. rewrite !knot_at by lia. rewrite Bool.andb_true_iff. unfold Rleb.
      pose proof nR as P.
      assert (C1 : INR (kidx d) / INR n <= at_el X (/ 2) <-> (d < X * rep + pp1)%nat).
      { split.
        - intros Q. destruct (lt_dec d (X * rep + pp1)) as [L|L]; [exact L|exfalso].
          pose proof (idx_le _ _ (kidx_high X d HX ltac:(lia))) as B. rewrite S_INR in B. unfold at_el in Q. pose proof (at_el_lt X (/ 2) 1 ltac:(lra)) as Z. unfold at_el in Z. lra.
        - intros L. pose proof (idx_le _ _ (kidx_low X d ltac:(lia))) as B. pose proof (at_el_lt X 0 (/ 2) ltac:(lra)) as Z. unfold at_el in *. rewrite Rplus_0_r in Z. lra. }
      assert (C2 : at_el X (/ 2) <= INR (kidx (d + pp1)) / INR n <-> (X * rep <= d)%nat).
      { split.
        - intros Q. destruct (le_dec (X * rep) d) as [L|L]; [exact L|exfalso].
          pose proof (idx_le _ _ (kidx_low X (d + pp1) ltac:(lia))) as B. pose proof (at_el_lt X 0 (/ 2) ltac:(lra)) as Z. unfold at_el in *. rewrite Rplus_0_r in Z. lra.
        - intros L. pose proof (idx_le _ _ (kidx_high X (d + pp1) HX ltac:(lia))) as B. rewrite S_INR in B. pose proof (at_el_lt X (/ 2) 1 ltac:(lra)) as Z. unfold at_el in *. lra. }
      destruct (Rle_dec (INR (kidx d) / INR n) (at_el X (/ 2))), (Rle_dec (at_el X (/ 2)) (INR (kidx (d + pp1)) / INR n)); try tauto; intuition (discriminate || lia).
  - intros d l Hd. rewrite (get_nth _ _ 0) by (rewrite K_length; lia). rewrite (get_nth _ _ 0) by (rewrite K_length; lia). reflexivity.
Qed.
(** the values computed with DeBoor *)
Lemma deboor_unit : forall ws d X pts, (pp1 <= 20)%nat -> (20 <= length ws)%nat -> (d < dim)%nat -> (X < n)%nat -> (forall x, In x pts -> exists s, 0 <= s < 1 /\ x = at_el X s) ->
  exists c, set (repeat 0 dim) d 1 = Some c /\ DeBoor ws c K pts = Some (map (Bs d) pts).
Proof.
  intros ws d X pts H20 Hw Hd HX Hpts. destruct (set_spec (repeat 0 dim) d 1) as [c [E [L V]]]; [rewrite repeat_length; exact Hd|].
  rewrite repeat_length in L. exists c. split; [exact E|].
  rewrite (C07_deboor_is_the_bspline ws c K (pp1 - 1) pts).
  - f_equal. apply map_ext_in. intros x _. unfold spline, Bs. rewrite L. rewrite (rsum_single _ dim d Hd).
    + rewrite V, Nat.eqb_refl. ring.
    + intros i Hi Ne. rewrite V. destruct (Nat.eqb_spec i d); [contradiction|]. rewrite nth_repeat_lt by exact Hi. ring.
  - rewrite K_length, L. lia.
  - rewrite L. unfold dim. apply Nat.lt_le_trans with pp1; [lia|apply Nat.le_add_r].
  - lia.
  - exact Hw.
  - exact K_nondecreasing.
  - intros x Hx. destruct (Hpts x Hx) as [s [Hs ->]]. pose proof (at_el_01 X s HX Hs) as A. rewrite L.
    rewrite !knot_at by lia.
    replace (kidx (pp1 - 1)) with 0%nat by (unfold kidx; destruct (Nat.ltb_spec (pp1 - 1) pp1); lia).
    replace (kidx dim) with n.
    + pose proof nR. replace (INR n / INR n) with 1 by (field; lra). simpl. unfold Rdiv. rewrite Rmult_0_l. exact A.
    + unfold kidx, dim. destruct (Nat.ltb_spec (pp1 + (n - 1) * rep) pp1) as [Q|_]; [exfalso; revert Q; generalize ((n - 1) * rep)%nat; intros; lia|].
      rewrite (Nat.add_comm pp1), Nat.add_sub. rewrite Nat.div_mul by lia. lia.
Qed.
End OneDim.

(** ** the interpolation problem *)
Lemma system_value : forall junk j1 j2 mp ix iy jx jy, (1 <= mp <= 21)%nat -> (ix < mp)%nat -> (iy < mp)%nat -> (jx < mp)%nat -> (jy < mp)%nat ->
  proj_system junk j1 j2 mp (MakeInterpolationMask mp) (iy * mp + ix)%nat (jy * mp + jx)%nat
  = bern (mp - 1) jx (mask_at (mp - 1) ix) * bern (mp - 1) jy (mask_at (mp - 1) iy).
Proof.
  intros junk j1 j2 mp ix iy jx jy Hmp Hix Hiy Hjx Hjy.
  assert (Inj : forall u v u' v', (v < mp)%nat -> (v' < mp)%nat -> (u * mp + v = u' * mp + v')%nat -> u = u' /\ v = v').
  { intros u v u' v' Hv Hv' E. destruct (divmod_pair u v mp Hv) as [A1 A2]. destruct (divmod_pair u' v' mp Hv') as [B1 B2]. rewrite E in A1, A2. split; congruence. }
  assert (MN : forall i, (i < mp)%nat -> nth i (MakeInterpolationMask mp) 0 = mask_at (mp - 1) i).
  { intros i Hi. rewrite mask_nth by exact Hi. unfold mask_at. replace (mp - 1 + 1 + 1)%nat with (mp + 1)%nat by lia. reflexivity. }
  assert (EB : forall j x i, (i < mp)%nat -> evalBasis (mp - 1) j x i = bern (mp - 1) i x).
  { intros j x i Hi. apply (proj1 (proj2 (proj2 (C01_handler_partition_of_unity (mp - 1) j x ltac:(unfold MaxP; lia))))). lia. }
  unfold proj_system. apply (for_loop_hit _ _ _ _ iy); [exact Hiy| |].
  - intros m. apply (for_loop_hit _ _ _ _ ix); [exact Hix| |].
    + intros m1. apply (for_loop_hit _ _ _ _ jy); [exact Hjy| |].
      * intros m2. apply (for_loop_hit _ _ _ _ jx); [exact Hjx| |].
        -- intros m3. rewrite updm_same. rewrite !EB, !MN by assumption. reflexivity.
        -- intros jx' m3 H' Ne. apply updm_other. intros E. injection E as E. apply Inj in E; lia.
      * intros jy' m2 H' Ne. apply for_loop_keep. intros jx' m3 H2. apply updm_other. intros E. injection E as E. apply Inj in E; lia.
    + intros ix' m1 H' Ne. apply for_loop_keep. intros jy' m2 _. apply for_loop_keep. intros jx' m3 H2. apply updm_other. intros E. injection E as E _. apply Inj in E; lia.
  - intros iy' m H' Ne. apply for_loop_keep. intros ix' m1 Hx. apply for_loop_keep. intros jy' m2 _. apply for_loop_keep. intros jx' m3 H2. apply updm_other. intros E. injection E as E _. apply Inj in E; lia.
Qed.

Section System.
Variables (junk : mat) (j1 j2 : arr) (mp : nat).
Hypothesis Hmp : (1 <= mp <= 21)%nat.
Let sys := proj_system junk j1 j2 mp (MakeInterpolationMask mp).
Let m := mask_at (mp - 1).
Lemma m_distinct : distinct (mp - 1 + 1) m.
Proof. apply mask_distinct. Qed.
Lemma split_lt : forall r, (r < mp * mp)%nat -> r = (r / mp * mp + r mod mp)%nat /\ (r / mp < mp)%nat /\ (r mod mp < mp)%nat.
Proof.
  intros r Hr. split; [|split].
  - rewrite (Nat.div_mod r mp) at 1 by lia. lia.
  - apply Nat.div_lt_upper_bound; lia.
  - apply Nat.mod_upper_bound. lia.
Qed.
Lemma system_apply : forall v ix iy, (ix < mp)%nat -> (iy < mp)%nat ->
  rsum (fun c => sys (iy * mp + ix)%nat c * v c) (mp * mp)
  = rsum (fun jx => rsum (fun jy => v (jy * mp + jx)%nat * bern (mp - 1) jy (m iy)) mp * bern (mp - 1) jx (m ix)) mp.
Proof.
  intros v ix iy Hx Hy. rewrite rsum_flatten. rewrite rsum_swap. apply rsum_ext. intros jx Hjx. rewrite <- rsum_scal_r. apply rsum_ext. intros jy Hjy.
  unfold sys. rewrite system_value by assumption. unfold m. ring.
Qed.
Lemma system_apply_r : forall v r, (r < mp * mp)%nat ->
  rsum (fun c => sys r c * v c) (mp * mp)
  = rsum (fun jx => rsum (fun jy => v (jy * mp + jx)%nat * bern (mp - 1) jy (m (r / mp))) mp * bern (mp - 1) jx (m (r mod mp))) mp.
Proof.
  intros v r Hr. destruct (split_lt r Hr) as [Er [Ry Rx]]. rewrite <- (system_apply v _ _ Rx Ry). rewrite <- Er. reflexivity.
Qed.
Lemma system_invertible : exists B, is_inverse (mp * mp) sys B.
Proof.
  destruct (collocation_inverse (mp - 1) m m_distinct) as [im H]. replace (mp - 1 + 1)%nat with mp in H by lia.
  exists (fun c l => im (c mod mp)%nat (l mod mp)%nat * im (c / mp)%nat (l / mp)%nat).
  intros r l Hr Hl. destruct (split_lt r Hr) as [Er [Ry Rx]]. destruct (split_lt l Hl) as [El [Ly Lx]].
  rewrite (system_apply_r (fun c => im (c mod mp)%nat (l mod mp)%nat * im (c / mp)%nat (l / mp)%nat) _ Hr).
  transitivity (rsum (fun jx => bern (mp - 1) jx (m (r mod mp)) * im jx (l mod mp)%nat) mp * rsum (fun jy => bern (mp - 1) jy (m (r / mp)) * im jy (l / mp)%nat) mp).
  - rewrite <- rsum_scal_r. apply rsum_ext. intros jx Hjx.
    rewrite (rsum_ext _ (fun jy => im jx (l mod mp)%nat * (bern (mp - 1) jy (m (r / mp)) * im jy (l / mp)%nat))).
    + rewrite rsum_scal. ring.
    + intros jy Hjy. destruct (divmod_pair jy jx mp Hjx) as [D1 D2]. rewrite D1, D2. ring.
  - rewrite !H by lia. destruct (Nat.eqb_spec r l) as [E|E].
    + rewrite E, !Nat.eqb_refl. ring.
    + destruct (Nat.eqb_spec (r mod mp) (l mod mp)) as [E1|], (Nat.eqb_spec (r / mp) (l / mp)) as [E2|]; try ring.
      exfalso. apply E. rewrite Er, El, E1, E2. reflexivity.
Qed.
Lemma system_solution : forall v cx cy,
  (forall r, (r < mp * mp)%nat -> rsum (fun c => sys r c * v c) (mp * mp) = bernstein_form (mp - 1) cx (m (r mod mp)) * bernstein_form (mp - 1) cy (m (r / mp))) ->
  forall i, (i < mp * mp)%nat -> v i = cx (i mod mp)%nat * cy (i / mp)%nat.
Proof.
  intros v cx cy H i Hi. destruct (split_lt i Hi) as [Ei [Hy Hx]]. rewrite Ei at 1. set (jx := (i mod mp)%nat) in *. set (jy := (i / mp)%nat) in *. clearbody jx jy. clear i Hi Ei.
  apply (bern_indep (mp - 1) (fun jy => v (jy * mp + jx)%nat) (fun jy => cx jx * cy jy) m m_distinct); [|lia].
  intros iy Hiy.
  assert (Fy : forall a, bernstein_form (mp - 1) a (m iy) = rsum (fun i => a i * bern (mp - 1) i (m iy)) mp) by (intros; unfold bernstein_form; replace (mp - 1 + 1)%nat with mp by lia; reflexivity).
  transitivity (cx jx * bernstein_form (mp - 1) cy (m iy)).
  - rewrite Fy. apply (bern_indep (mp - 1) (fun jx => rsum (fun jy => v (jy * mp + jx)%nat * bern (mp - 1) jy (m iy)) mp) (fun jx => cx jx * bernstein_form (mp - 1) cy (m iy)) m m_distinct); [|lia].
    intros ix Hix. pose proof (H (iy * mp + ix)%nat (pair_lt iy ix mp mp ltac:(lia) ltac:(lia))) as E. rewrite system_apply in E by lia.
    destruct (divmod_pair iy ix mp ltac:(lia)) as [D1 D2]. rewrite D1, D2 in E.
    unfold bernstein_form at 1. replace (mp - 1 + 1)%nat with mp by lia. rewrite E.
    unfold bernstein_form at 1 3. rewrite <- rsum_scal_r. apply rsum_ext. intros; ring.
  - unfold bernstein_form. rewrite <- rsum_scal. apply rsum_ext. intros; ring.
Qed.
End System.

(** ** sums of triplets *)
Definition esum (l : list (nat * nat * R)) (r c : nat) : R :=
  fold_right (fun t acc => (if ((fst (fst t) =? r) && (snd (fst t) =? c))%nat%bool then snd t else 0) + acc) 0 l.
Lemma esum_app : forall l1 l2 r c, esum (l1 ++ l2) r c = esum l1 r c + esum l2 r c.
Proof. intros l1 l2 r c. induction l1 as [|t l1 IH]; cbn [esum fold_right app]; [unfold esum; simpl; ring|]. fold (esum (l1 ++ l2) r c). fold (esum l1 r c). rewrite IH. ring. Qed.
Lemma esum_zero : forall l r c, (forall t, In t l -> fst (fst t) <> r \/ snd (fst t) <> c) -> esum l r c = 0.
Proof.
  intros l r c. induction l as [|t l IH]; intros H; [reflexivity|]. cbn [esum fold_right]. fold (esum l r c). rewrite IH by (intros; apply H; right; assumption).
  destruct (H t ltac:(left; reflexivity)) as [Q|Q]; [apply Nat.eqb_neq in Q; rewrite Q|apply Nat.eqb_neq in Q; rewrite Q, Bool.andb_false_r]; cbn [andb]; ring.
Qed.
Lemma esum_flat_zero : forall {A} (f : A -> list (nat * nat * R)) l r c, (forall y, In y l -> esum (f y) r c = 0) -> esum (flat_map f l) r c = 0.
Proof.
  intros A f l r c. induction l as [|y l IH]; intros H; [reflexivity|]. cbn [flat_map]. rewrite esum_app, IH by (intros; apply H; right; assumption).
  rewrite H by (left; reflexivity). ring.
Qed.
Lemma esum_flat_single : forall {A} (f : A -> list (nat * nat * R)) l r c x, NoDup l -> In x l -> (forall y, In y l -> y <> x -> esum (f y) r c = 0) ->
  esum (flat_map f l) r c = esum (f x) r c.
Proof.
  intros A f l r c x Nd. induction Nd as [|y l Hy Nd IH]; intros Hx H; [destruct Hx|]. cbn [flat_map]. rewrite esum_app. destruct Hx as [->|Hx].
  - rewrite esum_flat_zero; [ring|]. intros z Hz. apply H; [right; assumption|]. intros ->. contradiction.
  - rewrite (H y) by (try (left; reflexivity); intros ->; contradiction). rewrite IH; [ring|assumption|]. intros z Hz. apply H. right. assumption.
Qed.

(** ** one run of makeLocalProjectionTriplets *)
Definition keep (v : R) : R := if Rlt_dec projector_tolerance (Rabs v) then v else 0.
Lemma keep0 : keep 0 = 0.
Proof. unfold keep. destruct Rlt_dec; reflexivity. Qed.
Section Local.
Variables (ws : list R) (junk : mat) (j1 j2 : arr) (solve : nat -> mat -> arr -> arr).
Variables (n rep pp1x pp1y mp : nat).
Hypothesis Hn : (1 <= n)%nat.
Hypothesis Hr : (1 <= rep)%nat.
Hypothesis Hx : (1 <= pp1x)%nat.
Hypothesis Hy : (1 <= pp1y)%nat.
Hypothesis Hmx : (mp - 1 = pp1x - 1 \/ mp - 1 = pp1x)%nat.
Hypothesis Hmy : (mp - 1 = pp1y - 1 \/ mp - 1 = pp1y)%nat.
Hypothesis Hmp : (1 <= mp <= 20)%nat.
Hypothesis Hpx : (pp1x <= mp)%nat.
Hypothesis Hpy : (pp1y <= mp)%nat.
Hypothesis Hw : (20 <= length ws)%nat.
Hypothesis Hs : good_solve solve.
Notation kx := (K pp1x n rep).
Notation ky := (K pp1y n rep).
Notation dimx := (dim pp1x n rep).
Notation dimy := (dim pp1y n rep).
Notation mask := (MakeInterpolationMask mp).
Notation sys := (proj_system junk j1 j2 mp mask).
(** the coefficient of the polynomial i on the cell (X, Y) of the basis function (dx, dy) *)
Definition coef (X Y dx dy i : nat) : R := cf pp1x n rep (mp - 1) X dx (i mod mp)%nat * cf pp1y n rep (mp - 1) Y dy (i / mp)%nat.
Definition trips (number patch X Y dx dy : nat) : list (nat * nat * R) :=
  flat_map (fun i => if Rlt_dec projector_tolerance (Rabs (coef X Y dx dy i))
    then [((number * mp * mp + i)%nat, (patch * (dimx * dimy) + dimx * dy + dx)%nat, coef X Y dx dy i)] else []) (seq 0 (mp * mp)).
Definition el_trips (number patch X Y : nat) : list (nat * nat * R) :=
  flat_map (fun dy => flat_map (fun dx => trips number patch X Y dx dy) (seq (X * rep) pp1x)) (seq (Y * rep) pp1y).

Lemma mask_len : length mask = mp.
Proof. apply mask_spec. Qed.
Lemma mask_val : forall i, (i < mp)%nat -> nth i mask 0 = mask_at (mp - 1) i.
Proof. intros i Hi. rewrite mask_nth by exact Hi. unfold mask_at. replace (mp - 1 + 1 + 1)%nat with (mp + 1)%nat by lia. reflexivity. Qed.
Lemma mask_01 : forall v, In v mask -> 0 < v < 1.
Proof. intros v Hv. apply (proj1 (proj2 (proj2 (mask_spec mp)))). exact Hv. Qed.
Lemma local_mask : forall X v, INR X / INR n + 1 / INR n * v = at_el n X v.
Proof. intros X v. unfold at_el. assert (0 < INR n) by (apply lt_0_INR; lia). field. lra. Qed.
Lemma dof_ok : forall number patch X Y dx dy, (X < n)%nat -> (Y < n)%nat -> (dx < dimx)%nat -> (dy < dimy)%nat ->
  dof_projection ws solve sys kx ky dimx dimy mp n mask (INR X / INR n, INR Y / INR n) number patch dx dy = Some (trips number patch X Y dx dy).
Proof.
  intros number patch X Y dx dy HX HY Hdx Hdy. unfold dof_projection. cbn [fst snd]. assert (Pn : 0 < INR n) by (apply lt_0_INR; lia).
  assert (Emx : forall X, map (fun m => INR X / INR n + 1 / INR n * m) mask = map (at_el n X) mask) by (intros; apply map_ext; intros; apply local_mask).
  rewrite !Emx.
  assert (In01 : forall X, (X < n)%nat -> forallb (fun x => if Rlt_dec x 1 then if Rlt_dec 0 x then true else false else false) (map (at_el n X) mask) = true).
  { intros Z HZ. apply forallb_forall. intros x Hin. apply in_map_iff in Hin. destruct Hin as [v [<- Hv]]. pose proof (mask_01 v Hv) as V.
    pose proof (at_el_01 pp1x n rep Hx Hn Hr Z v HZ ltac:(lra)) as A. pose proof (at_el_01 pp1x n rep Hx Hn Hr Z 0 HZ ltac:(lra)) as A0. pose proof (at_el_lt pp1x n rep Hx Hn Hr Z 0 v ltac:(lra)).
    destruct Rlt_dec; [|lra]. destruct Rlt_dec; [reflexivity|lra]. }
  rewrite !In01 by assumption. cbn [andb assert bind].
  assert (Pts : forall X x, In x (map (at_el n X) mask) -> exists s, 0 <= s < 1 /\ x = at_el n X s).
  { intros Z x Hin. apply in_map_iff in Hin. destruct Hin as [v [<- Hv]]. pose proof (mask_01 v Hv). exists v. split; [lra|reflexivity]. }
  destruct (deboor_unit pp1x n rep Hx Hn Hr ws dx X _ ltac:(lia) Hw Hdx HX (Pts X)) as [cx [Ecx Vx]].
  destruct (deboor_unit pp1y n rep Hy Hn Hr ws dy Y _ ltac:(lia) Hw Hdy HY (Pts Y)) as [cy [Ecy Vy]].
  rewrite Ecx, Ecy. cbn [bind]. rewrite Vx, Vy. cbn [bind]. f_equal. unfold trips.
  match goal with |- context [solve ?N ?A ?b] => set (sol := solve N A b) end.
  assert (S : forall i, (i < mp * mp)%nat -> sol i = coef X Y dx dy i).
  { intros i Hi. apply (system_solution junk j1 j2 mp ltac:(lia) sol); [|exact Hi].
    intros r Hrr. unfold sol. rewrite (Hs (mp * mp)%nat _ _ (system_invertible junk j1 j2 mp ltac:(lia)) r Hrr). cbn beta.
    destruct (split_lt mp ltac:(lia) r Hrr) as [_ [Ry Rx]].
    rewrite !nth_map_d by (rewrite ?map_length, mask_len; assumption). rewrite !mask_val by assumption.
    rewrite (cf_form pp1x n rep Hx Hn Hr (mp - 1) X dx), (cf_form pp1y n rep Hy Hn Hr (mp - 1) Y dy); try assumption; [reflexivity| |].
    - pose proof (mask_at_01 (mp - 1) (r / mp) ltac:(lia)). lra.
    - pose proof (mask_at_01 (mp - 1) (r mod mp) ltac:(lia)). lra. }
  clearbody sol. assert (FE : forall l, (forall i, In i l -> (i < mp * mp)%nat) -> 
     flat_map (fun i => if Rlt_dec projector_tolerance (Rabs (sol i)) then [((number * mp * mp + i)%nat, (patch * (dimx * dimy) + dimx * dy + dx)%nat, sol i)] else []) l
     = flat_map (fun i => if Rlt_dec projector_tolerance (Rabs (coef X Y dx dy i)) then [((number * mp * mp + i)%nat, (patch * (dimx * dimy) + dimx * dy + dx)%nat, coef X Y dx dy i)] else []) l).
  { induction l as [|i l IH]; intros Hl; [reflexivity|]. cbn [flat_map]. rewrite S by (apply Hl; left; reflexivity). rewrite IH by (intros; apply Hl; right; assumption). reflexivity. }
  apply FE. intros i Hi. apply in_seq in Hi. lia.
Qed.
Lemma active_lt : forall pp1 X d, (1 <= pp1)%nat -> (X < n)%nat -> In d (seq (X * rep) pp1) -> (d < dim pp1 n rep)%nat.
Proof.
  intros pp1 X d Hp HX Hd. apply in_seq in Hd. unfold dim. assert (X * rep <= (n - 1) * rep)%nat by (apply Nat.mul_le_mono_r; lia). lia.
Qed.
Lemma elements_ok : forall els number, (forall e, In e els -> exists X Y, at_cell n e X Y) ->
  exists L, element_projections ws solve sys kx ky pp1x pp1y dimx dimy mp n mask els number = Some (concat L) /\ length L = length els
    /\ forall k e X Y, nth_error els k = Some e -> at_cell n e X Y -> nth k L [] = el_trips (number + k) (n_patch e) X Y.
Proof.
  intros els. induction els as [|e els IH]; intros number H.
  - exists []. split; [reflexivity|]. split; [reflexivity|]. intros [|k] e X Y Q; discriminate.
  - destruct (IH (S number) ltac:(intros; apply H; right; assumption)) as [L [E [Ln V]]].
    destruct (H e ltac:(left; reflexivity)) as [X [Y C]]. pose proof C as [HX [HY [Cx [Cy Ch]]]].
    assert (Pn : 0 < INR n) by (apply lt_0_INR; lia).
    exists (el_trips number (n_patch e) X Y :: L). split; [|split].
    + cbn [element_projections]. rewrite Cx, Cy, Ch. cbn [fst snd].
      replace (INR Y / INR n + / 2 * / INR n) with (at_el n Y (/ 2)) by (unfold at_el; field; lra).
      replace (INR X / INR n + / 2 * / INR n) with (at_el n X (/ 2)) by (unfold at_el; field; lra).
      rewrite (nonzero_ok pp1y n rep Hy Hn Hr Y HY), (nonzero_ok pp1x n rep Hx Hn Hr X HX). cbn [bind].
      rewrite (map_opt_spec _ (fun dy => map (fun dx => trips number (n_patch e) X Y dx dy) (seq (X * rep) pp1x))).
      * cbn [bind]. rewrite E. cbn [bind concat]. f_equal. f_equal. unfold el_trips. rewrite flat_map_concat_map, map_map. f_equal. apply map_ext. intros dy. rewrite flat_map_concat_map. reflexivity.
      * intros dy Hdy. apply map_opt_spec. intros dx Hdx. apply dof_ok; try assumption; [exact (active_lt pp1x X dx Hx HX Hdx)|exact (active_lt pp1y Y dy Hy HY Hdy)].
    + simpl. lia.
    + intros [|k] e' X' Y' Q C'.
      * cbn [nth_error] in Q. injection Q as <-. cbn [nth]. rewrite Nat.add_0_r.
        destruct C' as [_ [_ [Cx' [Cy' _]]]]. rewrite Cx in Cx'. rewrite Cy in Cy'.
        apply Rmult_eq_reg_r in Cx'; [|apply Rinv_neq_0_compat; lra]. apply Rmult_eq_reg_r in Cy'; [|apply Rinv_neq_0_compat; lra].
        apply INR_eq in Cx'. apply INR_eq in Cy'. subst. reflexivity.
      * cbn [nth_error] in Q. cbn [nth]. rewrite (V k e' X' Y' Q C'). f_equal. lia.
Qed.
Definition col (patch dx dy : nat) : nat := (patch * (dimx * dimy) + dimx * dy + dx)%nat.
Lemma col_inj : forall q dx dy q' dx' dy', (dx < dimx)%nat -> (dy < dimy)%nat -> (dx' < dimx)%nat -> (dy' < dimy)%nat -> col q dx dy = col q' dx' dy' -> q = q' /\ dx = dx' /\ dy = dy'.
Proof.
  intros q dx dy q' dx' dy' H1 H2 H3 H4 E. unfold col in E.
  assert (E' : ((q * dimy + dy) * dimx + dx = (q' * dimy + dy') * dimx + dx')%nat) by (rewrite !Nat.mul_add_distr_r; lia).
  destruct (divmod_pair (q * dimy + dy) dx dimx H1) as [A1 A2]. destruct (divmod_pair (q' * dimy + dy') dx' dimx H3) as [B1 B2]. rewrite E' in A1, A2.
  assert (F : (q * dimy + dy = q' * dimy + dy')%nat) by congruence. 
  destruct (divmod_pair q dy dimy H2) as [C1 C2]. destruct (divmod_pair q' dy' dimy H4) as [D1 D2]. rewrite F in C1, C2. repeat split; congruence.
Qed.
Lemma col_lt : forall P q dx dy, (q < P)%nat -> (dx < dimx)%nat -> (dy < dimy)%nat -> (col q dx dy < dimx * dimy * P)%nat.
Proof.
  intros P q dx dy Hq H1 H2. unfold col. assert (dimx * dy + dx < dimx * dimy)%nat.
  { rewrite (Nat.mul_comm dimx dy), (Nat.mul_comm dimx dimy). apply pair_lt; assumption. }
  assert ((q + 1) * (dimx * dimy) <= P * (dimx * dimy))%nat by (apply Nat.mul_le_mono_r; lia). lia.
Qed.
Lemma trips_in : forall number patch X Y dx dy t, In t (trips number patch X Y dx dy) ->
  exists i, (i < mp * mp)%nat /\ fst (fst t) = (number * mp * mp + i)%nat /\ snd (fst t) = col patch dx dy /\ snd t = coef X Y dx dy i /\ projector_tolerance < Rabs (snd t).
Proof.
  intros number patch X Y dx dy t H. unfold trips in H. apply in_flat_map in H. destruct H as [i [Hi H]]. apply in_seq in Hi.
  destruct Rlt_dec as [Q|Q] in H; [|destruct H]. destruct H as [<-|[]]. exists i. cbn [fst snd]. repeat split; try assumption; lia.
Qed.
Lemma trips_entry : forall number patch X Y dx dy i, (i < mp * mp)%nat ->
  esum (trips number patch X Y dx dy) (number * mp * mp + i) (col patch dx dy) = keep (coef X Y dx dy i).
Proof.
  intros number patch X Y dx dy i Hi. unfold trips. rewrite (esum_flat_single _ _ _ _ i); [|apply seq_NoDup|apply in_seq; lia|].
  - unfold keep. destruct Rlt_dec; [|reflexivity]. cbn [esum fold_right fst snd]. fold (col patch dx dy). rewrite !Nat.eqb_refl. cbn [andb]. ring.
  - intros i' Hi' Ne. destruct Rlt_dec; [|reflexivity]. apply esum_zero. intros t [<-|[]]. left. cbn [fst]. lia.
Qed.
Lemma el_trips_in : forall number patch X Y t, (X < n)%nat -> (Y < n)%nat -> In t (el_trips number patch X Y) ->
  exists dx dy i, (dx < dimx)%nat /\ (dy < dimy)%nat /\ (i < mp * mp)%nat /\ fst (fst t) = (number * mp * mp + i)%nat /\ snd (fst t) = col patch dx dy /\ snd t = coef X Y dx dy i /\ projector_tolerance < Rabs (snd t).
Proof.
  intros number patch X Y t HX HY H. unfold el_trips in H. apply in_flat_map in H. destruct H as [dy [Hdy H]]. apply in_flat_map in H. destruct H as [dx [Hdx H]].
  destruct (trips_in _ _ _ _ _ _ _ H) as [i [Hi R]]. exists dx, dy, i.
  split; [exact (active_lt pp1x X dx Hx HX Hdx)|]. split; [exact (active_lt pp1y Y dy Hy HY Hdy)|]. split; assumption.
Qed.
Lemma el_entry : forall number patch X Y i q dx dy, (X < n)%nat -> (Y < n)%nat -> (i < mp * mp)%nat -> (dx < dimx)%nat -> (dy < dimy)%nat ->
  esum (el_trips number patch X Y) (number * mp * mp + i) (col q dx dy) = if (q =? patch)%nat then keep (coef X Y dx dy i) else 0.
Proof.
  intros number patch X Y i q dx dy HX HY Hi Hdx Hdy.
  assert (Off : forall dx' dy', (dx' < dimx)%nat -> (dy' < dimy)%nat -> (patch, dx', dy') <> (q, dx, dy) -> esum (trips number patch X Y dx' dy') (number * mp * mp + i) (col q dx dy) = 0).
  { intros dx' dy' H1 H2 Ne. apply esum_zero. intros t Ht. right. destruct (trips_in _ _ _ _ _ _ _ Ht) as [i' [_ [_ [E _]]]]. rewrite E. intros Q.
    apply col_inj in Q; try assumption. destruct Q as [-> [-> ->]]. congruence. }
  unfold el_trips. destruct (Nat.eqb_spec q patch) as [->|Np].
  - destruct (in_dec Nat.eq_dec dy (seq (Y * rep) pp1y)) as [Iy|Iy].
    + rewrite (esum_flat_single _ _ _ _ dy); [|apply seq_NoDup|exact Iy|].
      * destruct (in_dec Nat.eq_dec dx (seq (X * rep) pp1x)) as [Ix|Ix].
        -- rewrite (esum_flat_single _ _ _ _ dx); [apply trips_entry; exact Hi|apply seq_NoDup|exact Ix|].
           intros dx' Hdx' Ne. apply Off; [exact (active_lt pp1x X dx' Hx HX Hdx')|exact Hdy|congruence].
        -- rewrite esum_flat_zero.
           ++ unfold coef. rewrite cf_support by (rewrite in_seq in Ix; lia). rewrite Rmult_0_l, keep0. reflexivity.
           ++ intros dx' Hdx'. apply Off; [exact (active_lt pp1x X dx' Hx HX Hdx')|exact Hdy|congruence].
      * intros dy' Hdy' Ne. apply esum_flat_zero. intros dx' Hdx'. apply Off; [exact (active_lt pp1x X dx' Hx HX Hdx')|exact (active_lt pp1y Y dy' Hy HY Hdy')|congruence].
    + rewrite esum_flat_zero.
      * unfold coef. rewrite (cf_support pp1y) by (rewrite in_seq in Iy; lia). rewrite Rmult_0_r, keep0. reflexivity.
      * intros dy' Hdy'. apply esum_flat_zero. intros dx' Hdx'. apply Off; [exact (active_lt pp1x X dx' Hx HX Hdx')|exact (active_lt pp1y Y dy' Hy HY Hdy')|congruence].
  - apply esum_flat_zero. intros dy' Hdy'. apply esum_flat_zero. intros dx' Hdx'. apply Off; [exact (active_lt pp1x X dx' Hx HX Hdx')|exact (active_lt pp1y Y dy' Hy HY Hdy')|congruence].
Qed.
(** all elements *)
Variables (els : list node) (P : nat).
Hypothesis Hcells : forall e, In e els -> exists X Y, at_cell n e X Y.
Hypothesis Hpatch : forall e, In e els -> (n_patch e < P)%nat.
Lemma local_ok : exists l, element_projections ws solve sys kx ky pp1x pp1y dimx dimy mp n mask els 0 = Some l
  /\ (forall t, In t l -> exists k e X Y dx dy i, nth_error els k = Some e /\ at_cell n e X Y /\ (dx < dimx)%nat /\ (dy < dimy)%nat /\ (i < mp * mp)%nat
        /\ fst (fst t) = (k * mp * mp + i)%nat /\ snd (fst t) = col (n_patch e) dx dy /\ snd t = coef X Y dx dy i /\ projector_tolerance < Rabs (snd t))
  /\ (forall k e X Y i q dx dy, nth_error els k = Some e -> at_cell n e X Y -> (i < mp * mp)%nat -> (dx < dimx)%nat -> (dy < dimy)%nat ->
        esum l (k * mp * mp + i) (col q dx dy) = if (q =? n_patch e)%nat then keep (coef X Y dx dy i) else 0).
Proof.
  destruct (elements_ok els 0 Hcells) as [L [E [Ln V]]]. exists (concat L). split; [exact E|].
  assert (In1 : forall k t, In t (nth k L []) -> exists e X Y, nth_error els k = Some e /\ at_cell n e X Y /\ In t (el_trips k (n_patch e) X Y)).
  { intros k t Ht. destruct (lt_dec k (length L)) as [Lk|Lk]; [|rewrite nth_overflow in Ht by lia; destruct Ht].
    destruct (nth_error els k) as [e|] eqn:Ek; [|apply nth_error_None in Ek; lia].
    destruct (Hcells e (nth_error_In _ _ Ek)) as [X [Y C]]. exists e, X, Y. split; [reflexivity|]. split; [exact C|].
    rewrite (V k e X Y Ek C) in Ht. exact Ht. }
  split.
  - intros t Ht. apply in_concat in Ht. destruct Ht as [l [Hl Ht]]. destruct (In_nth L l [] Hl) as [k [Hk <-]].
    destruct (In1 k t Ht) as [e [X [Y [Ek [C T]]]]]. destruct (el_trips_in k (n_patch e) X Y t (proj1 C) (proj1 (proj2 C)) T) as [dx [dy [i Q]]].
    exists k, e, X, Y, dx, dy, i. split; [exact Ek|]. split; [exact C|]. exact Q.
  - intros k e X Y i q dx dy Ek C Hi Hdx Hdy.
    assert (Lk : (k < length L)%nat) by (rewrite Ln; apply nth_error_Some; congruence).
    rewrite <- (map_id L), <- flat_map_concat_map.
    assert (FL : forall f : list (nat * nat * R) -> list (nat * nat * R), flat_map f L = flat_map (fun k => f (nth k L [])) (seq 0 (length L))).
    { intros f. rewrite !flat_map_concat_map. f_equal. rewrite <- (map_map (fun k => nth k L []) f). f_equal.
      clear. induction L as [|a L IH]; [reflexivity|]. cbn [length seq map]. f_equal. rewrite <- seq_shift, map_map. exact IH. }
    rewrite FL. rewrite (esum_flat_single _ _ _ _ k); [|apply seq_NoDup|apply in_seq; lia|].
    + rewrite (V k e X Y Ek C). rewrite Nat.add_0_l. apply el_entry; try assumption; apply C.
    + intros k' Hk' Ne. apply esum_zero. intros t Ht. left. destruct (In1 k' t Ht) as [e' [X' [Y' [Ek' [C' T]]]]].
      destruct (el_trips_in k' (n_patch e') X' Y' t (proj1 C') (proj1 (proj2 C')) T) as [dx' [dy' [i' [_ [_ [Hi' [Er _]]]]]]]. rewrite Er.
      intros Q. apply Ne. rewrite <- !Nat.mul_assoc in Q.
      destruct (divmod_pair k' i' (mp * mp) Hi') as [A1 _]. destruct (divmod_pair k i (mp * mp) Hi) as [B1 _]. rewrite Q in A1. congruence.
Qed.
(** the function represented by a coefficient vector *)
Lemma sum_cols : forall (f : nat -> R) q, (q < P)%nat -> (forall q' dx dy, (q' < P)%nat -> q' <> q -> (dx < dimx)%nat -> (dy < dimy)%nat -> f (col q' dx dy) = 0) ->
  rsum f (dimx * dimy * P) = rsum (fun dy => rsum (fun dx => f (col q dx dy)) dimx) dimy.
Proof.
  intros f q Hq H. rewrite (Nat.mul_comm (dimx * dimy) P).
  assert (E : forall q' m, (m < dimx * dimy)%nat -> (q' * (dimx * dimy) + m = col q' (m mod dimx) (m / dimx))%nat /\ (m mod dimx < dimx)%nat /\ (m / dimx < dimy)%nat).
  { intros q' m Hm. assert (0 < dimx)%nat by (unfold dim; generalize ((n - 1) * rep)%nat; intros; lia). split; [|split].
    - unfold col. rewrite (Nat.div_mod m dimx) at 1 by lia. lia.
    - apply Nat.mod_upper_bound. lia.
    - apply Nat.div_lt_upper_bound; lia. }
  rewrite (rsum_block f P (dimx * dimy) q Hq).
  - rewrite (Nat.mul_comm dimx dimy), rsum_flatten. apply rsum_ext. intros dy Hdy. apply rsum_ext. intros dx Hdx. f_equal. unfold col. lia.
  - intros a b Ha Hb Ne. destruct (E a b Hb) as [-> [E1 E2]]. apply H; assumption.
Qed.
Lemma basis_sum : forall X Y dx dy s1 s2, (X < n)%nat -> (Y < n)%nat -> (dx < dimx)%nat -> (dy < dimy)%nat -> 0 <= s1 < 1 -> 0 <= s2 < 1 ->
  rsum (fun i => coef X Y dx dy i * (bern (mp - 1) (i mod mp) s1 * bern (mp - 1) (i / mp) s2)) (mp * mp)
  = Bs pp1x n rep dx (at_el n X s1) * Bs pp1y n rep dy (at_el n Y s2).
Proof.
  intros X Y dx dy s1 s2 HX HY Hdx Hdy H1 H2.
  rewrite (cf_form pp1x n rep Hx Hn Hr (mp - 1) X dx), (cf_form pp1y n rep Hy Hn Hr (mp - 1) Y dy) by assumption.
  unfold bernstein_form. replace (mp - 1 + 1)%nat with mp by lia. rewrite rsum_flatten, rsum_swap, <- rsum_scal_r. apply rsum_ext. intros jx Hjx.
  rewrite <- rsum_scal. apply rsum_ext. intros jy Hjy. unfold coef. destruct (divmod_pair jy jx mp Hjx) as [D1 D2]. rewrite D1, D2. ring.
Qed.
Lemma tensor_unit : forall s1 s2, rsum (fun i => bern (mp - 1) (i mod mp) s1 * bern (mp - 1) (i / mp) s2) (mp * mp) = 1.
Proof.
  intros s1 s2. rewrite rsum_flatten, rsum_swap.
  transitivity (rsum (fun jx => bern (mp - 1) jx s1) mp * rsum (fun jy => bern (mp - 1) jy s2) mp).
  - rewrite <- rsum_scal_r. apply rsum_ext. intros jx Hjx. rewrite <- rsum_scal. apply rsum_ext. intros jy Hjy. destruct (divmod_pair jy jx mp Hjx) as [D1 D2]. rewrite D1, D2. ring.
  - assert (E : forall s, rsum (fun j => bern (mp - 1) j s) mp = 1) by (intros s; rewrite <- (bern_sum (mp - 1) s); f_equal; lia). rewrite !E. ring.
Qed.
Lemma kept_error : forall X Y dx dy s1 s2, (X < n)%nat -> (Y < n)%nat -> (dx < dimx)%nat -> (dy < dimy)%nat -> 0 <= s1 < 1 -> 0 <= s2 < 1 ->
  Rabs (rsum (fun i => keep (coef X Y dx dy i) * (bern (mp - 1) (i mod mp) s1 * bern (mp - 1) (i / mp) s2)) (mp * mp)
  - Bs pp1x n rep dx (at_el n X s1) * Bs pp1y n rep dy (at_el n Y s2)) <= projector_tolerance.
Proof.
  intros X Y dx dy s1 s2 HX HY Hdx Hdy H1 H2. rewrite <- (basis_sum X Y) by assumption. rewrite <- rsum_minus.
  eapply Rle_trans; [apply rsum_abs|]. apply Rle_trans with (rsum (fun i => projector_tolerance * (bern (mp - 1) (i mod mp) s1 * bern (mp - 1) (i / mp) s2)) (mp * mp)).
  - apply rsum_le. intros i Hi. destruct (split_lt mp ltac:(lia) i Hi) as [_ [I1 I2]].
    pose proof (bern_nonneg (mp - 1) (i mod mp) s1 ltac:(lra)). pose proof (bern_nonneg (mp - 1) (i / mp) s2 ltac:(lra)).
    rewrite <- Rmult_minus_distr_r, Rabs_mult. rewrite (Rabs_pos_eq (bern _ _ _ * _)) by (apply Rmult_le_pos; assumption).
    apply Rmult_le_compat_r; [apply Rmult_le_pos; assumption|]. unfold keep, projector_tolerance. destruct Rlt_dec as [Q|Q].
    + rewrite Rminus_diag_eq, Rabs_R0 by reflexivity. lra.
    + rewrite Rminus_0_l, Rabs_Ropp. lra.
  - rewrite rsum_scal, tensor_unit. lra.
Qed.
Lemma kept_support : forall X Y dx dy i, ~ (X * rep <= dx < X * rep + pp1x)%nat \/ ~ (Y * rep <= dy < Y * rep + pp1y)%nat -> coef X Y dx dy i = 0.
Proof. intros X Y dx dy i [H|H]; unfold coef; [rewrite (cf_support pp1x) by assumption; ring|rewrite (cf_support pp1y) by assumption; ring]. Qed.
(** coefficients are kept up to degree 4 *)
Lemma kept_all : forall X Y dx dy i, (mp <= 5)%nat -> (X < n)%nat -> (Y < n)%nat -> (dx < dimx)%nat -> (dy < dimy)%nat -> (i < mp * mp)%nat -> keep (coef X Y dx dy i) = coef X Y dx dy i.
Proof.
  intros X Y dx dy i H5 HX HY Hdx Hdy Hi. destruct (split_lt mp ltac:(lia) i Hi) as [_ [I1 I2]].
  assert (F : / 24 <= / INR (fact (mp - 1))).
  { apply Rinv_le_contravar; [apply INR_fact_lt_0|]. replace 24 with (INR (fact 4)) by (simpl; lra). apply le_INR. apply fact_le. lia. }
  unfold keep. destruct Rlt_dec as [|Q]; [reflexivity|]. unfold coef in *.
  destruct (cf_bound pp1x n rep Hx Hn Hr (mp - 1) X dx (i mod mp)%nat Hmx HX Hdx ltac:(lia)) as [E|E]; [rewrite E; ring|].
  destruct (cf_bound pp1y n rep Hy Hn Hr (mp - 1) Y dy (i / mp)%nat Hmy HY Hdy ltac:(lia)) as [E2|E2]; [rewrite E2; ring|].
  exfalso. apply Q. assert (/ 24 * / 24 <= cf pp1x n rep (mp - 1) X dx (i mod mp) * cf pp1y n rep (mp - 1) Y dy (i / mp)) by (apply Rmult_le_compat; lra).
  unfold projector_tolerance. rewrite Rabs_pos_eq by lra. lra.
Qed.
End Local.
