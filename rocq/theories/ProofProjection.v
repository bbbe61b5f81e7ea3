(** Bezier extraction (C57) and the construction of patches with inner knots (C42). *)
From Coq Require Import Reals Lra Lia Arith List ZArith Sorting Bool.
From Verif Require Import RSum ModelBase ModelBernstein SpecBernstein ProofBernstein ModelKnots ProofKnots
  ModelDeBoor SpecDeBoor ProofDeBoor ProofDeBoorDer ProofDeBoorTP SpecInterp ProofInterp
  ModelPatch SpecPatch ProofBezier ProofPatch ProofPatchInit.
Import ListNotations.
Local Open Scope R_scope.

(** ** unique knots of a clamped knot vector *)
Record uniq_of (knots u : list R) : Prop := {
  uo_ext : ExtractUniqueKnotVector knots = Some u;
  uo_sep : StronglySorted (fun a b => a + generic_tolerance < b) u;
  uo_in : forall x, In x u <-> In x knots;
  uo_0 : nth 0 u 0 = 0;
  uo_len : (2 <= length u)%nat;
  uo_last : last u 0 = last knots 0 }.

Lemma nth_sorted : forall (Q : R -> R -> Prop) v, (forall i j, (i < j < length v)%nat -> Q (nth i v 0) (nth j v 0)) -> StronglySorted Q v.
Proof.
  intros Q v. induction v as [|a v IH]; intros H; constructor.
  - apply IH. intros i j Hij. apply (H (S i) (S j)). simpl. lia.
  - rewrite Forall_forall. intros y Hy. destruct (In_nth v y 0 Hy) as [n [Hn <-]]. apply (H 0%nat (S n)). simpl. lia.
Qed.

Lemma clamped_nondecreasing : forall knots p n, clamped generic_tolerance knots p n -> nondecreasing knots.
Proof.
  intros knots p n [L [Hp [Z [E [S Pos]]]]] i j Hij Hj. destruct (Nat.eq_dec i j) as [->|]; [lra|].
  destruct (S i j ltac:(lia)) as [Q|Q]; unfold generic_tolerance in *; lra.
Qed.

Lemma clamped_uniq : forall knots p n, clamped generic_tolerance knots p n -> exists u, uniq_of knots u.
Proof.
  intros knots p n H. pose proof (clamped_nondecreasing knots p n H) as ND. destruct H as [L [Hp [Z [E [S Pos]]]]].
  assert (Hne : knots <> []) by (destruct knots; [simpl in L; lia|discriminate]).
  destruct (unique_knots knots Hne (nth_sorted _ knots S)) as [u [Eu [Su Iu]]].
  assert (Sle : StronglySorted Rle knots).
  { apply nth_sorted. intros i j Hij. apply ND; lia. }
  destruct (unique_knots_separated knots u Sle Eu) as [Sep [Inc Hd]].
  assert (Z0 : nth 0 u 0 = 0).
  { pose proof (Z 0%nat ltac:(lia)) as Zk. destruct u as [|a u]; [reflexivity|]. destruct knots as [|b kn]; [congruence|].
    simpl in *. congruence. }
  assert (Hlast : In (last knots 0) u).
  { apply Iu. rewrite last_nth. apply nth_In. destruct knots; [congruence|simpl; lia]. }
  assert (Hmax : forall x, In x u -> x <= last knots 0).
  { intros x Hx. apply Iu in Hx. destruct (In_nth knots x 0 Hx) as [i [Hi <-]]. rewrite last_nth. apply ND; lia. }
  assert (Hu : (2 <= length u)%nat).
  { destruct u as [|a [|b u]]; simpl in *; [contradiction| |lia]. destruct Hlast as [Q|[]]. subst. lra. }
  exists u. constructor; try assumption.
  destruct (In_nth u (last knots 0) 0 Hlast) as [i [Hi Ei]]. rewrite (last_nth u).
  destruct (Nat.eq_dec i (length u - 1)) as [<-|]; [assumption|].
  pose proof (sep_nth u i (length u - 1) Sep ltac:(lia)) as Q.
  pose proof (Hmax (nth (length u - 1) u 0) ltac:(apply nth_In; lia)). unfold generic_tolerance in *. lra.
Qed.

Section OneDim.
Variables (knots u : list R) (p n : nat).
Hypothesis Hc : clamped generic_tolerance knots p n.
Hypothesis Hu : uniq_of knots u.

Lemma u_lt : forall i j, (i < j < length u)%nat -> nth i u 0 < nth j u 0.
Proof. intros i j H. pose proof (sep_nth u i j (uo_sep _ _ Hu) H). unfold generic_tolerance in *. lra. Qed.
Lemma u_le : forall i j, (i <= j < length u)%nat -> nth i u 0 <= nth j u 0.
Proof. intros i j H. destruct (Nat.eq_dec i j) as [->|]; [lra|]. pose proof (u_lt i j ltac:(lia)). lra. Qed.
Lemma u_nonneg : forall i, (i < length u)%nat -> 0 <= nth i u 0.
Proof. intros i H. pose proof (u_le 0 i ltac:(lia)) as Q. rewrite (uo_0 _ _ Hu) in Q. exact Q. Qed.

(** no knot lies inside a span *)
Lemma span_gap : forall s i, (s + 1 < length u)%nat -> nth i knots 0 <= nth s u 0 \/ nth (s + 1) u 0 <= nth i knots 0.
Proof.
  intros s i Hs. destruct (lt_dec i (length knots)) as [Hi|Hi].
  - assert (I : In (nth i knots 0) u) by (apply (uo_in _ _ Hu), nth_In; assumption).
    destruct (In_nth u _ 0 I) as [m [Hm Em]]. rewrite <- Em. destruct (le_dec m s); [left|right]; apply u_le; lia.
  - rewrite nth_overflow by lia. left. apply u_nonneg. lia.
Qed.

Lemma knot_p : nth p knots 0 = 0.
Proof. destruct Hc as [L [Hp [Z _]]]. apply Z. lia. Qed.
Lemma knot_n : nth n knots 0 = last u 0.
Proof. destruct Hc as [L [Hp [Z [E _]]]]. rewrite (uo_last _ _ Hu). apply E. lia. Qed.
Lemma span_in : forall s x, (s + 1 < length u)%nat -> nth s u 0 <= x < nth (s + 1) u 0 -> nth p knots 0 <= x < nth n knots 0.
Proof.
  intros s x Hs Hx. rewrite knot_p, knot_n, last_nth. pose proof (u_nonneg s ltac:(lia)).
  pose proof (u_le (s + 1) (length u - 1) ltac:(lia)). lra.
Qed.

(** the B-splines restricted to a span, in the local coordinate *)
Lemma local_poly : forall s i, (s + 1 < length u)%nat -> exists q, polynomial (p + 1) q
  /\ forall xi, 0 <= xi < 1 -> bspline (fun j => nth j knots 0) p i (nth s u 0 + xi * (nth (s + 1) u 0 - nth s u 0)) = q xi.
Proof.
  intros s i Hs. pose proof (u_lt s (s + 1) ltac:(lia)) as W.
  destruct (bspline_poly (fun j => nth j knots 0) (nth s u 0) (nth (s + 1) u 0) (fun j => span_gap s j Hs) W p i) as [q [Q E]].
  exists (fun xi => q ((nth (s + 1) u 0 - nth s u 0) * xi + nth s u 0)). split; [apply poly_affine; assumption|].
  intros xi Hxi. rewrite E; [f_equal; ring|]. split.
  - assert (0 <= xi * (nth (s + 1) u 0 - nth s u 0)) by (apply Rmult_le_pos; lra). lra.
  - assert (xi * (nth (s + 1) u 0 - nth s u 0) < 1 * (nth (s + 1) u 0 - nth s u 0)) by (apply Rmult_lt_compat_r; lra). lra.
Qed.

(** interpolation points *)
Lemma points_of : exists pts, MakeInterpolationPoints u (MakeInterpolationMask (p + 1)) = Some pts
  /\ length pts = ((length u - 1) * (p + 1))%nat
  /\ forall s a, (s + 1 < length u)%nat -> (a < p + 1)%nat ->
       nth (s * (p + 1) + a) pts 0
       = nth s u 0 + (INR (a + 1) / INR (p + 1 + 1)) * (nth (s + 1) u 0 - nth s u 0).
Proof.
  destruct (mask_spec (p + 1)) as [Lm [Sm [Im Em]]].
  destruct (points_spec u (MakeInterpolationMask (p + 1)) 0) as [pts [E [L [_ V]]]]; try assumption.
  - intros Q. pose proof (uo_len _ _ Hu). rewrite Q in H. simpl in H. lia.
  - apply sep_sorted. exact (uo_sep _ _ Hu).
  - exists pts. split; [exact E|]. rewrite Lm in *. split; [exact L|]. intros s a Hs Ha.
    destruct (V s a Hs Ha) as [_ V2]. rewrite V2. rewrite Em by assumption. reflexivity.
Qed.

Definition mask_at (a : nat) : R := INR (a + 1) / INR (p + 1 + 1).
Lemma mask_at_01 : forall a, (a < p + 1)%nat -> 0 < mask_at a < 1.
Proof.
  intros a Ha. unfold mask_at. assert (0 < INR (a + 1)) by (apply lt_0_INR; lia).
  assert (INR (a + 1) < INR (p + 1 + 1)) by (apply lt_INR; lia).
  split; [apply Rdiv_lt_0_compat; lra|]. apply (Rmult_lt_reg_r (INR (p + 1 + 1))); [lra|].
  unfold Rdiv. rewrite Rmult_assoc, Rinv_l by lra. lra.
Qed.
Lemma mask_distinct : distinct (p + 1) mask_at.
Proof.
  intros i j Hi Hj Ne Q. unfold mask_at in Q. apply Ne.
  assert (Z : INR (p + 1 + 1) <> 0) by (apply not_0_INR; lia).
  apply Rmult_eq_reg_r in Q; [|apply Rinv_neq_0_compat; assumption]. apply INR_eq in Q. lia.
Qed.

(** the Bezier basis functions at a point strictly inside span s *)
Lemma bez_value : forall s c xi, (p <= MaxP)%nat -> (s + 1 < length u)%nat -> (c < (length u - 1) * (p + 1))%nat -> 0 < xi < 1 ->
  BezBasis u (p + 1) c (nth s u 0 + xi * (nth (s + 1) u 0 - nth s u 0))
  = if (c / (p + 1) =? s)%nat then bern p (c mod (p + 1)) xi else 0.
Proof.
  intros s c xi HP Hs Hcc Hxi. unfold BezBasis.
  set (Q := (c / (p + 1))%nat). set (r := (c mod (p + 1))%nat).
  assert (HQ : (Q + 1 < length u)%nat).
  { assert (Q < length u - 1)%nat by (apply Nat.div_lt_upper_bound; lia). lia. }
  assert (Hr : (r < p + 1)%nat) by (apply Nat.mod_upper_bound; lia).
  pose proof (u_lt s (s + 1) ltac:(lia)) as W. set (w := nth (s + 1) u 0 - nth s u 0) in *.
  assert (W1 : 0 < xi * w) by (apply Rmult_lt_0_compat; unfold w; lra).
  assert (W2 : xi * w < w) by (rewrite <- (Rmult_1_l w) at 2; apply Rmult_lt_compat_r; unfold w; lra).
  assert (Ew : nth (s + 1) u 0 = nth s u 0 + w) by (unfold w; ring).
  destruct (Nat.eqb_spec Q s) as [E|Ne].
  - rewrite E. rewrite Ew. destruct Rlt_dec; [lra|]. destruct Rlt_dec; [lra|].
    rewrite rescale_eq by lra. replace ((nth s u 0 + xi * w - nth s u 0) / (nth s u 0 + w - nth s u 0)) with xi by (field; lra).
    replace (p + 1 - 1)%nat with p by lia. unfold evalCoef. rewrite dispatch_le by assumption. rewrite EvalBernstein_spec.
    unfold bernstein_form. rewrite (rsum_single _ (p + 1) r Hr).
    + rewrite upd_same. ring.
    + intros i Hi Ni. rewrite upd_other by assumption. unfold zero_arr. ring.
  - destruct (lt_dec Q s) as [L|L].
    + destruct Rlt_dec as [_|N]; [reflexivity|]. exfalso. apply N. pose proof (u_le (Q + 1) s ltac:(lia)). lra.
    + destruct Rlt_dec; [reflexivity|]. destruct Rlt_dec as [_|N]; [reflexivity|]. exfalso. apply N.
      pose proof (u_le (s + 1) Q ltac:(lia)). lra.
Qed.
End OneDim.

(** ** the tensor-product interpolation problem *)
Lemma divmod_pair : forall a b n, (b < n)%nat -> ((a * n + b) / n = a /\ (a * n + b) mod n = b)%nat.
Proof.
  intros a b n H. split.
  - rewrite Nat.div_add_l by lia. rewrite Nat.div_small by assumption. lia.
  - rewrite Nat.add_comm, Nat.mod_add by lia. apply Nat.mod_small. assumption.
Qed.

Lemma pair_lt : forall a b m n, (a < m)%nat -> (b < n)%nat -> (a * n + b < m * n)%nat.
Proof. intros. nia. Qed.

Lemma rsum_block : forall (f : nat -> R) nb w s, (s < nb)%nat ->
  (forall a b, (a < nb)%nat -> (b < w)%nat -> a <> s -> f (a * w + b)%nat = 0) ->
  rsum f (nb * w) = rsum (fun b => f (s * w + b)%nat) w.
Proof.
  intros f nb w s Hs H. rewrite rsum_flatten. rewrite (rsum_single _ nb s Hs); [reflexivity|].
  intros a Ha Ne. apply rsum_zero. intros b Hb. apply H; assumption.
Qed.

Lemma rsum_abs : forall f n, Rabs (rsum f n) <= rsum (fun i => Rabs (f i)) n.
Proof.
  intros f n. induction n as [|n IH]; simpl; [rewrite Rabs_R0; lra|].
  pose proof (Rabs_triang (rsum f n) (f n)). lra.
Qed.

Section TwoDim.
Variables (kx ux ky uy : list R) (p n q m : nat).
Hypothesis Hcx : clamped generic_tolerance kx p n.
Hypothesis Hux : uniq_of kx ux.
Hypothesis Hcy : clamped generic_tolerance ky q m.
Hypothesis Huy : uniq_of ky uy.
Hypothesis HpM : (p <= MaxP)%nat.
Hypothesis HqM : (q <= MaxP)%nat.
Variables (xpoint ypoint : list R).
Hypothesis Ex : MakeInterpolationPoints ux (MakeInterpolationMask (p + 1)) = Some xpoint.
Hypothesis Ey : MakeInterpolationPoints uy (MakeInterpolationMask (q + 1)) = Some ypoint.

Let nx := (length ux - 1)%nat.
Let ny := (length uy - 1)%nat.
Let sx := (nx * (p + 1))%nat.
Let sy := (ny * (q + 1))%nat.
Let N := (sx * sy)%nat.
Let T := tempsolver ux uy (p + 1) (q + 1) xpoint ypoint.
Definition ptx s xi := nth s ux 0 + xi * (nth (s + 1) ux 0 - nth s ux 0).
Definition pty t eta := nth t uy 0 + eta * (nth (t + 1) uy 0 - nth t uy 0).

Lemma xp_value : forall s a, (s < nx)%nat -> (a < p + 1)%nat -> nth (s * (p + 1) + a) xpoint 0 = ptx s (mask_at p a).
Proof.
  intros s a Hs Ha. destruct (points_of kx ux p Hux) as [pts [E [_ V]]]. rewrite Ex in E. injection E as <-.
  apply V; [unfold nx in Hs; lia|assumption].
Qed.
Lemma yp_value : forall s a, (s < ny)%nat -> (a < q + 1)%nat -> nth (s * (q + 1) + a) ypoint 0 = pty s (mask_at q a).
Proof.
  intros s a Hs Ha. destruct (points_of ky uy q Huy) as [pts [E [_ V]]]. rewrite Ey in E. injection E as <-.
  apply V; [unfold ny in Hs; lia|assumption].
Qed.
Lemma xp_length : length xpoint = sx.
Proof. destruct (points_of kx ux p Hux) as [pts [E [L _]]]. rewrite Ex in E. injection E as <-. exact L. Qed.
Lemma yp_length : length ypoint = sy.
Proof. destruct (points_of ky uy q Huy) as [pts [E [L _]]]. rewrite Ey in E. injection E as <-. exact L. Qed.

Lemma T_value : forall s a t b s' c1 t' c2, (s < nx)%nat -> (a < p + 1)%nat -> (t < ny)%nat -> (b < q + 1)%nat ->
  (s' < nx)%nat -> (c1 < p + 1)%nat -> (t' < ny)%nat -> (c2 < q + 1)%nat ->
  T ((t * (q + 1) + b) * sx + (s * (p + 1) + a)) ((s' * (p + 1) + c1) * sy + (t' * (q + 1) + c2))
  = (if (s' =? s)%nat then bern p c1 (mask_at p a) else 0) * (if (t' =? t)%nat then bern q c2 (mask_at q b) else 0).
Proof.
  intros s a t b s' c1 t' c2 Hs Ha Ht Hb Hs' Hc1 Ht' Hc2. unfold T, tempsolver. fold nx ny. cbv zeta. fold sx sy.
  pose proof (pair_lt s a nx (p + 1) Hs Ha) as La. fold sx in La.
  pose proof (pair_lt t' c2 ny (q + 1) Ht' Hc2) as Lc2. fold sy in Lc2.
  pose proof (pair_lt s' c1 nx (p + 1) Hs' Hc1) as Lc1.
  destruct (divmod_pair (t * (q + 1) + b) (s * (p + 1) + a) sx La) as [D1 D2]. rewrite D1, D2.
  destruct (divmod_pair (s' * (p + 1) + c1) (t' * (q + 1) + c2) sy Lc2) as [D3 D4]. rewrite D3, D4.
  rewrite xp_value, yp_value by assumption. unfold ptx, pty. f_equal.
  - rewrite (bez_value kx ux p Hux); [|assumption|unfold nx in *; lia|assumption|apply mask_at_01; assumption].
    destruct (divmod_pair s' c1 (p + 1) Hc1) as [E1 E2]. rewrite E1, E2. reflexivity.
  - rewrite (bez_value ky uy q Huy); [|assumption|unfold ny in *; lia|exact Lc2|apply mask_at_01; assumption].
    destruct (divmod_pair t' c2 (q + 1) Hc2) as [E1 E2]. rewrite E1, E2. reflexivity.
Qed.

(** one row of the system only involves the coefficients of one span *)
Lemma T_apply : forall (v : nat -> R) s a t b, (s < nx)%nat -> (a < p + 1)%nat -> (t < ny)%nat -> (b < q + 1)%nat ->
  rsum (fun c => T ((t * (q + 1) + b) * sx + (s * (p + 1) + a)) c * v c) N
  = rsum (fun c1 => rsum (fun c2 => v ((s * (p + 1) + c1) * sy + (t * (q + 1) + c2))%nat
        * (bern p c1 (mask_at p a) * bern q c2 (mask_at q b))) (q + 1)) (p + 1).
Proof.
  intros v s a t b Hs Ha Ht Hb. unfold N. rewrite rsum_flatten. unfold sx at 2.
  rewrite (rsum_block _ nx (p + 1) s Hs).
  - apply rsum_ext. intros c1 Hc1. unfold sy at 1. rewrite (rsum_block _ ny (q + 1) t Ht).
    + apply rsum_ext. intros c2 Hc2. rewrite T_value by assumption. rewrite !Nat.eqb_refl. ring.
    + intros t' c2 Ht' Hc2 Ne. rewrite T_value by assumption. rewrite Nat.eqb_refl.
      destruct (Nat.eqb_spec t' t); [contradiction|ring].
  - intros s' c1 Hs' Hc1 Ne. apply rsum_zero. intros cy Hcy'.
    assert (Ey' : cy = (cy / (q + 1) * (q + 1) + cy mod (q + 1))%nat) by (rewrite (Nat.div_mod cy (q + 1)) at 1 by lia; lia).
    rewrite Ey'. rewrite T_value; try assumption.
    + destruct (Nat.eqb_spec s' s); [contradiction|ring].
    + apply Nat.div_lt_upper_bound; [lia|]. rewrite (Nat.mul_comm (q + 1)). exact Hcy'.
    + apply Nat.mod_upper_bound. lia.
Qed.

Lemma decompose_r : forall r, (r < N)%nat -> exists s a t b, (s < nx)%nat /\ (a < p + 1)%nat /\ (t < ny)%nat /\ (b < q + 1)%nat
  /\ r = ((t * (q + 1) + b) * sx + (s * (p + 1) + a))%nat.
Proof.
  intros r Hr. assert (Zx : (0 < sx)%nat) by (unfold N in Hr; clear - Hr; nia).
  pose proof (Nat.mod_upper_bound r sx ltac:(lia)) as M.
  assert (Dv : (r / sx < sy)%nat) by (apply Nat.div_lt_upper_bound; [lia|exact Hr]).
  exists (r mod sx / (p + 1))%nat, (r mod sx mod (p + 1))%nat, (r / sx / (q + 1))%nat, ((r / sx) mod (q + 1))%nat.
  repeat split.
  - apply Nat.div_lt_upper_bound; [lia|]. rewrite (Nat.mul_comm (p + 1)). exact M.
  - apply Nat.mod_upper_bound. lia.
  - apply Nat.div_lt_upper_bound; [lia|]. rewrite (Nat.mul_comm (q + 1)). exact Dv.
  - apply Nat.mod_upper_bound. lia.
  - rewrite (Nat.div_mod r sx) at 1 by lia.
    rewrite (Nat.div_mod (r mod sx) (p + 1)) at 1 by lia. rewrite (Nat.div_mod (r / sx) (q + 1)) at 1 by lia. nia.
Qed.

(** C57: the interpolation matrix has an inverse. *)
Lemma T_invertible : exists B, is_inverse N T B.
Proof.
  destruct (collocation_inverse p (mask_at p) (mask_distinct p)) as [imx Hx].
  destruct (collocation_inverse q (mask_at q) (mask_distinct q)) as [imy Hy].
  exists (fun c l =>
    let cx := (c / sy)%nat in let cy := (c mod sy)%nat in let lx := (l mod sx)%nat in let ly := (l / sx)%nat in
    (if (cx / (p + 1) =? lx / (p + 1))%nat then imx (cx mod (p + 1))%nat (lx mod (p + 1))%nat else 0)
    * (if (cy / (q + 1) =? ly / (q + 1))%nat then imy (cy mod (q + 1))%nat (ly mod (q + 1))%nat else 0)).
  intros r l Hr Hl.
  destruct (decompose_r r Hr) as [s [a [t [b [Hs [Ha [Ht [Hb ->]]]]]]]].
  destruct (decompose_r l Hl) as [s' [a' [t' [b' [Hs' [Ha' [Ht' [Hb' ->]]]]]]]].
  rewrite (T_apply (fun c =>
    let cx := (c / sy)%nat in let cy := (c mod sy)%nat in
    let lx := (((t' * (q + 1) + b') * sx + (s' * (p + 1) + a')) mod sx)%nat in
    let ly := (((t' * (q + 1) + b') * sx + (s' * (p + 1) + a')) / sx)%nat in
    (if (cx / (p + 1) =? lx / (p + 1))%nat then imx (cx mod (p + 1))%nat (lx mod (p + 1))%nat else 0)
    * (if (cy / (q + 1) =? ly / (q + 1))%nat then imy (cy mod (q + 1))%nat (ly mod (q + 1))%nat else 0)) s a t b Hs Ha Ht Hb). cbv zeta.
  pose proof (pair_lt s' a' nx (p + 1) Hs' Ha') as La. fold sx in La.
  destruct (divmod_pair (t' * (q + 1) + b') (s' * (p + 1) + a') sx La) as [D1 D2]. rewrite D1, D2.
  destruct (divmod_pair s' a' (p + 1) Ha') as [D3 D4]. rewrite D3, D4.
  destruct (divmod_pair t' b' (q + 1) Hb') as [D5 D6]. rewrite D5, D6.
  transitivity (rsum (fun c1 => bern p c1 (mask_at p a) * (if (s =? s')%nat then imx c1 a' else 0)) (p + 1)
              * rsum (fun c2 => bern q c2 (mask_at q b) * (if (t =? t')%nat then imy c2 b' else 0)) (q + 1)).
  - rewrite <- rsum_scal_r. apply rsum_ext. intros c1 Hc1. rewrite <- rsum_scal. apply rsum_ext. intros c2 Hc2.
    pose proof (pair_lt t c2 ny (q + 1) Ht Hc2) as L2. fold sy in L2.
    destruct (divmod_pair (s * (p + 1) + c1) (t * (q + 1) + c2) sy L2) as [F1 F2]. rewrite F1, F2.
    destruct (divmod_pair s c1 (p + 1) Hc1) as [F3 F4]. rewrite F3, F4.
    destruct (divmod_pair t c2 (q + 1) Hc2) as [F5 F6]. rewrite F5, F6. ring.
  - assert (Zx : rsum (fun c1 => bern p c1 (mask_at p a) * (if (s =? s')%nat then imx c1 a' else 0)) (p + 1)
              = if ((s =? s') && (a =? a'))%nat%bool then 1 else 0).
    { destruct (s =? s')%nat; cbn [andb]; [apply Hx; lia|]. apply rsum_zero. intros; ring. }
    assert (Zy : rsum (fun c2 => bern q c2 (mask_at q b) * (if (t =? t')%nat then imy c2 b' else 0)) (q + 1)
              = if ((t =? t') && (b =? b'))%nat%bool then 1 else 0).
    { destruct (t =? t')%nat; cbn [andb]; [apply Hy; lia|]. apply rsum_zero. intros; ring. }
    rewrite Zx, Zy.
    assert (Inj : ((t * (q + 1) + b) * sx + (s * (p + 1) + a) = (t' * (q + 1) + b') * sx + (s' * (p + 1) + a') <->
             (s = s' /\ a = a') /\ (t = t' /\ b = b'))%nat).
    { split; [|intros [[-> ->] [-> ->]]; reflexivity]. intros Q.
      pose proof (pair_lt s a nx (p + 1) Hs Ha) as La'. fold sx in La'.
      destruct (divmod_pair (t * (q + 1) + b) (s * (p + 1) + a) sx La') as [G1 G2].
      rewrite Q in G1, G2. rewrite D1 in G1. rewrite D2 in G2.
      destruct (divmod_pair s a (p + 1) Ha) as [G3 G4]. rewrite <- G2 in G3, G4. rewrite D3 in G3. rewrite D4 in G4.
      destruct (divmod_pair t b (q + 1) Hb) as [G5 G6]. rewrite <- G1 in G5, G6. rewrite D5 in G5. rewrite D6 in G6. auto. }
    destruct (Nat.eqb_spec ((t * (q + 1) + b) * sx + (s * (p + 1) + a)) ((t' * (q + 1) + b') * sx + (s' * (p + 1) + a'))) as [Q|Q].
    + apply Inj in Q. destruct Q as [[-> ->] [-> ->]]. rewrite !Nat.eqb_refl. cbn [andb]. ring.
    + destruct (Nat.eqb_spec s s'), (Nat.eqb_spec a a'), (Nat.eqb_spec t t'), (Nat.eqb_spec b b'); cbn [andb]; try ring.
      exfalso. apply Q, Inj. auto.
Qed.

(** ** exactness *)
Variable B : nat -> nat -> R.
Hypothesis HB : is_inverse N T B.

Lemma solve_apply : forall (small : nat -> R) r, (r < N)%nat ->
  rsum (fun c => T r c * rsum (fun l => B c l * small l) N) N = small r.
Proof.
  intros small r Hr.
  transitivity (rsum (fun l => small l * rsum (fun c => T r c * B c l) N) N).
  - transitivity (rsum (fun c => rsum (fun l => T r c * B c l * small l) N) N).
    + apply rsum_ext. intros c _. rewrite <- rsum_scal. apply rsum_ext. intros; ring.
    + rewrite rsum_swap. apply rsum_ext. intros l _. rewrite <- rsum_scal. apply rsum_ext. intros; ring.
  - rewrite (rsum_single _ N r Hr).
    + rewrite HB by assumption. rewrite Nat.eqb_refl. ring.
    + intros l Hl Ne. rewrite HB by assumption. destruct (Nat.eqb_spec r l); [lia|ring].
Qed.

(** the coefficients of the (i, j)-th tensor-product B-spline *)
Definition small i j (l : nat) : R :=
  bspline (fun k => nth k kx 0) p i (nth (l mod sx) xpoint 0) * bspline (fun k => nth k ky 0) q j (nth (l / sx) ypoint 0).
Definition column i j (c : nat) : R := rsum (fun l => B c l * small i j l) N.

Lemma column_exact : forall i j s t xi eta, (s < nx)%nat -> (t < ny)%nat -> 0 <= xi < 1 -> 0 <= eta < 1 ->
  rsum (fun c1 => rsum (fun c2 => column i j ((s * (p + 1) + c1) * sy + (t * (q + 1) + c2)) * (bern p c1 xi * bern q c2 eta)) (q + 1)) (p + 1)
  = bspline (fun k => nth k kx 0) p i (ptx s xi) * bspline (fun k => nth k ky 0) q j (pty t eta).
Proof.
  intros i j s t xi eta Hs Ht Hxi Heta.
  destruct (local_poly kx ux p Hux s i ltac:(unfold nx in Hs; lia)) as [qi [Pi Ei]].
  destruct (local_poly ky uy q Huy t j ltac:(unfold ny in Ht; lia)) as [qj [Pj Ej]].
  fold (ptx s xi) in *. unfold ptx at 1, pty at 1. rewrite Ei, Ej by assumption.
  set (V := fun c1 c2 => column i j ((s * (p + 1) + c1) * sy + (t * (q + 1) + c2))).
  assert (Node : forall a b, (a < p + 1)%nat -> (b < q + 1)%nat ->
     rsum (fun c1 => rsum (fun c2 => V c1 c2 * (bern p c1 (mask_at p a) * bern q c2 (mask_at q b))) (q + 1)) (p + 1)
     = qi (mask_at p a) * qj (mask_at q b)).
  { intros a b Ha Hb.
    assert (Hr : ((t * (q + 1) + b) * sx + (s * (p + 1) + a) < N)%nat).
    { pose proof (pair_lt s a nx (p + 1) Hs Ha). pose proof (pair_lt t b ny (q + 1) Ht Hb).
      fold sx in H. fold sy in H0. unfold N. rewrite (Nat.mul_comm sx sy). apply pair_lt; assumption. }
    pose proof (solve_apply (small i j) _ Hr) as E. rewrite (T_apply (column i j)) in E by assumption.
    unfold V. rewrite E. unfold small.
    pose proof (pair_lt s a nx (p + 1) Hs Ha) as La. fold sx in La.
    destruct (divmod_pair (t * (q + 1) + b) (s * (p + 1) + a) sx La) as [D1 D2]. rewrite D1, D2.
    rewrite xp_value, yp_value by assumption. unfold ptx, pty.
    pose proof (mask_at_01 p a Ha). pose proof (mask_at_01 q b Hb). rewrite Ei, Ej by lra. reflexivity. }
  assert (Half : forall b, (b < q + 1)%nat -> forall z,
     rsum (fun c1 => rsum (fun c2 => V c1 c2 * (bern p c1 z * bern q c2 (mask_at q b))) (q + 1)) (p + 1)
     = qi z * qj (mask_at q b)).
  { intros b Hb. apply (poly_unique (p + 1) _ _ (mask_at p)).
    - apply (poly_ext _ (bernstein_form p (fun c1 => rsum (fun c2 => V c1 c2 * bern q c2 (mask_at q b)) (q + 1)))).
      + intros z. unfold bernstein_form. apply rsum_ext. intros c1 _. rewrite <- rsum_scal_r. apply rsum_ext. intros; ring.
      + apply bernstein_form_poly.
    - apply (poly_ext _ (fun z => qj (mask_at q b) * qi z)); [intros; ring|]. apply poly_scal. assumption.
    - apply mask_distinct.
    - intros a Ha. apply Node; assumption. }
  change (rsum (fun c1 => rsum (fun c2 => V c1 c2 * (bern p c1 xi * bern q c2 eta)) (q + 1)) (p + 1) = qi xi * qj eta).
  pose proof (poly_unique (q + 1)
     (fun e => rsum (fun c1 => rsum (fun c2 => V c1 c2 * (bern p c1 xi * bern q c2 e)) (q + 1)) (p + 1))
     (fun e => qi xi * qj e) (mask_at q)) as U. apply U; clear U.
  - apply (poly_sum (q + 1) (p + 1) (fun c1 e => rsum (fun c2 => V c1 c2 * (bern p c1 xi * bern q c2 e)) (q + 1))).
    intros c1 _.
    apply (poly_ext _ (bernstein_form q (fun c2 => V c1 c2 * bern p c1 xi))).
    + intros e. unfold bernstein_form. apply rsum_ext. intros; ring.
    + apply bernstein_form_poly.
  - apply poly_scal. assumption.
  - apply mask_distinct.
  - intros b Hb. apply Half. assumption.
Qed.

(** combination with control points, with small coefficients dropped *)
Definition pruned_form (M : list (list R)) s t xi eta : R :=
  rsum (fun c1 => rsum (fun c2 =>
    rsum (fun c => entry M (c mod m) (c / m) * prune (column (c / m) (c mod m) ((s * (p + 1) + c1) * sy + (t * (q + 1) + c2)))) (n * m)
    * (bern p c1 xi * bern q c2 eta)) (q + 1)) (p + 1).

Lemma tp_entry : forall M, rectangular m n M -> forall x y,
  tp_spline kx ky M p q x y = rsum (fun c => entry M (c mod m) (c / m)
     * (bspline (fun k => nth k kx 0) p (c / m) x * bspline (fun k => nth k ky 0) q (c mod m) y)) (n * m).
Proof.
  intros M [Lm Rm] x y. unfold tp_spline. rewrite Lm.
  transitivity (rsum (fun j => rsum (fun i => entry M j i * (bspline (fun k => nth k kx 0) p i x * bspline (fun k => nth k ky 0) q j y)) n) m).
  - apply rsum_ext. intros j Hj. rewrite (Rm (nth j M [])) by (apply nth_In; lia). apply rsum_ext. intros i _. unfold entry. ring.
  - rewrite rsum_swap. rewrite rsum_flatten. apply rsum_ext. intros i Hi. apply rsum_ext. intros j Hj.
    destruct (divmod_pair i j m Hj) as [-> ->]. reflexivity.
Qed.

Lemma unpruned_exact : forall M s t xi eta, rectangular m n M -> (s < nx)%nat -> (t < ny)%nat -> 0 <= xi < 1 -> 0 <= eta < 1 ->
  rsum (fun c1 => rsum (fun c2 =>
    rsum (fun c => entry M (c mod m) (c / m) * column (c / m) (c mod m) ((s * (p + 1) + c1) * sy + (t * (q + 1) + c2))) (n * m)
    * (bern p c1 xi * bern q c2 eta)) (q + 1)) (p + 1)
  = tp_spline kx ky M p q (ptx s xi) (pty t eta).
Proof.
  intros M s t xi eta HM Hs Ht Hxi Heta. rewrite (tp_entry M HM).
  transitivity (rsum (fun c => entry M (c mod m) (c / m) *
     rsum (fun c1 => rsum (fun c2 => column (c / m) (c mod m) ((s * (p + 1) + c1) * sy + (t * (q + 1) + c2)) * (bern p c1 xi * bern q c2 eta)) (q + 1)) (p + 1)) (n * m)).
  - transitivity (rsum (fun c1 => rsum (fun c => rsum (fun c2 =>
       entry M (c mod m) (c / m) * column (c / m) (c mod m) ((s * (p + 1) + c1) * sy + (t * (q + 1) + c2)) * (bern p c1 xi * bern q c2 eta)) (q + 1)) (n * m)) (p + 1)).
    + apply rsum_ext. intros c1 _. rewrite <- rsum_swap. apply rsum_ext. intros c2 _. rewrite <- rsum_scal_r. reflexivity.
    + rewrite rsum_swap. apply rsum_ext. intros c _. rewrite <- rsum_scal. apply rsum_ext. intros c1 _.
      rewrite <- rsum_scal. apply rsum_ext. intros; ring.
  - apply rsum_ext. intros c _. rewrite column_exact by assumption. reflexivity.
Qed.

Lemma prune_error : forall v, Rabs (prune v - v) <= prune_tol.
Proof.
  intros v. unfold prune. destruct Rle_dec as [L|L].
  - rewrite Rminus_0_l, Rabs_Ropp. assumption.
  - replace (v - v) with 0 by ring. rewrite Rabs_R0. unfold prune_tol. apply Rmult_le_pos; left; apply Rinv_0_lt_compat; lra.
Qed.

Lemma pruned_error : forall M s t xi eta, rectangular m n M -> (s < nx)%nat -> (t < ny)%nat -> 0 <= xi < 1 -> 0 <= eta < 1 ->
  Rabs (pruned_form M s t xi eta - tp_spline kx ky M p q (ptx s xi) (pty t eta))
  <= prune_tol * rsum (fun i => rsum (fun j => Rabs (entry M j i)) m) n.
Proof.
  intros M s t xi eta HM Hs Ht Hxi Heta. rewrite <- (unpruned_exact M s t xi eta HM Hs Ht Hxi Heta). unfold pruned_form.
  set (S1 := rsum (fun i => rsum (fun j => Rabs (entry M j i)) m) n).
  assert (ES : S1 = rsum (fun c => Rabs (entry M (c mod m) (c / m))) (n * m)).
  { rewrite rsum_flatten. apply rsum_ext. intros i Hi. apply rsum_ext. intros j Hj. destruct (divmod_pair i j m Hj) as [-> ->]. reflexivity. }
  rewrite <- rsum_minus.
  eapply Rle_trans; [apply rsum_abs|].
  apply Rle_trans with (rsum (fun c1 => prune_tol * S1 * bern p c1 xi) (p + 1)).
  - apply rsum_le. intros c1 Hc1. rewrite <- rsum_minus. eapply Rle_trans; [apply rsum_abs|].
    apply Rle_trans with (rsum (fun c2 => prune_tol * S1 * bern p c1 xi * bern q c2 eta) (q + 1)).
    + apply rsum_le. intros c2 Hc2. rewrite <- Rmult_minus_distr_r, Rabs_mult.
      pose proof (bern_nonneg p c1 xi ltac:(lra)) as N1. pose proof (bern_nonneg q c2 eta ltac:(lra)) as N2.
      rewrite (Rabs_right (bern p c1 xi * bern q c2 eta)) by (apply Rle_ge, Rmult_le_pos; assumption).
      rewrite (Rmult_assoc (prune_tol * S1)). apply Rmult_le_compat_r; [apply Rmult_le_pos; assumption|].
      rewrite <- rsum_minus. eapply Rle_trans; [apply rsum_abs|]. rewrite ES, <- rsum_scal. apply rsum_le. intros c Hc.
      rewrite <- Rmult_minus_distr_l, Rabs_mult, Rmult_comm. apply Rmult_le_compat_r; [apply Rabs_pos|]. apply prune_error.
    + rewrite rsum_scal, bern_sum. lra.
  - rewrite rsum_scal, bern_sum. lra.
Qed.

End TwoDim.
