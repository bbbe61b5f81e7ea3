(** Proofs about enclosing balls. *)
From Coq Require Import List Arith Reals Lra Lia Bool QArith Qreals.
From Verif Require Import ModelBase ModelTree ModelBall SpecTree SpecBall
  ProofTree ProofTreeWF ProofTreeHist ProofTreeGeo ProofTreeLook.
Import ListNotations.
Local Close Scope Q_scope.
Local Open Scope R_scope.

Lemma vdot_nonneg : forall a, 0 <= vdot a a.
Proof. intros [[x y] z]. unfold vdot, vx, vy, vz; simpl. nra. Qed.
Lemma vnorm_nonneg : forall a, 0 <= vnorm a.
Proof. intros. apply sqrt_pos. Qed.
Lemma vnorm_sq : forall a, vnorm a * vnorm a = vdot a a.
Proof. intros. apply sqrt_sqrt. apply vdot_nonneg. Qed.
Lemma cauchy : forall a b, vdot a b <= vnorm a * vnorm b.
Proof.
  intros a b. apply Rsqr_incr_0_var; [|apply Rmult_le_pos; apply vnorm_nonneg]. unfold Rsqr.
  replace (vnorm a * vnorm b * (vnorm a * vnorm b)) with ((vnorm a * vnorm a) * (vnorm b * vnorm b)) by ring.
  rewrite !vnorm_sq. destruct a as [[x y] z], b as [[u v] w]. unfold vdot, vx, vy, vz; simpl.
  assert (L : (x*x+y*y+z*z)*(u*u+v*v+w*w) - (x*u+y*v+z*w)*(x*u+y*v+z*w) = (x*v-y*u)^2 + (x*w-z*u)^2 + (y*w-z*v)^2) by ring.
  pose proof (pow2_ge_0 (x*v-y*u)). pose proof (pow2_ge_0 (x*w-z*u)). pose proof (pow2_ge_0 (y*w-z*v)). lra.
Qed.
Lemma vtriangle : forall a b, vnorm (vadd a b) <= vnorm a + vnorm b.
Proof.
  intros a b. pose proof (vnorm_nonneg a). pose proof (vnorm_nonneg b). apply Rsqr_incr_0_var; [|lra]. unfold Rsqr.
  rewrite vnorm_sq.
  replace (vdot (vadd a b) (vadd a b)) with (vdot a a + 2 * vdot a b + vdot b b)
    by (destruct a as [[? ?] ?], b as [[? ?] ?]; unfold vdot, vadd, vx, vy, vz; simpl; ring).
  rewrite <- !vnorm_sq. pose proof (cauchy a b). nra.
Qed.
Lemma vnorm_scal : forall c a, vnorm (vscal c a) = Rabs c * vnorm a.
Proof.
  intros c a. unfold vnorm. replace (vdot (vscal c a) (vscal c a)) with (Rsqr c * vdot a a)
    by (destruct a as [[? ?] ?]; unfold vdot, vscal, vx, vy, vz, Rsqr; simpl; ring).
  rewrite sqrt_mult by (try apply Rle_0_sqr; apply vdot_nonneg). rewrite sqrt_Rsqr_abs. reflexivity.
Qed.
Lemma dist_norm : forall a b, dist a b = vnorm (vsub a b).
Proof.
  intros [[x y] z] [[u v] w]. unfold dist, vnorm, vdot, vsub, vx, vy, vz. simpl. f_equal. ring.
Qed.
Lemma dist_tri : forall a b c, dist a c <= dist a b + dist b c.
Proof.
  intros a b c. rewrite !dist_norm.
  replace (vsub a c) with (vadd (vsub a b) (vsub b c)).
  - apply vtriangle.
  - destruct a as [[? ?] ?], b as [[? ?] ?], c as [[? ?] ?]. unfold vadd, vsub, vx, vy, vz; simpl. f_equal; [f_equal|]; ring.
Qed.
Lemma dist_sym : forall a b, dist a b = dist b a.
Proof. intros [[x y] z] [[u v] w]. unfold dist. simpl. f_equal. ring. Qed.
Lemma dist_self : forall a, dist a a = 0.
Proof. intros [[x y] z]. unfold dist; simpl. replace (_ + _) with 0 by ring. apply sqrt_0. Qed.
Lemma dist_pos : forall a b, 0 <= dist a b.
Proof. intros. apply sqrt_pos. Qed.

(** m + c * z *)
Lemma dist_shift : forall a z c, dist (vadd a (vscal c z)) a = Rabs c * vnorm z.
Proof.
  intros a z c. rewrite dist_norm. rewrite <- vnorm_scal. f_equal.
  destruct a as [[? ?] ?], z as [[? ?] ?]; unfold vadd, vsub, vscal, vx, vy, vz; simpl. f_equal; [f_equal|]; ring.
Qed.

Lemma ball_in_by : forall m1 r1 m2 r2, dist m1 m2 + r1 <= r2 -> ball_in (m1, r1) (m2, r2).
Proof.
  intros m1 r1 m2 r2 H p Hp. unfold in_ball in *. simpl in *. pose proof (dist_tri p m1 m2). lra.
Qed.
Lemma ball_in_trans : forall a b c, ball_in a b -> ball_in b c -> ball_in a c.
Proof. intros a b c H1 H2 p Hp. auto. Qed.

(** the new midpoint, seen from the two old ones *)
Lemma mid_forms : forall m1 m2 r1 r2, vnorm (vsub m1 m2) <> 0 ->
  let n := vnorm (vsub m1 m2) in
  vscal (1 / 2) (vadd (vadd m1 m2) (vscal ((r1 - r2) / n) (vsub m1 m2))) =
    vadd m1 (vscal ((r1 - r2 - n) / (2 * n)) (vsub m1 m2)) /\
  vscal (1 / 2) (vadd (vadd m1 m2) (vscal ((r1 - r2) / n) (vsub m1 m2))) =
    vadd m2 (vscal ((r1 - r2 + n) / (2 * n)) (vsub m1 m2)).
Proof.
  intros m1 m2 r1 r2 H n. change (n <> 0) in H. clearbody n. destruct m1 as [[x y] z], m2 as [[u v] w].
  unfold vadd, vsub, vscal, vx, vy, vz; simpl. split; (f_equal; [f_equal|]; field; assumption).
Qed.

Lemma enclosing_ok : forall m1 r1 m2 r2, 0 <= r1 -> 0 <= r2 ->
  exists m r, enclosing_ball (m1, r1) (m2, r2) = Some (m, r) /\
    ball_in (m1, r1) (m, r) /\ ball_in (m2, r2) (m, r) /\ 0 <= r /\
    r = Rmax (Rmax r1 r2) ((dist m1 m2 + r1 + r2) / 2).
Proof.
  intros m1 r1 m2 r2 H1 H2. unfold enclosing_ball. rewrite <- dist_norm. set (n := dist m1 m2).
  assert (Hn : 0 <= n) by apply dist_pos.
  destruct (Rle_dec (n + r2) r1) as [C1|C1].
  - exists m1, r1. split; [reflexivity|]. split; [intros p Hp; assumption|]. split.
    + apply ball_in_by. rewrite dist_sym. fold n. lra.
    + split; [assumption|]. rewrite (Rmax_left r1 r2), Rmax_left; lra.
  - destruct (Rle_dec (n + r1) r2) as [C2|C2].
    + exists m2, r2. split; [reflexivity|]. split; [apply ball_in_by; fold n; lra|]. split; [intros p Hp; assumption|].
      split; [assumption|]. rewrite (Rmax_right r1 r2), Rmax_left; lra.
    + destruct (Req_EM_T n 0) as [E|E]; [exfalso; lra|]. eexists _, _. split; [reflexivity|].
      assert (E' : vnorm (vsub m1 m2) <> 0) by (rewrite <- dist_norm; assumption).
      destruct (mid_forms m1 m2 r1 r2 E') as [F1 F2]. cbn zeta in F1, F2. rewrite <- dist_norm in F1, F2. fold n in F1, F2.
      split; [|split; [|split]].
      * apply ball_in_by. rewrite F1, dist_sym, dist_shift, <- dist_norm. fold n.
        rewrite Rabs_left1.
        { replace (- ((r1 - r2 - n) / (2 * n)) * n) with ((n + r2 - r1) / 2) by (field; assumption). lra. }
        { apply Rmult_le_reg_r with (2 * n); [lra|]. replace ((r1 - r2 - n) / (2 * n) * (2 * n)) with (r1 - r2 - n) by (field; assumption). lra. }
      * apply ball_in_by. rewrite F2, dist_sym, dist_shift, <- dist_norm. fold n.
        rewrite Rabs_right.
        { replace ((r1 - r2 + n) / (2 * n) * n) with ((n + r1 - r2) / 2) by (field; assumption). lra. }
        { apply Rle_ge. apply Rmult_le_reg_r with (2 * n); [lra|]. replace ((r1 - r2 + n) / (2 * n) * (2 * n)) with (r1 - r2 + n) by (field; assumption). lra. }
      * lra.
      * rewrite Rmax_right; [lra|]. apply Rmax_lub; lra.
Qed.

(** no smaller ball contains both *)
Lemma two_points : forall m r p q, in_ball p (m, r) -> in_ball q (m, r) -> dist p q <= 2 * r.
Proof.
  intros m r p q Hp Hq. unfold in_ball in *. simpl in *. pose proof (dist_tri p m q). rewrite (dist_sym m q) in H. lra.
Qed.
Lemma shift_in : forall m r z c, Rabs c * vnorm z <= r -> in_ball (vadd m (vscal c z)) (m, r).
Proof. intros. unfold in_ball. simpl. rewrite dist_shift. assumption. Qed.
Lemma shift_dist : forall m z c d, dist (vadd m (vscal c z)) (vadd m (vscal d z)) = Rabs (c - d) * vnorm z.
Proof.
  intros m z c d. rewrite dist_norm, <- vnorm_scal. f_equal.
  destruct m as [[? ?] ?], z as [[? ?] ?]; unfold vadd, vsub, vscal, vx, vy, vz; simpl. f_equal; [f_equal|]; ring.
Qed.
Lemma ball_in_radius : forall m1 r1 m2 r2, 0 <= r1 -> ball_in (m1, r1) (m2, r2) -> r1 <= r2.
Proof.
  intros m1 r1 m2 r2 H1 H. set (e := (1, 0, 0) : vec3).
  assert (Ne : vnorm e = 1) by (unfold vnorm, vdot, e, vx, vy, vz; simpl; replace (_ + _) with 1 by ring; apply sqrt_1).
  assert (A : dist (vadd m1 (vscal r1 e)) (vadd m1 (vscal (- r1) e)) <= 2 * r2).
  { apply (two_points m2); apply H; apply shift_in; rewrite Ne; [rewrite Rabs_right|rewrite Rabs_left1]; lra. }
  rewrite shift_dist, Ne, Rabs_right in A; lra.
Qed.
Lemma smallest : forall m1 r1 m2 r2 m' r', 0 <= r1 -> 0 <= r2 ->
  ball_in (m1, r1) (m', r') -> ball_in (m2, r2) (m', r') -> (dist m1 m2 + r1 + r2) / 2 <= r'.
Proof.
  intros m1 r1 m2 r2 m' r' H1 H2 B1 B2. set (n := dist m1 m2).
  assert (Hn : 0 <= n) by apply dist_pos.
  destruct (Req_EM_T n 0) as [E|E].
  - pose proof (ball_in_radius _ _ _ _ H1 B1). pose proof (ball_in_radius _ _ _ _ H2 B2). lra.
  - set (z := vsub m1 m2). assert (Nz : vnorm z = n) by (unfold z, n; rewrite dist_norm; reflexivity).
    assert (P1 : in_ball (vadd m1 (vscal (r1 / n) z)) (m', r')).
    { apply B1, shift_in. rewrite Nz, Rabs_right; [|apply Rle_ge, Rmult_le_pos; [assumption|apply Rlt_le, Rinv_0_lt_compat; lra]].
      right. field. assumption. }
    assert (P2 : in_ball (vadd m2 (vscal (- (r2 / n)) z)) (m', r')).
    { apply B2, shift_in. rewrite Nz, Rabs_Ropp, Rabs_right; [|apply Rle_ge, Rmult_le_pos; [assumption|apply Rlt_le, Rinv_0_lt_compat; lra]].
      right. field. assumption. }
    pose proof (two_points _ _ _ _ P1 P2) as D.
    assert (E1 : vadd m1 (vscal (r1 / n) z) = vadd m2 (vscal (1 + r1 / n) z)).
    { unfold z. destruct m1 as [[? ?] ?], m2 as [[? ?] ?]. unfold vadd, vsub, vscal, vx, vy, vz; simpl. f_equal; [f_equal|]; ring. }
    rewrite E1, shift_dist, Nz in D.
    assert (Q1 : 0 <= r1 / n) by (apply Rmult_le_pos; [assumption|apply Rlt_le, Rinv_0_lt_compat; lra]).
    assert (Q2 : 0 <= r2 / n) by (apply Rmult_le_pos; [assumption|apply Rlt_le, Rinv_0_lt_compat; lra]).
    rewrite Rabs_right in D by lra. replace ((1 + r1 / n - - (r2 / n)) * n) with (n + r1 + r2) in D by (field; assumption). lra.
Qed.

(** ** ball4 *)
Lemma ball4_ok : forall x0 x1 x2 x3, 0 <= snd x0 -> 0 <= snd x1 -> 0 <= snd x2 -> 0 <= snd x3 ->
  exists x, ball4 x0 x1 x2 x3 = Some x /\ 0 <= snd x /\ ball_in x0 x /\ ball_in x1 x /\ ball_in x2 x /\ ball_in x3 x.
Proof.
  intros [m0 r0] [m1 r1] [m2 r2] [m3 r3] H0 H1 H2 H3. simpl in *. unfold ball4.
  destruct (enclosing_ok m0 r0 m2 r2 H0 H2) as [m [r [E [A [B [C _]]]]]]. rewrite E. cbn [bind].
  destruct (enclosing_ok m1 r1 m3 r3 H1 H3) as [m' [r' [E' [A' [B' [C' _]]]]]]. rewrite E'. cbn [bind].
  destruct (enclosing_ok m r m' r' C C') as [m'' [r'' [E'' [A'' [B'' [C'' _]]]]]]. exists (m'', r'').
  split; [assumption|]. split; [assumption|]. repeat split; eapply ball_in_trans; eauto.
Qed.

Local Close Scope R_scope.
Local Open Scope nat_scope.

Lemma bset_same : forall b a x, bset b a x a = Some x.
Proof. intros. unfold bset, addr_eqb. destruct (list_eq_dec Nat.eq_dec a a); congruence. Qed.
Lemma bset_other : forall b a x c, c <> a -> bset b a x c = b c.
Proof. intros. unfold bset, addr_eqb. destruct (list_eq_dec Nat.eq_dec c a); congruence. Qed.

(** what the recursion establishes below a node *)
Definition encl_ok (t : tree) (P : list (option vec3)) (b : balls) (c : addr) : Prop :=
  exists x n, b c = Some x /\ (0 <= snd x)%R /\ t_store t c = Some n /\
    (n_ref n = true -> forall i, i < 4 -> exists y, b (i :: c) = Some y /\ ball_in y x) /\
    (n_ref n = false -> forall k v p, nth_error (n_verts n) k = Some v -> col P v = Some p -> in_ball p x).

Definition cols_ok (t : tree) (P : list (option vec3)) : Prop :=
  forall a n v, t_store t a = Some n -> n_ref n = false -> In v (n_verts n) -> exists p, col P v = Some p.

Lemma enclose_rec_ok : forall f t l P a b, WF t l -> cols_ok t P -> t_store t a <> None -> t_maxlevel t < f + pos_level a ->
  exists b', enclose_rec f t P a b = Some b' /\ (forall c, ~ under a c -> b' c = b c) /\
    (forall c, under a c -> t_store t c <> None -> encl_ok t P b' c).
Proof.
  induction f as [|f IH]; intros t l P a b W CP Ha Hf.
  - pose proof (wf_ml t l W a Ha). lia.
  - destruct (t_store t a) as [n|] eqn:En; [|congruence]. cbn [enclose_rec]. rewrite En. cbn [bind].
    assert (Hne : a <> []) by (eapply wf_nonroot; [exact W|congruence]).
    destruct (n_ref n) eqn:Er.
    + assert (Hson : forall i, i < 4 -> t_store t (i :: a) <> None) by (intros; eapply wf_refined_son; eauto).
      assert (St : forall i bb, i < 4 -> exists b', enclose_rec f t P (i :: a) bb = Some b' /\ (forall c, ~ under (i :: a) c -> b' c = bb c) /\
        (forall c, under (i :: a) c -> t_store t c <> None -> encl_ok t P b' c)).
      { intros i bb Hi. apply (IH t l); auto. rewrite pos_level_cons by assumption. lia. }
      destruct (St 0 b ltac:(lia)) as [b0 [E0 [F0 K0]]]. rewrite E0. cbn [bind].
      destruct (St 1 b0 ltac:(lia)) as [b1 [E1 [F1 K1]]]. rewrite E1. cbn [bind].
      destruct (St 2 b1 ltac:(lia)) as [b2 [E2 [F2 K2]]]. rewrite E2. cbn [bind].
      destruct (St 3 b2 ltac:(lia)) as [b3 [E3 [F3 K3]]]. rewrite E3. cbn [bind].
      (* encl_ok survives later updates *)
      assert (Dj : forall i j c, i <> j -> under (i :: a) c -> ~ under (j :: a) c).
      { intros i j c Hij U1 U2. apply Hij. eapply under_disjoint; eauto. }
      assert (Mono : forall i bb bb', (forall c, under (i :: a) c -> bb' c = bb c) ->
          (forall c, under (i :: a) c -> t_store t c <> None -> encl_ok t P bb c) ->
          (forall c, under (i :: a) c -> t_store t c <> None -> encl_ok t P bb' c)).
      { intros i bb bb' Heq K c U Hc. destruct (K c U Hc) as [x [m [Bx [R [Em [S1 S2]]]]]]. exists x, m.
        rewrite Heq by assumption. split; [assumption|]. split; [assumption|]. split; [assumption|]. split; [|assumption].
        intros Hr j Hj. destruct (S1 Hr j Hj) as [y [By Hy]]. exists y. rewrite Heq by (apply under_cons; assumption). auto. }
      assert (K0' : forall c, under (0 :: a) c -> t_store t c <> None -> encl_ok t P b3 c).
      { apply (Mono 0 b0); [|assumption]. intros c U. rewrite F3, F2, F1; [reflexivity| | |]; eapply Dj; [|exact U| |exact U| |exact U]; lia. }
      assert (K1' : forall c, under (1 :: a) c -> t_store t c <> None -> encl_ok t P b3 c).
      { apply (Mono 1 b1); [|assumption]. intros c U. rewrite F3, F2; [reflexivity| |]; eapply Dj; [|exact U| |exact U]; lia. }
      assert (K2' : forall c, under (2 :: a) c -> t_store t c <> None -> encl_ok t P b3 c).
      { apply (Mono 2 b2); [|assumption]. intros c U. rewrite F3; [reflexivity|]; eapply Dj; [|exact U]; lia. }
      assert (KK : forall i c, i < 4 -> under (i :: a) c -> t_store t c <> None -> encl_ok t P b3 c).
      { intros i c Hi. destruct i as [|[|[|[|i]]]]; [apply K0'|apply K1'|apply K2'|apply K3|lia]. }
      destruct (KK 0 (0 :: a) ltac:(lia) (under_refl _) (Hson 0 ltac:(lia))) as [x0 [_ [B0 [R0 _]]]].
      destruct (KK 1 (1 :: a) ltac:(lia) (under_refl _) (Hson 1 ltac:(lia))) as [x1 [_ [B1 [R1 _]]]].
      destruct (KK 2 (2 :: a) ltac:(lia) (under_refl _) (Hson 2 ltac:(lia))) as [x2 [_ [B2 [R2 _]]]].
      destruct (KK 3 (3 :: a) ltac:(lia) (under_refl _) (Hson 3 ltac:(lia))) as [x3 [_ [B3 [R3 _]]]].
      rewrite B0, B1, B2, B3. cbn [bind].
      destruct (ball4_ok x0 x1 x2 x3 R0 R1 R2 R3) as [x [Ex [Rx [I0 [I1 [I2 I3]]]]]]. rewrite Ex. cbn [bind].
      eexists. split; [reflexivity|]. split.
      * intros c Hc. rewrite bset_other by (intros ->; apply Hc, under_refl).
        rewrite F3, F2, F1, F0; [reflexivity| | | |]; intros U; apply Hc; eapply under_father; exact U.
      * intros c U Hc. destruct (under_split a c U) as [->|[i Ui]].
        { exists x, n. rewrite bset_same. split; [reflexivity|]. split; [assumption|]. split; [assumption|].
          split; [|congruence]. intros _ i Hi.
          assert (Hb : exists y, b3 (i :: a) = Some y /\ ball_in y x).
          { destruct i as [|[|[|[|i]]]]; [eauto|eauto|eauto|eauto|lia]. }
          destruct Hb as [y [By Iy]]. exists y. rewrite bset_other; [auto|]. intros Eq. apply (f_equal (@length nat)) in Eq. simpl in Eq. lia. }
        { assert (Hi : i < 4).
          { destruct (le_lt_dec 4 i) as [Hi|Hi]; [|assumption]. exfalso. destruct Ui as [y Ey]. rewrite Ey in Hc. clear - Hc Hi W Hne.
            induction y as [|z y IHy]; simpl in Hc.
            - apply (wf_son t l W) in Hc; [lia|assumption].
            - apply IHy. apply (wf_son t l W) in Hc; [|destruct y; discriminate]. destruct Hc as [_ [m [Em _]]]. congruence. }
          destruct (KK i c Hi Ui Hc) as [y [m [By [Ry [Em [S1 S2]]]]]].
          assert (Nc : forall d, under (i :: a) d -> d <> a) by (intros d Ud ->; exact (under_self_not a i Ud)).
          exists y, m. rewrite bset_other by (apply Nc; assumption). split; [assumption|]. split; [assumption|]. split; [assumption|].
          split; [|assumption]. intros Hr j Hj. destruct (S1 Hr j Hj) as [w [Bw Iw]]. exists w.
          rewrite bset_other by (apply Nc, under_cons; assumption). auto. }
    + pose proof (nk_verts _ _ (wf_node t l W a n En)) as Lv.
      destruct (n_verts n) as [|v0 [|v1 [|v2 [|v3 [|? ?]]]]] eqn:Ev; try discriminate. cbn [get nth_error bind].
      destruct (CP a n v0 En Er) as [p0 Q0]; [rewrite Ev; simpl; auto|]. destruct (CP a n v1 En Er) as [p1 Q1]; [rewrite Ev; simpl; auto|].
      destruct (CP a n v2 En Er) as [p2 Q2]; [rewrite Ev; simpl; auto|]. destruct (CP a n v3 En Er) as [p3 Q3]; [rewrite Ev; simpl; auto|].
      rewrite Q0, Q1, Q2, Q3. cbn [bind].
      destruct (ball4_ok (p0, 0%R) (p1, 0%R) (p2, 0%R) (p3, 0%R)) as [x [Ex [Rx [I0 [I1 [I2 I3]]]]]]; try (simpl; lra).
      rewrite Ex. cbn [bind]. eexists. split; [reflexivity|]. split.
      * intros c Hc. apply bset_other. intros ->. apply Hc, under_refl.
      * intros c U Hc. assert (c = a) by (eapply (leaf_under t l a c W); eauto; exists n; auto). subst c.
        exists x, n. rewrite bset_same. split; [reflexivity|]. split; [assumption|]. split; [assumption|]. split; [congruence|].
        intros _ k v p Hk Hp. rewrite Ev in Hk.
        assert (Self : forall q, in_ball q (q, 0%R)) by (intros q; unfold in_ball; simpl; rewrite dist_self; lra).
        destruct k as [|[|[|[|k]]]]; simpl in Hk; try (destruct k; discriminate); injection Hk as <-.
        { rewrite Q0 in Hp. injection Hp as <-. apply I0, Self. } { rewrite Q1 in Hp. injection Hp as <-. apply I1, Self. }
        { rewrite Q2 in Hp. injection Hp as <-. apply I2, Self. } { rewrite Q3 in Hp. injection Hp as <-. apply I3, Self. }
Qed.

Lemma enclosings_ok : forall t l P, WF t l -> cols_ok t P ->
  exists b, enclosings t P = Some b /\ b [] = None /\ (forall c, t_store t c <> None -> encl_ok t P b c).
Proof.
  intros t l P W CP. unfold enclosings.
  destruct (for_opt_inv (fun p b => b [] = None /\ forall c, t_store t c <> None -> pos_patch c < p -> encl_ok t P b c) (t_patches t)
     (fun p b => enclose_rec (t_maxlevel t + 1) t P [p] b) (fun _ => None)) as [b [E [E0 H]]].
  - split; [reflexivity|]. intros; lia.
  - intros p b Hp [E0 K]. destruct (enclose_rec_ok (t_maxlevel t + 1) t l P [p] b W CP) as [b' [E' [F KK]]].
    + apply (wf_patch t l W). assumption.
    + simpl. lia.
    + exists b'. split; [assumption|]. split.
      * rewrite F; [assumption|]. intros U. exact (under_self_not [] p U).
      * intros c Hc Hlt. destruct (wf_addr_patch t l c W Hc) as [Uc _].
        destruct (Nat.eq_dec (pos_patch c) p) as [<-|Hne]; [apply KK; assumption|].
        assert (Far : forall d, under [pos_patch c] d -> ~ under [p] d).
        { intros d U1 U2. apply Hne. eapply (under_disjoint [] _ _ d); eauto. }
        destruct (K c Hc ltac:(lia)) as [x [m [Bx [Rx [Em [S1 S2]]]]]]. exists x, m. rewrite F by (apply Far; assumption).
        split; [assumption|]. split; [assumption|]. split; [assumption|]. split; [|assumption].
        intros Hr j Hj. destruct (S1 Hr j Hj) as [y [By Hy]]. exists y. rewrite F; [auto|]. apply Far. apply under_cons. assumption.
  - exists b. split; [assumption|]. split; [assumption|]. intros c Hc. apply H; [assumption|]. apply (wf_addr_patch t l c W Hc).
Qed.

(** vertices of the leaves below a node *)
Lemma encl_vertices : forall t l P b, WF t l -> (forall c, t_store t c <> None -> encl_ok t P b c) ->
  forall z a n, a <> [] -> t_store t (z ++ a) = Some n -> n_ref n = false ->
  forall k v p, nth_error (n_verts n) k = Some v -> col P v = Some p ->
  exists x, b a = Some x /\ in_ball p x.
Proof.
  intros t l P b W H z. induction z as [|i z IH] using rev_ind; intros a n Ha En Er k v p Hk Hp.
  - simpl in En. destruct (H a) as [x [m [Bx [_ [Em [_ S2]]]]]]; [congruence|]. assert (m = n) by congruence. subst m.
    exists x. split; [assumption|]. eapply S2; eauto.
  - rewrite <- app_assoc in En. simpl in En.
    destruct (IH (i :: a) n ltac:(discriminate) En Er k v p Hk Hp) as [y [By Iy]].
    assert (Hia : t_store t (i :: a) <> None).
    { assert (Hex : t_store t (z ++ i :: a) <> None) by congruence. clear - Hex W. induction z as [|q z IHz]; [assumption|]. apply IHz.
      simpl in Hex. apply (wf_son t l W) in Hex; [|destruct z; discriminate]. destruct Hex as [_ [m [Em _]]]. congruence. }
    apply (wf_son t l W) in Hia; [|assumption]. destruct Hia as [Hi [m [Em Hr]]].
    destruct (H a) as [x [m' [Bx [_ [Em' [S1 _]]]]]]; [congruence|]. assert (m' = m) by congruence. subst m'.
    destruct (S1 Hr i Hi) as [y' [By' Iy']]. assert (y' = y) by congruence. subst y'. exists x. split; [assumption|]. apply Iy', Iy.
Qed.
