(** evaluate_dsphericals and evaluate_dsolid_sphericals. *)
From Coq Require Import Reals Arith Bool List Lia Lra ZArith.
From Coquelicot Require Import Coquelicot.
From Verif Require Import ModelBase RSum ModelBall SpecOperators ProofOperators ProofPotential ModelSpherical SpecSpherical ProofSpherical ProofSphericalCode ProofSphericalTable.
Import ListNotations.
Local Open Scope R_scope.

(** Y_n^m / (y1 + i y2) *)
Definition dh (n m : nat) (y : vec3) : Complex.C := Cmult (RtoC (harmonic_norm n m * H n m (vz y) 1)) (W y (m - 1)).
Lemma dh_first : forall y, dh 1 1 y = (sqrt (0.375 / PI), 0).
Proof.
  intros y. assert (E : harmonic_norm 1 1 = sqrt (0.375 / PI)).
  { unfold harmonic_norm. f_equal. change (INR (fact (1 - 1))) with 1. change (INR (fact (1 + 1))) with 2. change (INR 1) with 1. pose proof PI_RGT_0. replace 0.375 with (3 / 8) by lra. field. lra. }
  unfold dh, W. rewrite E, H_diag, H_O. cbn [Nat.sub cpower Nat.eqb INR]. unfold Cmult, RtoC. cbn [fst snd]. f_equal; ring.
Qed.
Lemma dh_next : forall m y, csmul (sqrt (2 * INR m + 3) * vz y) (dh m m y) = dh (S m) m y.
Proof.
  intros m y. unfold dh. pose proof (norm_next m) as E. pose proof (H_low m m (vz y) 1 ltac:(lia)) as Q. rewrite (H1_high m m) in Q by lia.
  assert (Q' : H (S m) m (vz y) 1 = (2 * INR m + 1) * vz y * H m m (vz y) 1) by lra. rewrite Q'. set (w := W y (m - 1)). unfold csmul, Cmult, RtoC. cbn [fst snd].
  f_equal; rewrite ?Rmult_0_l, ?Rminus_0_r, ?Rplus_0_r.
  - transitivity (sqrt (2 * INR m + 3) * harmonic_norm m m * (vz y * H m m (vz y) 1 * fst w)); [ring|]. rewrite E. ring.
  - transitivity (sqrt (2 * INR m + 3) * harmonic_norm m m * (vz y * H m m (vz y) 1 * snd w)); [ring|]. rewrite E. ring.
Qed.
Lemma dh_start : forall m y, (1 <= m)%nat -> next_start m y (dh m m y) = dh (S m) (S m) y.
Proof.
  intros m y Hm. unfold dh. pose proof (norm_start m) as E. rewrite H_diag. replace (S m - 1)%nat with m by lia.
  assert (Wm : W y m = Cmult (vx y, vy y) (W y (m - 1))) by (destruct m; [lia|cbn [Nat.sub]; rewrite Nat.sub_0_r; reflexivity]). rewrite Wm. set (w := W y (m - 1)).
  unfold next_start, csmul, Cmult, RtoC. cbn [fst snd].
  set (a := fst w). set (b := snd w). f_equal.
  - transitivity (sqrt ((2 * INR m + 3) / (2 * INR m + 2)) * harmonic_norm m m * (H m m (vz y) 1 * (vx y * a - vy y * b))); [ring|]. rewrite E. ring.
  - transitivity (sqrt ((2 * INR m + 3) / (2 * INR m + 2)) * harmonic_norm m m * (H m m (vz y) 1 * (vx y * b + vy y * a))); [ring|]. rewrite E. ring.
Qed.
Lemma dh_step : forall m k y, next_z m (m + 2 + k) (vz y) (dh (m + k) m y) (dh (m + 1 + k) m y) = dh (m + 2 + k) m y.
Proof.
  intros m k y. unfold dh. pose proof (norm_step1 m k) as E1. pose proof (norm_step2 m k) as E2. cbv zeta in E1, E2.
  pose proof (H_low (m + 1 + k) m (vz y) 1 ltac:(lia)) as Q. replace (S (m + 1 + k)) with (m + 2 + k)%nat in Q by lia.
  assert (E3 : H1 (m + 1 + k) m (vz y) 1 = H (m + k) m (vz y) 1) by (replace (m + 1 + k)%nat with (S (m + k)) by lia; reflexivity). rewrite E3 in Q.
  assert (Q' : H (m + 2 + k) m (vz y) 1 = ((2 * INR (m + 2 + k) - 1) * vz y * H (m + 1 + k) m (vz y) 1 - (INR (m + 2 + k) + INR m - 1) * H (m + k) m (vz y) 1) / (INR (m + 2 + k) - INR m)).
  { pose proof (pos_INR k). pose proof (pos_INR m). replace (INR (m + 2 + k)) with (INR m + 2 + INR k) by (rewrite !plus_INR; cbn [INR]; lra).
    replace (INR (m + 1 + k)) with (INR m + 1 + INR k) in Q by (rewrite !plus_INR; cbn [INR]; lra). 
    apply (Rmult_eq_reg_l (INR m + 1 + INR k + 1 - INR m)); [|lra]. rewrite Q. field. lra. }
  rewrite Q'. set (w := W y (m - 1)). unfold next_z, Cmult, RtoC. cbn [fst snd].
  set (r2 := sqrt ((2 * INR (m + 2 + k) + 1) / ((INR (m + 2 + k) - INR m) * (INR (m + 2 + k) + INR m)))) in *.
  set (q1 := sqrt (2 * INR (m + 2 + k) - 1)) in *. set (q3 := sqrt ((INR (m + 2 + k) + INR m - 1) * (INR (m + 2 + k) - INR m - 1) / (2 * INR (m + 2 + k) - 3))) in *.
  assert (Hn : INR (m + 2 + k) - INR m <> 0) by (rewrite !plus_INR; cbn [INR]; pose proof (pos_INR k); lra).
  f_equal.
  - transitivity (r2 * (q1 * harmonic_norm (m + 1 + k) m) * (vz y * H (m + 1 + k) m (vz y) 1 * fst w) - r2 * (q3 * harmonic_norm (m + k) m) * (H (m + k) m (vz y) 1 * fst w)); [ring|]. rewrite E1, E2. field. exact Hn.
  - transitivity (r2 * (q1 * harmonic_norm (m + 1 + k) m) * (vz y * H (m + 1 + k) m (vz y) 1 * snd w) - r2 * (q3 * harmonic_norm (m + k) m) * (H (m + k) m (vz y) 1 * snd w)); [ring|]. rewrite E1, E2. field. exact Hn.
Qed.
Lemma dh_real : forall n y, snd (dh n 1 y) = 0.
Proof. intros. unfold dh, W. cbn [Nat.sub cpower]. unfold Cmult, RtoC. cbn [fst snd]. ring. Qed.
Lemma norm_down : forall n m, (1 <= m)%nat -> (m <= n)%nat -> sqrt ((INR n + INR m) * (INR n - INR m + 1)) * harmonic_norm n m = harmonic_norm n (m - 1).
Proof.
  intros n m H1m Hmn. rewrite <- !constant_norm by lia. unfold constant. replace m with (S (m - 1)) at 3 by lia. rewrite seq_S, fold_left_app. cbn [fold_left Nat.add].
  replace (INR m) with (INR (m - 1) + 1) by (rewrite minus_INR by lia; cbn [INR]; ring).
  assert (Hl : INR (m - 1) < INR n) by (apply lt_INR; lia). pose proof (pos_INR (m - 1)).
  assert (P : 0 < (INR n + INR (m - 1) + 1) * (INR n - INR (m - 1))) by (apply Rmult_lt_0_compat; lra).
  replace ((INR n + (INR (m - 1) + 1)) * (INR n - (INR (m - 1) + 1) + 1)) with ((INR n + INR (m - 1) + 1) * (INR n - INR (m - 1))) by ring.
  field. pose proof (sqrt_lt_R0 _ P). lra.
Qed.

(** the gradient of the real part of Y_n^m, as a polynomial in x *)
Definition dvec (n m : nat) (y : vec3) : vec3 :=
  (INR m * fst (dh n m y), - (INR m * snd (dh n m y)), harmonic_norm n m * H n (S m) (vz y) 1 * fst (W y m)).
Lemma dir_harmonic : forall n m x d, directional (fun z => fst (harmonic n m z)) x d (vdot (dvec n m x) d).
Proof.
  intros n m x d.
  assert (DH : directional (fun z => H n m (vz z) 1) x d (H n (S m) (vz x) 1 * vz d)).
  { unfold directional. apply is_derive_Reals. replace (H n (S m) (vz x) 1 * vz d) with (scal (vz d) (H n (S m) (vz x) 1)) by (unfold scal; simpl; unfold mult; simpl; ring).
    apply (is_derive_comp (fun t => H n m t 1) (fun t => vz (along x d t)) 0 (H n (S m) (vz x) 1) (vz d)).
    - rewrite along0. apply legendre_der.
    - unfold along, vadd, vscal, vz. cbn [fst snd]. auto_derive; [exact I|ring]. }
  pose proof (dir_scal _ _ _ _ (harmonic_norm n m) (dir_mult _ _ _ _ _ _ DH (proj1 (dir_pow m x d)))) as D.
  unfold directional in *. eapply derivable_pt_lim_ext; [|].
  2:{ match type of D with derivable_pt_lim _ _ ?p => match goal with |- derivable_pt_lim _ _ ?v => replace v with p end end; [exact D|].
      destruct x as [[x1 x2] x3]. destruct d as [[d1 d2] d3]. unfold dvec, dh, vdot, vx, vy, vz. cbn [fst snd]. unfold Cmult, RtoC. cbn [fst snd]. ring. }
  intros t. cbv beta. rewrite harmonic_value. unfold Cmult, RtoC. cbn [fst snd]. ring.
Qed.

(** ** the loops *)
Section Loops.
  Context (cs : list R) (deg : nat) (y : vec3) (w : nat -> R).
  Definition cf (n m : nat) : R := nth (n * (n + 1) + m) cs 0.
  Definition TX (n m : nat) : R := w n * (fac m * cf n m * (INR m * fst (dh n m y))).
  Definition TY (n m : nat) : R := w n * (fac m * cf n m * - (INR m * snd (dh n m y))).
  Definition TZ (n m : nat) : R := w n * (fac m * cf n m * (harmonic_norm n m * H n (S m) (vz y) 1 * fst (W y m))).
  Definition col (T : nat -> nat -> R) (m : nat) : R := rsum (fun k => T (m + k)%nat m) (deg - m).
  Lemma TX_0 : col TX 0 = 0.
  Proof. unfold col. apply rsum_zero. intros k Hk. unfold TX. cbn [INR]. ring. Qed.
  Lemma TY_0 : col TY 0 = 0.
  Proof. unfold col. apply rsum_zero. intros k Hk. unfold TY. cbn [INR]. ring. Qed.
  Lemma TZ_diag : forall m, TZ m m = 0.
  Proof. intros m. unfold TZ. rewrite H_high by lia. ring. Qed.
  Lemma col_Z : forall m, (m < deg)%nat -> col TZ m = rsum (fun k => TZ (S m + k)%nat m) (deg - S m).
  Proof.
    intros m Hm. unfold col. replace (deg - m)%nat with (S (deg - S m)) by lia. rewrite rsum_shift. rewrite Nat.add_0_r, TZ_diag, Rplus_0_l.
    apply rsum_ext. intros k Hk. f_equal. lia.
  Qed.
  Lemma tx : forall n m, (1 <= m)%nat -> 2 * INR m * w n * (cf n m * fst (dh n m y)) = TX n m.
  Proof. intros n m Hm. unfold TX, fac. replace (m =? 0)%nat with false by (symmetry; apply Nat.eqb_neq; lia). ring. Qed.
  Lemma ty : forall n m, (1 <= m)%nat -> 2 * INR m * w n * (cf n m * snd (dh n m y)) = - TY n m.
  Proof. intros n m Hm. unfold TY, fac. replace (m =? 0)%nat with false by (symmetry; apply Nat.eqb_neq; lia). ring. Qed.
  Lemma tz : forall n m, (m < n)%nat -> fac m * w n * sqrt ((INR n + INR (S m)) * (INR n - INR (S m) + 1)) * (cf n m * fst (dh n (S m) y)) = TZ n m.
  Proof.
    intros n m Hm. unfold TZ, dh. pose proof (norm_down n (S m) ltac:(lia) ltac:(lia)) as N. replace (S m - 1)%nat with m in * by lia. rewrite <- N.
    unfold Cmult, RtoC. cbn [fst snd]. ring.
  Qed.
End Loops.

Definition w3 (r : R) (n : nat) : R := r ^ n / (r * r * r).
Lemma w3_pow : forall r m, 0 < r -> (1 <= m)%nat -> pow_int r (Z.of_nat m - 3) = w3 r m.
Proof.
  intros r m Hr Hm. unfold w3. destruct (Nat.le_gt_cases 3 m) as [L|L].
  - replace (Z.of_nat m - 3)%Z with (Z.of_nat (m - 3)) by lia. rewrite pow_int_nat. replace m with (S (S (S (m - 3)))) at 2 by lia. cbn [pow]. field. lra.
  - destruct m as [|[|[|m]]]; try lia.
    + change (1 / (r * r) = r ^ 1 / (r * r * r)). field. lra.
    + change (1 / r = r ^ 2 / (r * r * r)). field. lra.
Qed.
Lemma w3_S : forall r n, w3 r n * r = w3 r (S n).
Proof. intros. unfold w3. cbn [pow]. unfold Rdiv. ring. Qed.

Lemma dsolid_value : forall x cs deg, x <> (0, 0, 0) -> (3 <= deg)%nat -> (deg * deg <= length cs)%nat ->
  let y := vscal (1 / vnorm x) x in let w := w3 (vnorm x) in
  nth (deg * deg - 1) cs 0 = 0 -> nth (deg * deg - 2) cs 0 = 0 -> nth (deg * (deg - 1) - (deg - 2)) cs 0 = 0 ->
  evaluate_dsolid_sphericals x cs deg = Some (rsum (col deg (TX cs y w)) deg, rsum (col deg (TY cs y w)) deg, rsum (col deg (TZ cs y w)) deg).
Proof.
  intros x cs deg Xn Hd Hl y w C1 C2 C3. unfold evaluate_dsolid_sphericals. rewrite (norm_unit x Xn). fold y. cbn [bind]. pose proof (vnorm_pos x Xn) as Pr.
  replace (deg =? 0)%nat with false by (symmetry; apply Nat.eqb_neq; lia). replace (deg =? 1)%nat with false by (symmetry; apply Nat.eqb_neq; lia).
  rewrite <- (dh_first y). set (r := vnorm x) in *.
  set (X := col deg (TX cs y w)). set (Y := col deg (TY cs y w)). set (Z := col deg (TZ cs y w)).
  match goal with |- bind (for_opt _ ?B _) _ = _ => set (body := B) end.
  destruct (for_opt_inv (fun i (st : vec3 * (R * R) * option R) => exists q, st = (rsum X (S i), rsum Y (S i), rsum Z i, dh (S i) (S i) y, q)
    /\ ((0 < i)%nat -> q = Some (w (deg - 1)%nat))) (deg - 2) body ((0, 0, 0), dh 1 1 y, None)) as [st [E [q [-> Hq]]]].
  - exists None. split; [|lia]. rewrite !rsum_S. cbn [rsum]. unfold X, Y. rewrite TX_0, TY_0, !Rplus_0_r. reflexivity.
  - intros i st Hi [q [-> _]]. unfold body. cbv zeta. set (m := S i) in *.
    assert (Hw : pow_int r (Z.of_nat m - 3) = w m) by (apply w3_pow; [exact Pr|lia]). rewrite Hw. clear Hw. rewrite dh_next.
    rewrite !get_some by (pose proof (idx_lt m m deg ltac:(lia) ltac:(lia)); pose proof (idx_lt (S m) m deg ltac:(lia) ltac:(lia)); nia). cbn [bind].
    replace ((m + 1) * (m + 2) + m)%nat with (S m * (S m + 1) + m)%nat by lia. replace ((m + 1) * (m + 2) + (m - 1))%nat with (S m * (S m + 1) + (m - 1))%nat by lia.
    fold (cf cs m m) (cf cs (S m) m) (cf cs m (m - 1)) (cf cs (S m) (m - 1)).
    replace (if (m =? 1)%nat then 1 else 2) with (fac i) by (unfold fac, m; cbn [Nat.eqb]; reflexivity).
    match goal with |- context [bind (if (m =? 1)%nat then ?a else ?b) _] => replace (if (m =? 1)%nat then a else b) with b end.
    2:{ destruct (Nat.eqb_spec m 1) as [Em|Em]; [|reflexivity]. cbn [bind]. rewrite Em, !dh_real, !Rmult_0_r, !Rplus_0_r. reflexivity. }
    cbn [bind]. replace (m - 1)%nat with i by lia.
    match goal with |- context [for_opt (deg - (m + 2)) ?B ?s] => destruct (for_opt_inv (fun k (st : R * R * R * (R * R) * (R * R) * R) =>
      st = ((rsum X m + rsum (fun k => TX cs y w (m + k)%nat m) (2 + k))%R, (rsum Y m + rsum (fun k => TY cs y w (m + k)%nat m) (2 + k))%R, (rsum Z i + rsum (fun k => TZ cs y w (m + k)%nat i) (2 + k))%R,
        dh (m + k) m y, dh (m + 1 + k) m y, w (m + 1 + k)%nat)) (deg - (m + 2)) B s) as [st [E ->]] end.
    + rewrite !Nat.add_0_r. replace (m + 1)%nat with (S m) by lia. 
      assert (Zm := tz cs y w m i ltac:(lia)). assert (Zs := tz cs y w (S m) i ltac:(lia)). fold m in Zm, Zs.
      replace ((INR m + INR m) * (INR m - INR m + 1)) with (2 * INR m) in Zm by ring. replace ((INR (S m) + INR m) * (INR (S m) - INR m + 1)) with (4 * INR m + 2) in Zs by (rewrite S_INR; ring).
      assert (Xm := tx cs y w m m ltac:(lia)). assert (Xs := tx cs y w (S m) m ltac:(lia)). assert (Ym := ty cs y w m m ltac:(lia)). assert (Ys := ty cs y w (S m) m ltac:(lia)).
      assert (Ws : w (S m) = w m * r) by (unfold w; rewrite w3_S; reflexivity). rewrite Ws in *.
      cbn [rsum Nat.add]. rewrite ?Nat.add_0_r. replace (m + 1)%nat with (S m) by lia. rewrite <- Zm, <- Zs, <- Xm, <- Xs.
      replace (TY cs y w m m) with (- (2 * INR m * w m * (cf cs m m * snd (dh m m y)))) by (rewrite Ym; ring). replace (TY cs y w (S m) m) with (- (2 * INR m * (w m * r) * (cf cs (S m) m * snd (dh (S m) m y)))) by (rewrite Ys; ring).
      repeat (apply injective_projections; cbn [fst snd]); try reflexivity; ring.
    + intros k st Hk ->. cbv zeta. rewrite !get_some by (pose proof (idx_lt (m + 2 + k) m deg ltac:(lia) ltac:(lia)); lia). cbn [bind]. rewrite dh_step. eexists. split; [reflexivity|].
      replace (m + S k)%nat with (m + 1 + k)%nat by lia. replace (m + 1 + S k)%nat with (m + 2 + k)%nat by lia.
      assert (Ws : w (m + 1 + k)%nat * r = w (m + 2 + k)%nat) by (unfold w; rewrite w3_S; f_equal; lia). rewrite Ws.
      replace (2 + S k)%nat with (S (2 + k)) by lia. rewrite !rsum_S. replace (m + (2 + k))%nat with (m + 2 + k)%nat by lia.
      rewrite <- (tz cs y w (m + 2 + k) i ltac:(lia)), <- (tx cs y w (m + 2 + k) m ltac:(lia)). fold m. unfold cf.
      replace (TY cs y w (m + 2 + k) m) with (- (2 * INR m * w (m + 2 + k)%nat * (cf cs (m + 2 + k) m * snd (dh (m + 2 + k) m y)))) by (rewrite ty by lia; ring). unfold cf.
      repeat (apply injective_projections; cbn [fst snd]); try reflexivity; ring.
    + eexists. split; [eapply bind_eq; [exact E|cbn [fst snd]; reflexivity]|]. exists (Some (w (m + 1 + (deg - (m + 2)))%nat)). split; [|intros _; f_equal; f_equal; lia].
      rewrite dh_start by lia. f_equal. f_equal. rewrite !(rsum_S _ m). change (rsum Z m) with (rsum Z i + Z i).
      assert (EX : X m = rsum (fun k => TX cs y w (m + k)%nat m) (2 + (deg - (m + 2)))) by (unfold X, col; f_equal; lia).
      assert (EY : Y m = rsum (fun k => TY cs y w (m + k)%nat m) (2 + (deg - (m + 2)))) by (unfold Y, col; f_equal; lia).
      assert (EZ : Z i = rsum (fun k => TZ cs y w (m + k)%nat i) (2 + (deg - (m + 2)))) by (unfold Z; rewrite col_Z by lia; unfold m; f_equal; lia).
      rewrite EX, EY, EZ. reflexivity.
  - rewrite (Hq ltac:(lia)) in E. eapply bind_eq; [exact E|]. cbn [bind]. rewrite !get_some by nia. cbn [bind].
    replace ((deg - 1) * (deg + 1))%nat with (deg * deg - 1)%nat by nia. replace (deg * (deg - 1) + (deg - 2))%nat with (deg * deg - 2)%nat by nia. rewrite C1, C2, C3. f_equal.
    assert (SX : rsum X deg = rsum X (S (deg - 2))).
    { replace deg with (S (S (deg - 2))) at 1 by lia. rewrite rsum_S. replace (X (S (deg - 2))) with 0; [ring|]. unfold X, col. replace (deg - S (deg - 2))%nat with 1%nat by lia. rewrite rsum_S. cbn [rsum]. rewrite Nat.add_0_r. unfold TX, cf. replace (S (deg - 2) * (S (deg - 2) + 1) + S (deg - 2))%nat with (deg * deg - 1)%nat by nia. rewrite C1. ring. }
    assert (SY : rsum Y deg = rsum Y (S (deg - 2))).
    { replace deg with (S (S (deg - 2))) at 1 by lia. rewrite rsum_S. replace (Y (S (deg - 2))) with 0; [ring|]. unfold Y, col. replace (deg - S (deg - 2))%nat with 1%nat by lia. rewrite rsum_S. cbn [rsum]. rewrite Nat.add_0_r. unfold TY, cf. replace (S (deg - 2) * (S (deg - 2) + 1) + S (deg - 2))%nat with (deg * deg - 1)%nat by nia. rewrite C1. ring. }
    assert (SZ : rsum Z deg = rsum Z (deg - 2)).
    { replace deg with (S (S (deg - 2))) at 1 by lia. rewrite !rsum_S. replace (Z (S (deg - 2))) with 0; [replace (Z (deg - 2)%nat) with 0; [ring|]|].
      - unfold Z. rewrite col_Z by lia. replace (deg - S (deg - 2))%nat with 1%nat by lia. rewrite rsum_S. cbn [rsum]. rewrite Nat.add_0_r. unfold TZ, cf. replace (S (deg - 2) * (S (deg - 2) + 1) + (deg - 2))%nat with (deg * deg - 2)%nat by nia. rewrite C2. ring.
      - unfold Z. rewrite col_Z by lia. replace (deg - S (S (deg - 2)))%nat with 0%nat by lia. reflexivity. }
    rewrite SX, SY, SZ. repeat (apply injective_projections; cbn [fst snd]); ring.
Qed.

Lemma dspherical_value : forall x cs deg, vnorm x = 1 -> (2 <= deg)%nat -> (deg * deg <= length cs)%nat ->
  let w := fun _ : nat => 1 in
  nth (deg * deg - 2) cs 0 = 0 -> nth (deg * (deg - 1) - (deg - 2)) cs 0 = 0 ->
  evaluate_dsphericals x cs deg = Some (rsum (col deg (TX cs x w)) deg, rsum (col deg (TY cs x w)) deg, rsum (col deg (TZ cs x w)) deg).
Proof.
  intros x cs deg Xn Hd Hl w C2 C3. unfold evaluate_dsphericals. rewrite Xn. replace (Rabs (1 - 1)) with 0 by (rewrite Rminus_eq_0, Rabs_R0; reflexivity).
  destruct (Rlt_dec 0 (1 / 1000000)) as [_|N]; [|lra]. cbn [assert bind].
  replace (deg =? 0)%nat with false by (symmetry; apply Nat.eqb_neq; lia). replace (deg =? 1)%nat with false by (symmetry; apply Nat.eqb_neq; lia).
  rewrite <- (dh_first x).
  set (X := col deg (TX cs x w)). set (Y := col deg (TY cs x w)). set (Z := col deg (TZ cs x w)).
  match goal with |- bind (for_opt _ ?B _) _ = _ => set (body := B) end.
  destruct (for_opt_inv (fun i (st : vec3 * (R * R)) => st = (rsum X (S i), rsum Y (S i), rsum Z i, dh (S i) (S i) x)) (deg - 2) body ((0, 0, 0), dh 1 1 x)) as [st [E ->]].
  - rewrite !rsum_S. cbn [rsum]. unfold X, Y. rewrite TX_0, TY_0, !Rplus_0_r. reflexivity.
  - intros i st Hi ->. unfold body. cbv zeta. set (m := S i) in *. rewrite dh_next.
    rewrite !get_some by (pose proof (idx_lt m m deg ltac:(lia) ltac:(lia)); pose proof (idx_lt (S m) m deg ltac:(lia) ltac:(lia)); nia). cbn [bind].
    replace ((m + 1) * (m + 2) + m)%nat with (S m * (S m + 1) + m)%nat by lia. replace ((m + 1) * (m + 2) + (m - 1))%nat with (S m * (S m + 1) + (m - 1))%nat by lia.
    fold (cf cs m m) (cf cs (S m) m) (cf cs m (m - 1)) (cf cs (S m) (m - 1)).
    replace (if (m =? 1)%nat then 1 else 2) with (fac i) by (unfold fac, m; cbn [Nat.eqb]; reflexivity).
    match goal with |- context [bind (if (m =? 1)%nat then ?a else ?b) _] => replace (if (m =? 1)%nat then a else b) with b end.
    2:{ destruct (Nat.eqb_spec m 1) as [Em|Em]; [|reflexivity]. cbn [bind]. rewrite Em, !dh_real, !Rmult_0_r, !Rplus_0_r. reflexivity. }
    cbn [bind]. replace (m - 1)%nat with i by lia.
    match goal with |- context [for_opt (deg - (m + 2)) ?B ?s] => destruct (for_opt_inv (fun k (st : R * R * R * (R * R) * (R * R)) =>
      st = ((rsum X m + rsum (fun k => TX cs x w (m + k)%nat m) (2 + k))%R, (rsum Y m + rsum (fun k => TY cs x w (m + k)%nat m) (2 + k))%R, (rsum Z i + rsum (fun k => TZ cs x w (m + k)%nat i) (2 + k))%R,
        dh (m + k) m x, dh (m + 1 + k) m x)) (deg - (m + 2)) B s) as [st [E ->]] end.
    + rewrite !Nat.add_0_r. replace (m + 1)%nat with (S m) by lia. 
      assert (Zm := tz cs x w m i ltac:(lia)). assert (Zs := tz cs x w (S m) i ltac:(lia)). fold m in Zm, Zs.
      replace ((INR m + INR m) * (INR m - INR m + 1)) with (2 * INR m) in Zm by ring. replace ((INR (S m) + INR m) * (INR (S m) - INR m + 1)) with (4 * INR m + 2) in Zs by (rewrite S_INR; ring).
      assert (Xm := tx cs x w m m ltac:(lia)). assert (Xs := tx cs x w (S m) m ltac:(lia)). assert (Ym := ty cs x w m m ltac:(lia)). assert (Ys := ty cs x w (S m) m ltac:(lia)).
      cbn [rsum Nat.add]. rewrite ?Nat.add_0_r. replace (m + 1)%nat with (S m) by lia. rewrite <- Zm, <- Zs, <- Xm, <- Xs.
      replace (TY cs x w m m) with (- (2 * INR m * w m * (cf cs m m * snd (dh m m x)))) by (rewrite Ym; ring). replace (TY cs x w (S m) m) with (- (2 * INR m * w (S m) * (cf cs (S m) m * snd (dh (S m) m x)))) by (rewrite Ys; ring).
      unfold w. repeat (apply injective_projections; cbn [fst snd]); try reflexivity; ring.
    + intros k st Hk ->. cbv zeta. rewrite !get_some by (pose proof (idx_lt (m + 2 + k) m deg ltac:(lia) ltac:(lia)); lia). cbn [bind]. rewrite dh_step. eexists. split; [reflexivity|].
      replace (m + S k)%nat with (m + 1 + k)%nat by lia. replace (m + 1 + S k)%nat with (m + 2 + k)%nat by lia.
      replace (2 + S k)%nat with (S (2 + k)) by lia. rewrite !rsum_S. replace (m + (2 + k))%nat with (m + 2 + k)%nat by lia.
      rewrite <- (tz cs x w (m + 2 + k) i ltac:(lia)), <- (tx cs x w (m + 2 + k) m ltac:(lia)). fold m. unfold cf.
      replace (TY cs x w (m + 2 + k) m) with (- (2 * INR m * w (m + 2 + k)%nat * (cf cs (m + 2 + k) m * snd (dh (m + 2 + k) m x)))) by (rewrite ty by lia; ring). unfold cf.
      set (S1 := rsum _ _). set (S2 := rsum _ _). unfold w at 3 5 7. repeat (apply injective_projections; cbn [fst snd]); try reflexivity; unfold w; ring.
    + eexists. split; [eapply bind_eq; [exact E|cbn [fst snd]; reflexivity]|].
      rewrite dh_start by lia. f_equal. rewrite !(rsum_S _ m). change (rsum Z m) with (rsum Z i + Z i).
      assert (EX : X m = rsum (fun k => TX cs x w (m + k)%nat m) (2 + (deg - (m + 2)))) by (unfold X, col; f_equal; lia).
      assert (EY : Y m = rsum (fun k => TY cs x w (m + k)%nat m) (2 + (deg - (m + 2)))) by (unfold Y, col; f_equal; lia).
      assert (EZ : Z i = rsum (fun k => TZ cs x w (m + k)%nat i) (2 + (deg - (m + 2)))) by (unfold Z; rewrite col_Z by lia; unfold m; f_equal; lia).
      rewrite EX, EY, EZ. reflexivity.
  - eapply bind_eq; [exact E|]. cbn [bind]. rewrite !get_some by nia. cbn [bind].
    replace ((deg - 1) * (deg + 1))%nat with (deg * deg - 1)%nat by nia. replace (deg * (deg - 1) + (deg - 2))%nat with (deg * deg - 2)%nat by nia. rewrite C2, C3. f_equal.
    assert (Ed : INR deg - 1 = INR (S (deg - 2))) by (replace deg with (S (S (deg - 2))) at 1 by lia; rewrite S_INR; ring).
    assert (SX : rsum X deg = rsum X (S (deg - 2)) + TX cs x w (S (deg - 2)) (S (deg - 2))).
    { replace deg with (S (S (deg - 2))) at 1 by lia. rewrite rsum_S. f_equal. unfold X, col. replace (deg - S (deg - 2))%nat with 1%nat by lia. rewrite rsum_S. cbn [rsum]. rewrite Nat.add_0_r. ring. }
    assert (SY : rsum Y deg = rsum Y (S (deg - 2)) + TY cs x w (S (deg - 2)) (S (deg - 2))).
    { replace deg with (S (S (deg - 2))) at 1 by lia. rewrite rsum_S. f_equal. unfold Y, col. replace (deg - S (deg - 2))%nat with 1%nat by lia. rewrite rsum_S. cbn [rsum]. rewrite Nat.add_0_r. ring. }
    assert (SZ : rsum Z deg = rsum Z (deg - 2)).
    { replace deg with (S (S (deg - 2))) at 1 by lia. rewrite !rsum_S. replace (Z (S (deg - 2))) with 0; [replace (Z (deg - 2)%nat) with 0; [ring|]|].
      - unfold Z. rewrite col_Z by lia. replace (deg - S (deg - 2))%nat with 1%nat by lia. rewrite rsum_S. cbn [rsum]. rewrite Nat.add_0_r. unfold TZ, cf. replace (S (deg - 2) * (S (deg - 2) + 1) + (deg - 2))%nat with (deg * deg - 2)%nat by nia. rewrite C2. ring.
      - unfold Z. rewrite col_Z by lia. replace (deg - S (S (deg - 2)))%nat with 0%nat by lia. reflexivity. }
    rewrite SX, SY, SZ, Ed. set (p := S (deg - 2)). rewrite <- (tx cs x w p p) by lia. replace (TY cs x w p p) with (- (2 * INR p * w p * (cf cs p p * snd (dh p p x)))) by (rewrite ty by lia; ring).
    unfold cf. replace (p * (p + 1) + p)%nat with (deg * deg - 1)%nat by (unfold p; nia).
    repeat (apply injective_projections; cbn [fst snd]); try ring; unfold w; ring.
Qed.
