(** The functions of Sphericals.hpp compute spherical harmonics. *)
From Coq Require Import Reals Arith Bool List Lia Lra ZArith.
From Coquelicot Require Import Coquelicot.
From Verif Require Import ModelBase RSum ModelBall SpecOperators ProofOperators ProofPotential ModelSpherical SpecSpherical ProofSpherical.
Import ListNotations.
Local Open Scope R_scope.

Lemma sqrt_rel : forall A B C k, 0 <= A -> 0 <= B -> 0 <= C -> 0 <= k -> A * B = k * k * C -> sqrt A * sqrt B = k * sqrt C.
Proof. intros A B C k HA HB HC Hk E. rewrite <- sqrt_mult by assumption. rewrite E. rewrite sqrt_mult by nra. rewrite sqrt_square by assumption. reflexivity. Qed.
Lemma fact_pos : forall n, 0 < INR (fact n).
Proof. intros n. apply lt_0_INR. apply lt_O_fact. Qed.
Lemma factS : forall n, INR (fact (S n)) = (INR n + 1) * INR (fact n).
Proof. intros n. rewrite fact_simpl, mult_INR, S_INR. reflexivity. Qed.
Lemma norm_nonneg : forall n m, 0 <= (2 * INR n + 1) / (4 * PI) * (INR (fact (n - m)) / INR (fact (n + m))).
Proof.
  intros n m. pose proof (pos_INR n). pose proof PI_RGT_0. pose proof (fact_pos (n - m)). pose proof (fact_pos (n + m)).
  apply Rmult_le_pos; apply Rlt_le; apply Rdiv_lt_0_compat; lra.
Qed.

Lemma norm_next : forall m, sqrt (2 * INR m + 3) * harmonic_norm m m = (2 * INR m + 1) * harmonic_norm (S m) m.
Proof.
  intros m. unfold harmonic_norm. pose proof (pos_INR m). apply sqrt_rel; try apply norm_nonneg; try lra.
  rewrite S_INR, Nat.sub_diag. replace (S m - m)%nat with 1%nat by lia. replace (S m + m)%nat with (S (m + m)) by lia. rewrite !factS, plus_INR. cbn [fact INR].
  pose proof PI_RGT_0. pose proof (fact_pos (m + m)). field. repeat split; lra.
Qed.
Lemma norm_start : forall m, sqrt ((2 * INR m + 3) / (2 * INR m + 2)) * harmonic_norm m m = (2 * INR m + 1) * harmonic_norm (S m) (S m).
Proof.
  intros m. unfold harmonic_norm. pose proof (pos_INR m). apply sqrt_rel; try apply norm_nonneg; try lra.
  - apply Rlt_le, Rdiv_lt_0_compat; lra.
  - rewrite S_INR, !Nat.sub_diag. replace (S m + S m)%nat with (S (S (m + m))) by lia. rewrite !factS, S_INR, plus_INR. cbn [fact INR].
    pose proof PI_RGT_0. pose proof (fact_pos (m + m)). field. repeat split; lra.
Qed.
Lemma norm_step1 : forall m k, let n := (m + 2 + k)%nat in
  sqrt ((2 * INR n + 1) / ((INR n - INR m) * (INR n + INR m))) * (sqrt (2 * INR n - 1) * harmonic_norm (m + 1 + k) m) = (2 * INR n - 1) / (INR n - INR m) * harmonic_norm n m.
Proof.
  intros m k n. pose proof (pos_INR m). pose proof (pos_INR k). assert (En : INR n = INR m + 2 + INR k) by (unfold n; rewrite !plus_INR; cbn [INR]; lra).
  assert (E1 : INR (m + 1 + k) = INR m + 1 + INR k) by (rewrite !plus_INR; cbn [INR]; lra).
  unfold harmonic_norm. replace (n - m)%nat with (S (S k)) by (unfold n; lia). replace (n + m)%nat with (S (S (m + m + k))) by (unfold n; lia).
  replace (m + 1 + k - m)%nat with (S k) by lia. replace (m + 1 + k + m)%nat with (S (m + m + k)) by lia. rewrite !factS, !S_INR, !plus_INR. rewrite En. cbn [INR].
  pose proof PI_RGT_0. pose proof (fact_pos (m + m + k)). pose proof (fact_pos k).
  rewrite <- sqrt_mult; [|lra|apply Rmult_le_pos; [apply Rlt_le, Rdiv_lt_0_compat; lra|apply Rlt_le, Rdiv_lt_0_compat; nra]].
  apply sqrt_rel.
  - apply Rlt_le, Rdiv_lt_0_compat; nra.
  - apply Rmult_le_pos; [lra|]. apply Rmult_le_pos; [apply Rlt_le, Rdiv_lt_0_compat; lra|apply Rlt_le, Rdiv_lt_0_compat; nra].
  - apply Rmult_le_pos; [apply Rlt_le, Rdiv_lt_0_compat; lra|apply Rlt_le, Rdiv_lt_0_compat; [|repeat apply Rmult_lt_0_compat; lra]]. repeat apply Rmult_lt_0_compat; lra.
  - apply Rlt_le, Rdiv_lt_0_compat; lra.
  - field. repeat split; lra.
Qed.
Lemma norm_step2 : forall m k, let n := (m + 2 + k)%nat in
  sqrt ((2 * INR n + 1) / ((INR n - INR m) * (INR n + INR m))) * (sqrt (((INR n + INR m - 1) * (INR n - INR m - 1)) / (2 * INR n - 3)) * harmonic_norm (m + k) m) = (INR n + INR m - 1) / (INR n - INR m) * harmonic_norm n m.
Proof.
  intros m k n. pose proof (pos_INR m). pose proof (pos_INR k). assert (En : INR n = INR m + 2 + INR k) by (unfold n; rewrite !plus_INR; cbn [INR]; lra).
  unfold harmonic_norm. replace (n - m)%nat with (S (S k)) by (unfold n; lia). replace (n + m)%nat with (S (S (m + m + k))) by (unfold n; lia).
  replace (m + k - m)%nat with k by lia. replace (m + k + m)%nat with (m + m + k)%nat by lia. rewrite !factS, !S_INR, !plus_INR. rewrite En.
  pose proof PI_RGT_0. pose proof (fact_pos (m + m + k)). pose proof (fact_pos k).
  rewrite <- sqrt_mult.
  - apply sqrt_rel.
    + apply Rlt_le, Rdiv_lt_0_compat; nra.
    + apply Rmult_le_pos; [apply Rlt_le, Rdiv_lt_0_compat; nra|]. apply Rmult_le_pos; [apply Rlt_le, Rdiv_lt_0_compat; lra|apply Rlt_le, Rdiv_lt_0_compat; nra].
    + apply Rmult_le_pos; [apply Rlt_le, Rdiv_lt_0_compat; lra|apply Rlt_le, Rdiv_lt_0_compat; [|repeat apply Rmult_lt_0_compat; lra]]. repeat apply Rmult_lt_0_compat; lra.
    + apply Rlt_le, Rdiv_lt_0_compat; lra.
    + field. repeat split; lra.
  - apply Rlt_le, Rdiv_lt_0_compat; nra.
  - apply Rmult_le_pos; [apply Rlt_le, Rdiv_lt_0_compat; lra|apply Rlt_le, Rdiv_lt_0_compat; nra].
Qed.

(** the steps of the recursions *)
Lemma harmonic00 : forall y, harmonic 0 0 y = (0.5 / sqrt PI, 0).
Proof.
  intros y. rewrite harmonic_value. unfold harmonic_norm, W. cbn [cpower]. rewrite H_O. cbn [Nat.eqb Nat.sub Nat.add fact INR]. pose proof PI_RGT_0 as P.
  assert (E : ((2 * 0 + 1) / (4 * PI) * (1 / 1) = (/ 2 * / 2) / PI)%R) by (field; lra). rewrite E. rewrite sqrt_div by lra. rewrite sqrt_square by lra.
  unfold Cmult, RtoC. cbn [fst snd]. assert (D : (0.5 = / 2)%R) by lra. rewrite D. f_equal; ring.
Qed.
Lemma harmonic_next : forall m y, csmul (sqrt (2 * INR m + 3) * vz y) (harmonic m m y) = harmonic (S m) m y.
Proof.
  intros m y. rewrite !harmonic_value. pose proof (norm_next m) as E. pose proof (H_low m m (vz y) 1 ltac:(lia)) as Q. rewrite (H1_high m m) in Q by lia.
  assert (Q' : H (S m) m (vz y) 1 = (2 * INR m + 1) * vz y * H m m (vz y) 1) by lra. rewrite Q'. unfold csmul, Cmult, RtoC. cbn [fst snd].
  f_equal; rewrite ?Rmult_0_l, ?Rminus_0_r, ?Rplus_0_r.
  - transitivity (sqrt (2 * INR m + 3) * harmonic_norm m m * (vz y * H m m (vz y) 1 * fst (W y m))); [ring|]. rewrite E. ring.
  - transitivity (sqrt (2 * INR m + 3) * harmonic_norm m m * (vz y * H m m (vz y) 1 * snd (W y m))); [ring|]. rewrite E. ring.
Qed.
Lemma harmonic_start : forall m y, next_start m y (harmonic m m y) = harmonic (S m) (S m) y.
Proof.
  intros m y. rewrite !harmonic_value. pose proof (norm_start m) as E. rewrite H_diag. unfold next_start, csmul, W, Cmult, RtoC. cbn [cpower fst snd]. unfold Cmult. cbn [fst snd].
  set (a := fst (cpower (vx y) (vy y) m)). set (b := snd (cpower (vx y) (vy y) m)). f_equal.
  - transitivity (sqrt ((2 * INR m + 3) / (2 * INR m + 2)) * harmonic_norm m m * (H m m (vz y) 1 * (vx y * a - vy y * b))); [ring|]. rewrite E. ring.
  - transitivity (sqrt ((2 * INR m + 3) / (2 * INR m + 2)) * harmonic_norm m m * (H m m (vz y) 1 * (vx y * b + vy y * a))); [ring|]. rewrite E. ring.
Qed.
Lemma harmonic_step : forall m k y, next_z m (m + 2 + k) (vz y) (harmonic (m + k) m y) (harmonic (m + 1 + k) m y) = harmonic (m + 2 + k) m y.
Proof.
  intros m k y. rewrite !harmonic_value. pose proof (norm_step1 m k) as E1. pose proof (norm_step2 m k) as E2. cbv zeta in E1, E2.
  pose proof (H_low (m + 1 + k) m (vz y) 1 ltac:(lia)) as Q. replace (S (m + 1 + k)) with (m + 2 + k)%nat in Q by lia.
  assert (E3 : H1 (m + 1 + k) m (vz y) 1 = H (m + k) m (vz y) 1) by (replace (m + 1 + k)%nat with (S (m + k)) by lia; reflexivity). rewrite E3 in Q.
  assert (Q' : H (m + 2 + k) m (vz y) 1 = ((2 * INR (m + 2 + k) - 1) * vz y * H (m + 1 + k) m (vz y) 1 - (INR (m + 2 + k) + INR m - 1) * H (m + k) m (vz y) 1) / (INR (m + 2 + k) - INR m)).
  { pose proof (pos_INR k). pose proof (pos_INR m). replace (INR (m + 2 + k)) with (INR m + 2 + INR k) by (rewrite !plus_INR; cbn [INR]; lra).
    replace (INR (m + 1 + k)) with (INR m + 1 + INR k) in Q by (rewrite !plus_INR; cbn [INR]; lra). 
    apply (Rmult_eq_reg_l (INR m + 1 + INR k + 1 - INR m)); [|lra]. rewrite Q. field. lra. }
  rewrite Q'. unfold next_z, Cmult, RtoC. cbn [fst snd].
  set (r2 := sqrt ((2 * INR (m + 2 + k) + 1) / ((INR (m + 2 + k) - INR m) * (INR (m + 2 + k) + INR m)))) in *.
  set (q1 := sqrt (2 * INR (m + 2 + k) - 1)) in *. set (q3 := sqrt ((INR (m + 2 + k) + INR m - 1) * (INR (m + 2 + k) - INR m - 1) / (2 * INR (m + 2 + k) - 3))) in *.
  assert (Hn : INR (m + 2 + k) - INR m <> 0) by (rewrite !plus_INR; cbn [INR]; pose proof (pos_INR k); lra).
  f_equal.
  - transitivity (r2 * (q1 * harmonic_norm (m + 1 + k) m) * (vz y * H (m + 1 + k) m (vz y) 1 * fst (W y m)) - r2 * (q3 * harmonic_norm (m + k) m) * (H (m + k) m (vz y) 1 * fst (W y m))); [ring|]. rewrite E1, E2. field. exact Hn.
  - transitivity (r2 * (q1 * harmonic_norm (m + 1 + k) m) * (vz y * H (m + 1 + k) m (vz y) 1 * snd (W y m)) - r2 * (q3 * harmonic_norm (m + k) m) * (H (m + k) m (vz y) 1 * snd (W y m))); [ring|]. rewrite E1, E2. field. exact Hn.
Qed.

(** ** series *)
Definition fac (m : nat) : R := if (m =? 0)%nat then 1 else 2.
Lemma bind_eq : forall A B (a : option A) (f : A -> option B) v r, a = Some v -> f v = r -> bind a f = r.
Proof. intros; subst; reflexivity. Qed.
Lemma rsum_S : forall f n, rsum f (S n) = rsum f n + f n.
Proof. reflexivity. Qed.
Lemma tri_swap : forall (T : nat -> nat -> R) d, rsum (fun m => rsum (fun k => T (m + k)%nat m) (d - m)) d = rsum (fun n => rsum (fun m => T n m) (n + 1)) d.
Proof.
  intros T d. induction d as [|d IH]; [reflexivity|].
  cbn [rsum]. rewrite <- IH. replace (S d - d)%nat with 1%nat by lia. cbn [rsum].
  rewrite (rsum_ext (fun m => rsum (fun k => T (m + k)%nat m) (S d - m)) (fun m => (rsum (fun k => T (m + k)%nat m) (d - m) + T d m)%R)).
  - rewrite rsum_plus. rewrite !Nat.add_0_r, Nat.add_1_r. cbn [rsum]. change (fun m => T d m) with (T d). ring.
  - intros m Hm. replace (S d - m)%nat with (S (d - m)) by lia. cbn [rsum]. replace (m + (d - m))%nat with d by lia. reflexivity.
Qed.
Lemma series_half : forall cs N f, symmetric_coefficients cs N ->
  series cs N f = rsum (fun n => rsum (fun m => fac m * nth (n * (n + 1) + m) cs 0 * f n m) (n + 1)) N.
Proof.
  intros cs N f S. unfold series. apply rsum_ext. intros n Hn. replace (2 * n + 1)%nat with (n + (n + 1))%nat by lia. rewrite rsum_split.
  replace (n + 1)%nat with (Datatypes.S n) by lia. rewrite !rsum_shift. rewrite (rsum_rev (fun j => nth (n * n + j) cs 0 * f n (order_of n j)) n).
  unfold fac at 1. cbn [Nat.eqb]. rewrite Nat.add_0_r.
  assert (A : rsum (fun i => nth (n * n + (n - 1 - i)) cs 0 * f n (order_of n (n - 1 - i))) n = rsum (fun i => nth (n * n + n + Datatypes.S i) cs 0 * f n (Datatypes.S i)) n).
  { apply rsum_ext. intros i Hi. rewrite <- (S n (Datatypes.S i) Hn ltac:(lia)). replace (n * n + (n - 1 - i))%nat with (n * n + n - Datatypes.S i)%nat by lia.
    unfold order_of. replace (n - 1 - i <? n)%nat with true by (symmetry; apply Nat.ltb_lt; lia). replace (n - (n - 1 - i))%nat with (Datatypes.S i) by lia. reflexivity. }
  rewrite A. unfold order_of. rewrite Nat.ltb_irrefl, Nat.sub_diag.
  rewrite (rsum_ext (fun i => nth (n * n + (n + Datatypes.S i)) cs 0 * f n (if (n + Datatypes.S i <? n)%nat then (n - (n + Datatypes.S i))%nat else (n + Datatypes.S i - n)%nat)) (fun i => nth (n * n + n + Datatypes.S i) cs 0 * f n (Datatypes.S i)))
    by (intros i Hi; replace (n + Datatypes.S i <? n)%nat with false by (symmetry; apply Nat.ltb_ge; lia); replace (n + Datatypes.S i - n)%nat with (Datatypes.S i) by lia; rewrite Nat.add_assoc; reflexivity).
  rewrite (rsum_ext (fun i => fac (Datatypes.S i) * nth (n * (Datatypes.S n) + Datatypes.S i) cs 0 * f n (Datatypes.S i)) (fun i => (nth (n * n + n + Datatypes.S i) cs 0 * f n (Datatypes.S i) + nth (n * n + n + Datatypes.S i) cs 0 * f n (Datatypes.S i))%R))
    by (intros i Hi; unfold fac; cbn [Nat.eqb]; replace (n * Datatypes.S n)%nat with (n * n + n)%nat by lia; ring).
  rewrite rsum_plus. replace (n * Datatypes.S n + 0)%nat with (n * n + n)%nat by lia. ring.
Qed.
Lemma get_some : forall (cs : list R) i, (i < length cs)%nat -> get cs i = Some (nth i cs 0).
Proof. intros. apply get_nth. assumption. Qed.
Lemma idx_lt : forall n m deg, (n < deg)%nat -> (m <= n)%nat -> (n * (n + 1) + m < deg * deg)%nat.
Proof. intros n m deg H1 H2. nia. Qed.

Definition term (cs : list R) (y : vec3) (w : nat -> R) (n m : nat) : R := fac m * w n * nth (n * (n + 1) + m) cs 0 * fst (harmonic n m y).

(** evaluate_sphericals: all terms with n < deg *)
Lemma sphericals_value : forall x cs deg, vnorm x = 1 -> (1 <= deg)%nat -> (deg * deg <= length cs)%nat ->
  evaluate_sphericals x cs deg = Some (rsum (fun n => rsum (fun m => fac m * nth (n * (n + 1) + m) cs 0 * fst (harmonic n m x)) (n + 1)) deg).
Proof.
  intros x cs deg Hx Hd Hl. unfold evaluate_sphericals. rewrite Hx. replace (Rabs (1 - 1)) with 0 by (rewrite Rminus_eq_0, Rabs_R0; reflexivity).
  destruct (Rlt_dec 0 (1 / 1000000)) as [_|N]; [|lra]. cbn [assert bind]. rewrite <- (harmonic00 x).
  destruct (Nat.leb_spec deg 1) as [L|L].
  - assert (deg = 1%nat) by lia. subst deg. rewrite get_some by lia. cbn [bind rsum Nat.add Nat.mul]. unfold fac. cbn [Nat.eqb]. f_equal. ring.
  - set (T := fun n m => fac m * nth (n * (n + 1) + m) cs 0 * fst (harmonic n m x)).
    destruct (for_opt_inv (fun m (st : R * (R * R)) => st = (rsum (fun m => rsum (fun k => T (m + k)%nat m) (deg - m)) m, harmonic m m x)) (deg - 1)
      (fun m st => let '(r, z1_start) := st in
        let fac := if (m =? 0)%nat then 1 else 2 in
        let z2 := csmul (sqrt (2 * INR m + 3) * vz x) z1_start in
        c1 <- get cs (m * (m + 1) + m) ;; c2 <- get cs ((m + 1) * (m + 2) + m) ;;
        let r := r + fac * c1 * fst z1_start + fac * c2 * fst z2 in
        st <- for_opt (deg - (m + 2)) (fun k st =>
          let n := (m + 2 + k)%nat in let '(r, z1, z2) := st in
          let z3 := next_z m n (vz x) z1 z2 in
          c <- get cs (n * (n + 1) + m) ;;
          Some (r + fac * c * fst z3, z2, z3)) (r, z1_start, z2) ;;
        Some (fst (fst st), next_start m x z1_start)) (0, harmonic 0 0 x)) as [st [E ->]].
    + reflexivity.
    + intros m st Hm ->. rewrite harmonic_next. rewrite !get_some by (pose proof (idx_lt m m deg); pose proof (idx_lt (S m) m deg); nia). cbn [bind].
      destruct (for_opt_inv (fun k (st : R * (R * R) * (R * R)) => st = ((rsum (fun m => rsum (fun k => T (m + k)%nat m) (deg - m)) m + rsum (fun k => T (m + k)%nat m) (2 + k))%R, harmonic (m + k) m x, harmonic (m + 1 + k) m x)) (deg - (m + 2))
        (fun k st => let n := (m + 2 + k)%nat in let '(r, z1, z2) := st in
          let z3 := next_z m n (vz x) z1 z2 in
          c <- get cs (n * (n + 1) + m) ;;
          Some (r + (if (m =? 0)%nat then 1 else 2) * c * fst z3, z2, z3)) (rsum (fun m0 => rsum (fun k => T (m0 + k)%nat m0) (deg - m0)) m + (if (m =? 0)%nat then 1 else 2) * nth (m * (m + 1) + m) cs 0 * fst (harmonic m m x) +
            (if (m =? 0)%nat then 1 else 2) * nth ((m + 1) * (m + 2) + m) cs 0 * fst (harmonic (S m) m x), harmonic m m x, harmonic (S m) m x)) as [st [E ->]].
      * rewrite !Nat.add_0_r. replace (m + 1)%nat with (S m) by lia. f_equal. f_equal. cbn [rsum]. unfold T, fac. rewrite !Nat.add_0_r. replace (m + 1)%nat with (S m) by lia. replace (S m + 1)%nat with (m + 2)%nat by lia. ring.
      * intros k st Hk ->. cbv zeta. rewrite get_some by (pose proof (idx_lt (m + 2 + k) m deg ltac:(lia) ltac:(lia)); lia). cbn [bind]. rewrite harmonic_step. eexists. split; [reflexivity|].
        replace (m + S k)%nat with (m + 1 + k)%nat by lia. replace (m + 1 + S k)%nat with (m + 2 + k)%nat by lia. f_equal. f_equal. replace (2 + S k)%nat with (S (2 + k)) by lia. rewrite rsum_S. replace (m + (2 + k))%nat with (m + 2 + k)%nat by lia. rewrite Rplus_assoc. reflexivity.
      * cbv zeta in E |- *. eexists. split; [eapply bind_eq; [exact E|cbn [fst snd]; reflexivity]|]. rewrite harmonic_start. rewrite rsum_S. f_equal. f_equal. f_equal. lia.
    + cbv zeta in E |- *. eapply bind_eq; [exact E|]. rewrite get_some by nia. cbn [bind fst snd]. f_equal.
      etransitivity; [|exact (tri_swap T deg)]. transitivity (rsum (fun m => rsum (fun k => T (m + k)%nat m) (deg - m)) (S (deg - 1))); [|f_equal; lia].
      rewrite rsum_S. f_equal. replace (deg - (deg - 1))%nat with 1%nat by lia. rewrite rsum_S. cbn [rsum]. unfold T, fac. rewrite Nat.add_0_r.
      replace (deg - 1 =? 0)%nat with false by (symmetry; apply Nat.eqb_neq; lia). replace ((deg - 1) * (deg + 1))%nat with ((deg - 1) * (deg - 1 + 1) + (deg - 1))%nat by nia. ring.
Qed.

(** evaluate_solid_sphericals *)
Lemma pow_int_nat : forall x n, pow_int x (Z.of_nat n) = x ^ n.
Proof.
  intros x n. unfold pow_int. destruct n as [|n]; [reflexivity|].
  replace (Z.eqb (Z.of_nat (S n)) 0) with false by (symmetry; apply Z.eqb_neq; lia).
  replace (Z.ltb 0 (Z.of_nat (S n))) with true by (symmetry; apply Z.ltb_lt; lia). rewrite Zabs2Nat.id. replace (S n - 1)%nat with n by lia.
  assert (G : forall k a s, fold_left (fun res (_ : nat) => res * x) (seq s k) a = a * x ^ k).
  { induction k as [|k IH]; intros a s; cbn [seq fold_left pow]; [ring|]. rewrite IH. ring. }
  rewrite G. reflexivity.
Qed.
Definition wgt (grad : bool) (r : R) (n : nat) : R := if grad then INR n * r ^ (n - 1) else r ^ n.
Definition last_fac (deg : nat) : R := if (deg =? 2)%nat then 1 else 2.
Lemma wgt_start : forall (grad : bool) r m f, (if grad then f * INR m * pow_int r (Z.of_nat m - 1) else f * pow_int r (Z.of_nat m)) = f * wgt grad r m.
Proof.
  intros [] r m f; unfold wgt; [|rewrite pow_int_nat; reflexivity]. destruct m as [|m]; [cbn [INR]; ring|].
  replace (Z.of_nat (S m) - 1)%Z with (Z.of_nat m) by lia. rewrite pow_int_nat. replace (S m - 1)%nat with m by lia. ring.
Qed.
Lemma wgt_next : forall (grad : bool) r n f, (if grad then f * INR (S n) * pow_int r (Z.of_nat (S n) - 1) else f * wgt grad r n * r) = f * wgt grad r (S n).
Proof.
  intros [] r n f; unfold wgt; [|cbn [pow]; ring]. replace (Z.of_nat (S n) - 1)%Z with (Z.of_nat n) by lia. rewrite pow_int_nat. replace (S n - 1)%nat with n by lia. ring.
Qed.
Lemma norm_unit : forall x, x <> (0, 0, 0) -> normalized x = Some (vscal (1 / vnorm x) x).
Proof.
  intros x Hx. unfold normalized. destruct (Req_EM_T (vnorm x) 0) as [E|E]; [|reflexivity].
  exfalso. pose proof (vnorm_pos x Hx). lra.
Qed.

Lemma solid_sphericals_value : forall x cs deg grad, x <> (0, 0, 0) -> (2 <= deg)%nat -> (deg * deg <= length cs)%nat ->
  let y := vscal (1 / vnorm x) x in
  evaluate_solid_sphericals x cs deg grad =
    Some (rsum (fun n => rsum (fun m => fac m * nth (n * (n + 1) + m) cs 0 * (wgt grad (vnorm x) n * fst (harmonic n m y))) (n + 1)) deg
      + (last_fac deg * wgt grad (vnorm x) deg - 2 * wgt grad (vnorm x) (deg - 1)) * nth (deg * deg - 1) cs 0 * fst (harmonic (deg - 1) (deg - 1) y)).
Proof.
  intros x cs deg grad Hx Hd Hl y. unfold evaluate_solid_sphericals. rewrite (norm_unit x Hx). fold y. rewrite <- (harmonic00 y).
  replace (deg <=? 1)%nat with false by (symmetry; apply Nat.leb_gt; lia). cbn [bind].
  set (T := fun n m => fac m * nth (n * (n + 1) + m) cs 0 * (wgt grad (vnorm x) n * fst (harmonic n m y))).
  set (r := vnorm x).
  set (body := fun m (st : R * (R * R) * R * R) => let '(r0, z1_start, _, _) := st in
    let fac := if (m =? 0)%nat then 1 else 2 in
    let fac_tot := if grad then fac * INR m * pow_int r (Z.of_nat m - 1) else fac * pow_int r (Z.of_nat m) in
    let z2 := csmul (sqrt (2 * INR m + 3) * vz y) z1_start in
    c1 <- get cs (m * (m + 1) + m) ;;
    let r0 := r0 + fac_tot * c1 * fst z1_start in
    let fac_tot := if grad then fac * (INR m + 1) * pow_int r (Z.of_nat m) else fac_tot * r in
    c2 <- get cs ((m + 1) * (m + 2) + m) ;;
    let r0 := r0 + fac_tot * c2 * fst z2 in
    st <- for_opt (deg - (m + 2)) (fun k st =>
      let n := (m + 2 + k)%nat in let '(r0, z1, z2, fac_tot) := st in
      let fac_tot := if grad then fac * INR n * pow_int r (Z.of_nat n - 1) else fac_tot * r in
      let z3 := next_z m n (vz y) z1 z2 in
      c <- get cs (n * (n + 1) + m) ;;
      Some (r0 + fac_tot * c * fst z3, z2, z3, fac_tot)) (r0, z1_start, z2, fac_tot) ;;
    let '(r0, _, _, fac_tot) := st in
    Some (r0, next_start m y z1_start, fac, fac_tot)).
  destruct (for_opt_inv (fun m (st : R * (R * R) * R * R) => exists f t, st = (rsum (fun m => rsum (fun k => T (m + k)%nat m) (deg - m)) m, harmonic m m y, f, t)
      /\ ((0 < m)%nat -> f = fac (m - 1) /\ t = fac (m - 1) * wgt grad r (deg - 1))) (deg - 1) body (0, harmonic 0 0 y, 0, 0)) as [st [E [f [t [-> Hft]]]]].
  - exists 0, 0. split; [reflexivity|lia].
  - intros m st Hm [f [t [-> _]]]. unfold body at 1. cbv zeta. rewrite wgt_start. rewrite harmonic_next.
    rewrite !get_some by (pose proof (idx_lt m m deg); pose proof (idx_lt (S m) m deg); nia). cbn [bind]. fold (fac m).
    assert (W1 : (if grad then fac m * (INR m + 1) * pow_int r (Z.of_nat m) else fac m * wgt grad r m * r) = fac m * wgt grad r (S m)).
    { rewrite <- wgt_next. destruct grad; [|reflexivity]. rewrite S_INR. replace (Z.of_nat (S m) - 1)%Z with (Z.of_nat m) by lia. reflexivity. }
    rewrite W1. clear W1.
    destruct (for_opt_inv (fun k (st : R * (R * R) * (R * R) * R) => st = ((rsum (fun m => rsum (fun k => T (m + k)%nat m) (deg - m)) m + rsum (fun k => T (m + k)%nat m) (2 + k))%R, harmonic (m + k) m y, harmonic (m + 1 + k) m y, (fac m * wgt grad r (m + 1 + k))%R)) (deg - (m + 2))
      (fun k st => let n := (m + 2 + k)%nat in let '(r0, z1, z2, fac_tot) := st in
        let fac_tot := if grad then fac m * INR n * pow_int r (Z.of_nat n - 1) else fac_tot * r in
        let z3 := next_z m n (vz y) z1 z2 in
        c <- get cs (n * (n + 1) + m) ;;
        Some (r0 + fac_tot * c * fst z3, z2, z3, fac_tot))
      (rsum (fun m0 => rsum (fun k => T (m0 + k)%nat m0) (deg - m0)) m + fac m * wgt grad r m * nth (m * (m + 1) + m) cs 0 * fst (harmonic m m y) +
        fac m * wgt grad r (S m) * nth ((m + 1) * (m + 2) + m) cs 0 * fst (harmonic (S m) m y), harmonic m m y, harmonic (S m) m y, fac m * wgt grad r (S m))) as [st [E ->]].
    + rewrite !Nat.add_0_r. replace (m + 1)%nat with (S m) by lia. f_equal. f_equal. f_equal. cbn [rsum]. unfold T. fold r. rewrite !Nat.add_0_r. replace (m + 1)%nat with (S m) by lia. replace (S m + 1)%nat with (m + 2)%nat by lia. ring.
    + intros k st Hk ->. cbv zeta. rewrite get_some by (pose proof (idx_lt (m + 2 + k) m deg ltac:(lia) ltac:(lia)); lia). cbn [bind]. rewrite harmonic_step. eexists. split; [reflexivity|].
      replace (m + S k)%nat with (m + 1 + k)%nat by lia. replace (m + 1 + S k)%nat with (m + 2 + k)%nat by lia.
      replace (m + 2 + k)%nat with (S (m + 1 + k)) by lia. rewrite wgt_next. f_equal. f_equal. f_equal. replace (2 + S k)%nat with (S (2 + k)) by lia. rewrite rsum_S. replace (m + (2 + k))%nat with (S (m + 1 + k)) by lia.
      rewrite Rplus_assoc. f_equal. f_equal. unfold T. fold r. ring.
    + cbv zeta in E. eexists. split; [eapply bind_eq; [exact E|cbn [fst snd]; reflexivity]|]. rewrite harmonic_start. exists (fac m), (fac m * wgt grad r (deg - 1)). split.
      * rewrite rsum_S. f_equal; [|f_equal; f_equal; lia]. f_equal. f_equal. f_equal. f_equal. lia.
      * intros _. replace (S m - 1)%nat with m by lia. split; reflexivity.
  - destruct (Hft ltac:(lia)) as [-> ->]. eapply bind_eq; [exact E|]. cbn [bind]. rewrite get_some by nia. cbn [bind]. f_equal.
    assert (LF : fac (deg - 1 - 1) = last_fac deg).
    { unfold fac, last_fac. destruct (Nat.eqb_spec (deg - 1 - 1) 0); destruct (Nat.eqb_spec deg 2); try reflexivity; lia. }
    rewrite LF. pose proof (wgt_next grad r (deg - 1) (last_fac deg)) as W1. replace (S (deg - 1)) with deg in W1 by lia. rewrite W1.
    match goal with |- _ = ?a + _ => transitivity (a + (last_fac deg * wgt grad r deg - 2 * wgt grad r (deg - 1)) * nth (deg * deg - 1) cs 0 * fst (harmonic (deg - 1) (deg - 1) y)); [|reflexivity] end.
    match goal with |- _ = ?a + _ => replace a with (rsum (fun m => rsum (fun k => T (m + k)%nat m) (deg - m)) (S (deg - 1)))
      by (replace (S (deg - 1)) with deg by lia; exact (tri_swap T deg)) end.
    rewrite rsum_S. replace (deg - (deg - 1))%nat with 1%nat by lia. replace (rsum (fun k => T (deg - 1 + k)%nat (deg - 1)%nat) 1) with (T (deg - 1)%nat (deg - 1)%nat) by (cbn [rsum]; rewrite Nat.add_0_r; ring).
    set (S1 := rsum _ _). unfold T, fac. fold r.
    replace (deg - 1 =? 0)%nat with false by (symmetry; apply Nat.eqb_neq; lia). replace ((deg - 1) * (deg + 1))%nat with (deg * deg - 1)%nat by nia. replace ((deg - 1) * (deg - 1 + 1) + (deg - 1))%nat with (deg * deg - 1)%nat by nia. ring.
Qed.
