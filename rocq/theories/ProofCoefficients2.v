(** Proofs for C69: the least squares problem is the minimisation of the defect; the first coefficient. *)
From Coq Require Import Reals Arith Bool List Lia Lra ZArith.
From Coquelicot Require Import Coquelicot.
From Verif Require Import ModelBase RSum ModelBall ModelOperators SpecOperators ProofOperators ProofPotential ModelSpherical SpecSpherical SpecHomogenised ModelCoefficients SpecCoefficients
  ProofSpherical ProofSphericalCode ProofSphericalTable ProofHomogenised PropSpherical PropHomogenised ProofCoefficients.
Import ListNotations.
Local Open Scope R_scope.

Lemma tri_flatten : forall g N, rsum g (tri (N + 1) - 1) = rsum (fun i => rsum (fun m => g (tri (S i) - 1 + m)%nat) (i + 2)) N.
Proof.
  intros g N. induction N as [|N IH]; [reflexivity|]. cbn [rsum]. rewrite <- IH. replace (S N + 1)%nat with (S (S N)) by lia. replace (N + 1)%nat with (S N) by lia.
  rewrite (tri_S (S N)). assert (1 <= tri (S N))%nat by (pose proof (tri_lt 0 (S N) ltac:(lia)); lia).
  replace (tri (S N) + S (S N) - 1)%nat with (tri (S N) - 1 + (N + 2))%nat by lia. rewrite rsum_split. reflexivity.
Qed.
Definition packed (x : nat -> R) (cs : list R) (deg : nat) : Prop := forall n m, (1 <= n <= deg)%nat -> (m <= n)%nat -> x (tri n - 1 + m)%nat = nth (n * (n + 1) + m) cs 0.
Lemma pack_exists : forall (g : nat -> nat -> R) deg, exists x, forall n m, (1 <= n <= deg)%nat -> (m <= n)%nat -> x (tri n - 1 + m)%nat = g n m.
Proof.
  intros g deg. induction deg as [|deg [x IH]]; [exists (fun _ => 0); intros; lia|].
  exists (fun c => if (c <? tri (S deg) - 1)%nat then x c else g (S deg) (c - (tri (S deg) - 1))%nat). intros n m Hn Hm.
  destruct (Nat.eq_dec n (S deg)) as [->|Ne].
  - destruct (Nat.ltb_spec (tri (S deg) - 1 + m) (tri (S deg) - 1)) as [L|L]; [lia|]. f_equal. lia.
  - pose proof (tri_lt n (S deg) ltac:(lia)). pose proof (tri_lt 0 n ltac:(lia)).
    destruct (Nat.ltb_spec (tri n - 1 + m) (tri (S deg) - 1)) as [L|L]; [|lia]. apply IH; lia.
Qed.
Lemma row_sum : forall (a : nat -> R) x cs deg (J : nat -> nat -> R), symmetric_coefficients cs (deg + 1) -> packed x cs deg -> J 0%nat 0%nat = 0 ->
  (forall n m, (1 <= n <= deg)%nat -> (m <= n)%nat -> a (tri n - 1 + m)%nat = fac m * J n m) ->
  rsum (fun c => a c * x c) (tri (deg + 1) - 1) = series cs (deg + 1) J.
Proof.
  intros a x cs deg J Sy P J0 V. rewrite tri_flatten, (series_half cs (deg + 1) J Sy). replace (deg + 1)%nat with (S deg) by lia. rewrite rsum_shift.
  match goal with |- _ = ?z + _ => replace z with 0 by (cbn [Nat.add rsum]; rewrite J0; ring) end. rewrite Rplus_0_l. apply rsum_ext. intros i Hi. replace (S i + 1)%nat with (i + 2)%nat by lia. apply rsum_ext. intros m Hm.
  rewrite V, P by lia. replace (S i + 1)%nat with (i + 2)%nat by lia. ring.
Qed.
Lemma residual_defect : forall A d x cs deg xs, symmetric_coefficients cs (deg + 1) -> packed x cs deg ->
  (forall f k, (f < 3)%nat -> (k < length xs)%nat -> rows_ok deg (length xs) xs A f k) -> (forall f k, (f < 3)%nat -> (k < length xs)%nat -> disp_ok (length xs) xs d f k) ->
  residual (6 * length xs) (tri (deg + 1) - 1) A (fun i => - d i) x = defect (expansion cs (deg + 1)) xs.
Proof.
  intros A d x cs deg xs Sy P VA Vd. unfold residual, defect. set (M := length xs) in *. rewrite rsum_flatten, rsum_swap. apply rsum_ext. intros k Hk.
  assert (T : forall f, (f < 3)%nat -> let v := face f (fst (nth k xs (0, 0))) (snd (nth k xs (0, 0))) in
    rsum (fun c => A (k + 2 * f * M)%nat c * x c) (tri (deg + 1) - 1) - - d (k + 2 * f * M)%nat = jump (expansion cs (deg + 1)) f v /\
    rsum (fun c => A (k + (2 * f + 1) * M)%nat c * x c) (tri (deg + 1) - 1) - - d (k + (2 * f + 1) * M)%nat = normal_jump (expansion cs (deg + 1)) f v).
  { intros f Hf v. destruct (Vd f k Hf Hk) as [D1 D2]. rewrite D1, D2. unfold v. rewrite jump_expansion, normal_jump_expansion. set (q := nth k xs (0, 0)) in *.
    rewrite (row_sum (A (k + 2 * f * M)%nat) x cs deg (vjump f q) Sy P (vjump0 f q)) by (intros n m Hn Hm; exact (proj1 (VA f k Hf Hk n m Hn Hm))).
    rewrite (row_sum (A (k + (2 * f + 1) * M)%nat) x cs deg (sjump f q) Sy P (sjump0 f q)) by (intros n m Hn Hm; exact (proj2 (VA f k Hf Hk n m Hn Hm))). split; ring. }
  cbn [rsum]. cbv zeta. destruct (T 0%nat ltac:(lia)) as [T0 T1]. destruct (T 1%nat ltac:(lia)) as [T2 T3]. destruct (T 2%nat ltac:(lia)) as [T4 T5]. cbv zeta in *.
  rewrite <- T0, <- T1, <- T2, <- T3, <- T4, <- T5.
  replace (0 * M + k)%nat with (k + 2 * 0 * M)%nat by lia. replace (1 * M + k)%nat with (k + (2 * 0 + 1) * M)%nat by lia. replace (2 * M + k)%nat with (k + 2 * 1 * M)%nat by lia.
  replace (3 * M + k)%nat with (k + (2 * 1 + 1) * M)%nat by lia. replace (4 * M + k)%nat with (k + 2 * 2 * M)%nat by lia. replace (5 * M + k)%nat with (k + (2 * 2 + 1) * M)%nat by lia. ring.
Qed.

(** ** copying into the full list *)
Lemma copy_value : forall junk coeffs deg, length junk = ((deg + 1) * (deg + 1))%nat ->
  exists cs, copy_coefficients junk coeffs deg = Some cs /\ length cs = ((deg + 1) * (deg + 1))%nat /\ nth 0 cs 0 = 0 /\
    forall n m, (1 <= n <= deg)%nat -> (m <= n)%nat -> nth (n * n + n + m) cs 0 = coeffs (tri n + m)%nat /\ nth (n * n + n - m) cs 0 = coeffs (tri n + m)%nat.
Proof.
  intros junk coeffs deg Lj. unfold copy_coefficients. destruct (set_spec junk 0 0 ltac:(lia)) as [c0 [E0 [L0 N0]]]. rewrite E0. cbn [bind].
  match goal with |- exists A, for_opt deg ?b c0 = Some A /\ _ => destruct (for_opt_inv (fun i cs => length cs = ((deg + 1) * (deg + 1))%nat /\ nth 0 cs 0 = 0 /\
    forall n m, (1 <= n <= i)%nat -> (m <= n)%nat -> nth (n * n + n + m) cs 0 = coeffs (tri n + m)%nat /\ nth (n * n + n - m) cs 0 = coeffs (tri n + m)%nat) deg b c0) as [cs [E P]];
    [| |exists cs; split; [exact E|exact P]] end.
  { split; [lia|]. split; [rewrite N0; reflexivity|intros; lia]. }
  intros i cs Hi [Lc [Z I]]. fold (tri (S i)). set (n := S i) in *.
  destruct (set_spec cs (n * n + n) (coeffs (tri n)) ltac:(rewrite Lc; nia)) as [c1 [E1 [L1 N1]]]. rewrite E1. cbn [bind].
  match goal with |- exists A, for_opt n ?b c1 = Some A /\ _ => destruct (for_opt_inv (fun j cs' => length cs' = ((deg + 1) * (deg + 1))%nat /\ (forall a, (a < n * n)%nat -> nth a cs' 0 = nth a cs 0) /\
    forall m, (m <= j)%nat -> nth (n * n + n + m) cs' 0 = coeffs (tri n + m)%nat /\ nth (n * n + n - m) cs' 0 = coeffs (tri n + m)%nat) n b c1) as [c2 [E2 [L2 [K2 V2]]]] end.
  { split; [lia|]. split.
    - intros a Ha. rewrite N1. destruct (Nat.eqb_spec a (n * n + n)); [lia|reflexivity].
    - intros m Hm. replace m with 0%nat by lia. rewrite Nat.add_0_r, Nat.sub_0_r, N1, Nat.eqb_refl. rewrite Nat.add_0_r. split; reflexivity. }
  { intros j d Hj [Ld [Kd Vd]]. set (m := S j) in *.
    destruct (set_spec d (n * n + n + m) (coeffs (tri n + m)%nat) ltac:(rewrite Ld; nia)) as [d1 [F1 [M1 W1]]]. rewrite F1. cbn [bind].
    destruct (set_spec d1 (n * n + n - m) (coeffs (tri n + m)%nat) ltac:(rewrite M1, Ld; nia)) as [d2 [F2 [M2 W2]]]. rewrite F2. exists d2. split; [reflexivity|]. split; [lia|]. split.
    - intros a Ha. rewrite W2, W1. destruct (Nat.eqb_spec a (n * n + n - m)); [lia|]. destruct (Nat.eqb_spec a (n * n + n + m)); [lia|]. apply Kd, Ha.
    - intros m' Hm'. rewrite !W2, !W1. destruct (Nat.eq_dec m' m) as [->|Ne].
      + rewrite !Nat.eqb_refl. destruct (Nat.eqb_spec (n * n + n + m) (n * n + n - m)); split; reflexivity.
      + destruct (Nat.eqb_spec (n * n + n + m') (n * n + n - m)); [lia|]. destruct (Nat.eqb_spec (n * n + n + m') (n * n + n + m)); [lia|].
        destruct (Nat.eqb_spec (n * n + n - m') (n * n + n - m)); [lia|]. destruct (Nat.eqb_spec (n * n + n - m') (n * n + n + m)); [lia|]. apply Vd. lia. }
  exists c2. split; [exact E2|]. split; [exact L2|]. split; [rewrite K2 by (unfold n; nia); exact Z|].
  intros n' m Hn Hm. destruct (Nat.eq_dec n' n) as [->|Ne]; [apply V2; lia|].
  assert (B : (n' * n' + n' + m < n * n)%nat) by nia. rewrite !K2 by lia. apply I; lia.
Qed.

(** ** the first coefficient *)
Lemma scaled_value : forall r cs deg, length cs = ((deg + 1) * (deg + 1))%nat ->
  exists t, scaled r cs deg = Some t /\ length t = length cs /\ nth 0 t 0 = 0 /\ forall n j, (1 <= n <= deg)%nat -> (j < 2 * n + 1)%nat -> nth (n * n + j) t 0 = r ^ n * nth (n * n + j) cs 0.
Proof.
  intros r cs deg Lc. unfold scaled.
  match goal with |- exists A, for_opt deg ?b ?c0 = Some A /\ _ => destruct (for_opt_inv (fun i t => length t = length cs /\ nth 0 t 0 = 0 /\ forall n j, (1 <= n <= i)%nat -> (j < 2 * n + 1)%nat -> nth (n * n + j) t 0 = r ^ n * nth (n * n + j) cs 0) deg b c0) as [t [E P]];
    [| |exists t; split; [exact E|exact P]] end.
  { split; [apply repeat_length|]. split; [destruct (length cs); reflexivity|intros; lia]. }
  intros i t Hi [Lt [Z I]]. set (n := S i) in *.
  match goal with |- exists A, for_opt ?u ?b t = Some A /\ _ => destruct (for_opt_inv (fun k t' => length t' = length cs /\ (forall a, (a < n * n)%nat -> nth a t' 0 = nth a t 0) /\ forall j, (j < k)%nat -> nth (n * n + j) t' 0 = r ^ n * nth (n * n + j) cs 0) u b t) as [t2 [E2 [L2 [K2 V2]]]] end.
  { split; [exact Lt|]. split; [reflexivity|intros; lia]. }
  { intros k d Hk [Ld [Kd Vd]]. rewrite (get_some cs (n * n + k)) by (rewrite Lc; unfold n in *; nia). cbn [bind].
    destruct (set_spec d (n * n + k) (r ^ n * nth (n * n + k) cs 0) ltac:(rewrite Ld, Lc; unfold n in *; nia)) as [d1 [F1 [M1 W1]]]. rewrite F1. exists d1. split; [reflexivity|]. split; [lia|]. split.
    - intros a Ha. rewrite W1. destruct (Nat.eqb_spec a (n * n + k)); [lia|apply Kd, Ha].
    - intros j Hj. rewrite W1. destruct (Nat.eqb_spec (n * n + j) (n * n + k)) as [Q|Q]; [replace j with k by lia; reflexivity|apply Vd; lia]. }
  exists t2. split; [exact E2|]. split; [exact L2|]. split; [rewrite K2 by (unfold n; nia); exact Z|].
  intros n' j Hn Hj. destruct (Nat.eq_dec n' n) as [->|Ne]; [apply V2; lia|]. rewrite K2 by nia. apply I; lia.
Qed.
Lemma first_value : forall cs deg xs ws, (2 <= deg)%nat -> length cs = ((deg + 1) * (deg + 1))%nat -> symmetric_coefficients cs (deg + 1) -> nth 0 cs 0 = 0 -> length ws = length xs ->
  calculateFirstCoefficient cs deg xs ws = Some (-2 * sqrt PI * (face_average (expansion cs deg) xs ws + 1 / 24)).
Proof.
  intros cs deg xs ws Hd Lc Sy C0 Lw. unfold calculateFirstCoefficient.
  match goal with |- bind (for_opt ?u ?b 0) _ = _ => destruct (for_opt_inv (fun i res => res = rsum (fun k => nth k ws 0 * rsum (fun f => expansion cs deg (face f (fst (nth k xs (0, 0))) (snd (nth k xs (0, 0))))) 3) i) u b 0) as [res [E P]] end.
  { reflexivity. }
  2:{ eapply bind_eq; [exact E|]. rewrite P. unfold face_average. reflexivity. }
  intros i res Hi ->. rewrite (get_nth xs i (0, 0) Hi), (get_some ws i) by lia. cbn [bind]. set (q := nth i xs (0, 0)). rewrite !face_eq. set (a := fst q). set (b := snd q). set (r := vnorm (face 0 a b)).
  destruct (scaled_value r cs deg Lc) as [t [Et [Lt [T0 Vt]]]]. rewrite Et. cbn [bind].
  pose proof (vnorm_pos _ (proj1 (face_nonzero 0 a b))) as Pr. fold r in Pr. destruct (Req_EM_T r 0) as [K|_]; [lra|].
  assert (Sv : forall f, evaluate_sphericals (vscal (1 / r) (face f a b)) t deg = Some (series cs deg (fun n m => fst (solid n m (face f a b))))).
  { intros f. assert (Ef : r = vnorm (face f a b)) by (symmetry; apply face_norm0). rewrite C67_value.
    - f_equal. unfold series. apply rsum_ext. intros n Hn. apply rsum_ext. intros j Hj. destruct n as [|n].
      + replace j with 0%nat by lia. cbn [Nat.mul Nat.add]. rewrite T0, C0. ring.
      + rewrite Vt by lia. unfold solid, Cmult, RtoC. cbn [fst snd]. rewrite Ef. ring.
    - rewrite Ef. apply vnorm_unit. apply face_nonzero.
    - lia.
    - rewrite Lt, Lc. nia.
    - intros n m Hn Hm. destruct n as [|n]; [replace m with 0%nat by lia; reflexivity|].
      replace (S n * S n + S n - m)%nat with (S n * S n + (S n - m))%nat by lia. replace (S n * S n + S n + m)%nat with (S n * S n + (S n + m))%nat by lia. rewrite !Vt by lia. f_equal.
      replace (S n * S n + (S n - m))%nat with (S n * S n + S n - m)%nat by lia. replace (S n * S n + (S n + m))%nat with (S n * S n + S n + m)%nat by lia. apply Sy; lia. }
  rewrite !Sv, !k_mod_value by (apply face_off). cbn [bind]. eexists. split; [reflexivity|]. cbn [rsum]. fold q. fold a. fold b. unfold expansion. ring.
Qed.
(** only the constant term changes *)
Lemma series_first : forall cs cs' N f, (1 <= N)%nat -> (forall a, (a <> 0)%nat -> nth a cs' 0 = nth a cs 0) -> series cs' N f = series cs N f + (nth 0 cs' 0 - nth 0 cs 0) * f 0%nat 0%nat.
Proof.
  intros cs cs' N f HN E. destruct N as [|N]; [lia|]. unfold series. rewrite !rsum_shift.
  rewrite (rsum_ext (fun i => rsum (fun j => nth (S i * S i + j) cs' 0 * f (S i) (order_of (S i) j)) (2 * S i + 1)) (fun i => rsum (fun j => nth (S i * S i + j) cs 0 * f (S i) (order_of (S i) j)) (2 * S i + 1))).
  - set (T := rsum _ N). cbn [Nat.mul Nat.add rsum]. unfold order_of. cbn [Nat.ltb Nat.leb Nat.sub]. ring.
  - intros i Hi. apply rsum_ext. intros j Hj. rewrite E by lia. reflexivity.
Qed.
Lemma solid00 : forall v, v <> (0, 0, 0) -> fst (solid 0 0 v) = 1 / (2 * sqrt PI).
Proof.
  intros v Hv. rewrite solid_value by (assumption || lia). unfold Hx. rewrite H_O. cbn [Nat.eqb]. unfold W. cbn [cpower]. unfold Cmult, RtoC. cbn [fst snd]. unfold harmonic_norm. cbn [INR Nat.sub Nat.add fact].
  pose proof PI_RGT_0 as Pp. pose proof (sqrt_lt_R0 _ Pp) as Q. replace ((2 * 0 + 1) / (4 * PI) * (1 / 1)) with ((1 / (2 * sqrt PI)) * (1 / (2 * sqrt PI))).
  - rewrite sqrt_square by (apply Rlt_le, Rdiv_lt_0_compat; lra). ring.
  - replace (4 * PI) with (4 * (sqrt PI * sqrt PI)) by (rewrite sqrt_sqrt; lra). field. lra.
Qed.
