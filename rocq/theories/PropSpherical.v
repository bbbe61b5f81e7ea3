(** C66, C67: spherical harmonics (Bembel/src/util/Sphericals.hpp). *)
From Coq Require Import Reals Arith Bool List Lia Lra ZArith.
From Coquelicot Require Import Coquelicot.
From Verif Require Import ModelBase RSum ModelBall SpecOperators ProofOperators ProofPotential ModelSpherical SpecSpherical ProofSpherical ProofSphericalCode ProofSphericalTable ProofSphericalGrad.
Import ListNotations.
Local Open Scope R_scope.

(** ** C66: the tables *)
(** the table has the real and imaginary parts of Y_n^m(x/|x|) at n^2 + n + m, and of its conjugate at n^2 + n - m *)
Theorem C66_value : forall junk stale x N, x <> (0, 0, 0) ->
  length (fst junk) = ((N + 1) * (N + 1))%nat -> length (snd junk) = ((N + 1) * (N + 1))%nat ->
  exists re im, spherical_harmonics_full junk stale x N = Some (re, im) /\ length re = ((N + 1) * (N + 1))%nat /\ length im = ((N + 1) * (N + 1))%nat /\
    forall n m, (n <= N)%nat -> (m <= n)%nat ->
      let Y := harmonic n m (vscal (1 / vnorm x) x) in
      nth (n * n + n + m) re 0 = fst Y /\ nth (n * n + n + m) im 0 = snd Y /\
      nth (n * n + n - m) re 0 = fst (Cconj Y) /\ nth (n * n + n - m) im 0 = snd (Cconj Y).
Proof.
  intros junk stale x N Xn L1 L2. destruct (table_value junk stale x N Xn L1 L2) as [[re im] [E [A [B G]]]]. exists re, im. split; [exact E|]. split; [exact A|]. split; [exact B|].
  intros n m Hn Hm Y. exact (G n m Hn Hm).
Qed.

(** |x|^n times an entry of level n is a harmonic function *)
Theorem C66_harmonic : forall junk stale N n j x, x <> (0, 0, 0) ->
  length (fst junk) = ((N + 1) * (N + 1))%nat -> length (snd junk) = ((N + 1) * (N + 1))%nat -> (n <= N)%nat -> (n * n <= j <= n * n + 2 * n)%nat ->
  let entry (part : list R * list R -> list R) z := match spherical_harmonics_full junk stale z N with Some st => vnorm z ^ n * nth j (part st) 0 | None => 0 end in
  laplacian (entry fst) x 0 /\ laplacian (entry snd) x 0.
Proof.
  intros junk stale N n j x Xn L1 L2 Hn Hj entry.
  assert (V : exists m, (m <= n)%nat /\ (forall z, z <> (0, 0, 0) -> entry fst z = fst (solid n m z)) /\ ((forall z, z <> (0, 0, 0) -> entry snd z = snd (solid n m z)) \/ (forall z, z <> (0, 0, 0) -> entry snd z = - snd (solid n m z)))).
  { destruct (Nat.le_gt_cases (n * n + n) j) as [Q|Q].
    - exists (j - (n * n + n))%nat. split; [lia|]. split; [|left]; intros z Hz; unfold entry; destruct (table_value junk stale z N Hz L1 L2) as [st [E [A [B G]]]]; rewrite E;
        destruct (G n (j - (n * n + n))%nat Hn ltac:(lia)) as [G1 [G2 _]]; replace (n * n + n + (j - (n * n + n)))%nat with j in * by lia; rewrite ?G1, ?G2; unfold solid, Cmult, RtoC; cbn [fst snd]; ring.
    - exists (n * n + n - j)%nat. split; [lia|]. split; [|right]; intros z Hz; unfold entry; destruct (table_value junk stale z N Hz L1 L2) as [st [E [A [B G]]]]; rewrite E;
        destruct (G n (n * n + n - j)%nat Hn ltac:(lia)) as [_ [_ [G1 G2]]]; replace (n * n + n - (n * n + n - j))%nat with j in * by lia; rewrite ?G1, ?G2; unfold solid, Cmult, RtoC; cbn [fst snd]; ring. }
  destruct V as [m [Hm [V1 V2]]]. destruct (lap_solid n m x) as [La Lb]. cbn [RtoC fst snd] in La, Lb.
  assert (Sa : laplacian (fun z => fst (solid n m z)) x 0).
  { apply (lap_ext_off (fun z => harmonic_norm n m * fst (Cmult (RtoC (Hx n m z)) (W z m))) _ x (0, 0, 0)); [exact Xn| |].
    - intros z Hz. rewrite (solid_value n m z Hm Hz). unfold Cmult, RtoC; cbn [fst snd]; ring.
    - replace 0 with (harmonic_norm n m * 0) by ring. apply lap_scal. exact La. }
  assert (Sb : laplacian (fun z => snd (solid n m z)) x 0).
  { apply (lap_ext_off (fun z => harmonic_norm n m * snd (Cmult (RtoC (Hx n m z)) (W z m))) _ x (0, 0, 0)); [exact Xn| |].
    - intros z Hz. rewrite (solid_value n m z Hm Hz). unfold Cmult, RtoC; cbn [fst snd]; ring.
    - replace 0 with (harmonic_norm n m * 0) by ring. apply lap_scal. exact Lb. }
  split.
  - apply (lap_ext_off (fun z => fst (solid n m z)) _ x (0, 0, 0)); [exact Xn| |exact Sa]. intros z Hz. symmetry. apply V1, Hz.
  - destruct V2 as [V2|V2].
    + apply (lap_ext_off (fun z => snd (solid n m z)) _ x (0, 0, 0)); [exact Xn| |exact Sb]. intros z Hz. symmetry. apply V2, Hz.
    + apply (lap_ext_off (fun z => -1 * snd (solid n m z)) _ x (0, 0, 0)); [exact Xn| |]. { intros z Hz. rewrite (V2 z Hz). ring. }
      replace 0 with (-1 * 0) by ring. apply lap_scal. exact Sb.
Qed.

(** the gradients of the real parts of the solid harmonics |x|^n Y_n^m(x/|x|) *)
Theorem C66_gradient : forall junkL junk junkY stale x N Y, x <> (0, 0, 0) -> (1 <= N)%nat ->
  length junkL = (((N + 1) * (N + 2)) / 2)%nat -> length junk = ((N + 1) * (N + 1))%nat ->
  length (fst junkY) = ((N + 1) * (N + 1))%nat -> length (snd junkY) = ((N + 1) * (N + 1))%nat ->
  spherical_harmonics_full junkY stale x N = Some Y ->
  exists G, Dsolid_harmonics_full junkL junk x N Y = Some G /\ length G = ((N + 1) * (N + 1))%nat /\
    forall n m d, (n <= N)%nat -> (m <= n)%nat ->
      directional (fun z => fst (solid n m z)) x d (vdot (nth (n * n + n + m) G (0, 0, 0)) d) /\
      directional (fun z => fst (solid n m z)) x d (vdot (nth (n * n + n - m) G (0, 0, 0)) d).
Proof.
  intros junkL junk junkY stale x N Y Xn HN HL Hj Hy1 Hy2 EY. destruct (table_value junkY stale x N Xn Hy1 Hy2) as [st [E [A [B G]]]]. rewrite E in EY. injection EY as <-.
  destruct (gradient_table junkL junk x N st Xn HN HL Hj A B G) as [g [Eg [Lg Gg]]]. exists g. split; [exact Eg|]. split; [exact Lg|]. intros n m d Hn Hm. exact (Gg n m Hn Hm d).
Qed.
(** degree 0: the table of Legendre polynomials has one entry, but three are written *)
Theorem C66_degree_zero_refuted : forall junkL junk x Y, length junkL = (((0 + 1) * (0 + 2)) / 2)%nat -> Dsolid_harmonics_full junkL junk x 0 Y = None.
Proof.
  intros junkL junk x Y HL. unfold Dsolid_harmonics_full. destruct (normalized x) as [u|]; [|reflexivity]. cbn [bind]. unfold legendreFull.
  destruct junkL as [|a [|b l]]; [discriminate HL| |discriminate HL]. reflexivity.
Qed.
Example C66_example : exists re im, spherical_harmonics_full (repeat 7 4, repeat 7 4) 7 (0, 0, 2) 1 = Some (re, im) /\ nth 2 re 0 = sqrt (3 / (4 * PI)).
Proof.
  assert (Xn : (0, 0, 2) <> (0, 0, 0)) by (intros E; injection E; lra).
  destruct (C66_value (repeat 7 4, repeat 7 4) 7 (0, 0, 2) 1 Xn eq_refl eq_refl) as [re [im [E [_ [_ G]]]]]. exists re, im. split; [exact E|].
  destruct (G 1%nat 0%nat ltac:(lia) ltac:(lia)) as [G1 _]. cbn [Nat.mul Nat.add] in G1. rewrite G1. clear - Xn. rewrite harmonic_value.
  assert (N2 : vnorm (0, 0, 2) = 2) by (unfold vnorm, vdot, vx, vy, vz; cbn [fst snd]; replace (0 * 0 + 0 * 0 + 2 * 2) with (2 * 2) by ring; apply sqrt_square; lra). rewrite N2.
  replace (H 1 0 (vz (vscal (1 / 2) (0, 0, 2))) 1) with 1.
  - unfold W. cbn [cpower]. unfold Cmult, RtoC, harmonic_norm. cbn [fst snd Nat.sub Nat.add fact Nat.mul INR]. rewrite !Rmult_1_r, !Rmult_0_l, !Rminus_0_r.
    f_equal. pose proof PI_RGT_0. field. lra.
  - unfold vz, vscal. cbn [fst snd]. unfold H. cbn. field.
Qed.

(** ** C67: series *)
Lemma order_le : forall n j, (j < 2 * n + 1)%nat -> (order_of n j <= n)%nat.
Proof. intros n j Hj. unfold order_of. destruct (Nat.ltb_spec j n); lia. Qed.
Lemma series_ext : forall cs N f g, (forall n m, (n < N)%nat -> (m <= n)%nat -> f n m = g n m) -> series cs N f = series cs N g.
Proof. intros cs N f g E. unfold series. apply rsum_ext. intros n Hn. apply rsum_ext. intros j Hj. rewrite E; [reflexivity|exact Hn|apply order_le; exact Hj]. Qed.
Lemma series_dir : forall cs N (f : nat -> nat -> vec3 -> R) l x d, (forall n m, (n < N)%nat -> (m <= n)%nat -> directional (f n m) x d (l n m)) ->
  directional (fun z => series cs N (fun n m => f n m z)) x d (series cs N l).
Proof.
  intros cs N f l x d D. unfold series. apply (dir_rsum (fun n z => rsum (fun j => nth (n * n + j) cs 0 * f n (order_of n j) z) (2 * n + 1))). intros n Hn.
  apply (dir_rsum (fun j z => nth (n * n + j) cs 0 * f n (order_of n j) z)). intros j Hj. apply dir_scal. apply D; [exact Hn|apply order_le; exact Hj].
Qed.

(** the documented sum with n < deg *)
Theorem C67_value : forall x cs deg, vnorm x = 1 -> (1 <= deg)%nat -> (deg * deg <= length cs)%nat -> symmetric_coefficients cs deg ->
  evaluate_sphericals x cs deg = Some (series cs deg (fun n m => fst (harmonic n m x))).
Proof. intros x cs deg Hx Hd Hl Sy. rewrite (sphericals_value x cs deg Hx Hd Hl), (series_half cs deg _ Sy). reflexivity. Qed.

(** the solid harmonics; the last term has a wrong factor, so that the result is the sum if its coefficient vanishes *)
Theorem C67_solid : forall x cs deg, x <> (0, 0, 0) -> (2 <= deg)%nat -> (deg * deg <= length cs)%nat -> symmetric_coefficients cs deg -> nth (deg * deg - 1) cs 0 = 0 ->
  evaluate_solid_sphericals x cs deg false = Some (series cs deg (fun n m => fst (solid n m x))) /\
  evaluate_solid_sphericals x cs deg true = Some (series cs deg (fun n m => INR n * vnorm x ^ (n - 1) * fst (harmonic n m (vscal (1 / vnorm x) x)))).
Proof.
  intros x cs deg Xn Hd Hl Sy C1. split; rewrite (solid_sphericals_value x cs deg _ Xn Hd Hl), C1; cbv zeta; f_equal; rewrite (series_half cs deg _ Sy); rewrite Rmult_0_r, Rmult_0_l, Rplus_0_r; apply rsum_ext; intros n Hn; apply rsum_ext; intros m Hm; unfold wgt.
  - unfold solid, Cmult, RtoC. cbn [fst snd]. ring.
  - ring.
Qed.
(** in general *)
Theorem C67_solid_exact : forall x cs deg, x <> (0, 0, 0) -> (2 <= deg)%nat -> (deg * deg <= length cs)%nat -> symmetric_coefficients cs deg ->
  let Y := fst (harmonic (deg - 1) (deg - 1) (vscal (1 / vnorm x) x)) in
  evaluate_solid_sphericals x cs deg false =
    Some (series cs deg (fun n m => fst (solid n m x)) + ((if (deg =? 2)%nat then 1 else 2) * vnorm x ^ deg - 2 * vnorm x ^ (deg - 1)) * nth (deg * deg - 1) cs 0 * Y).
Proof.
  intros x cs deg Xn Hd Hl Sy Y. rewrite (solid_sphericals_value x cs deg false Xn Hd Hl). cbv zeta. f_equal. rewrite (series_half cs deg _ Sy). unfold wgt, last_fac. fold Y. f_equal.
  apply rsum_ext; intros n Hn; apply rsum_ext; intros m Hm. unfold solid, Cmult, RtoC. cbn [fst snd]. ring.
Qed.

Lemma norm_positive : forall n m, 0 < harmonic_norm n m.
Proof.
  intros n m. unfold harmonic_norm. apply sqrt_lt_R0. pose proof (pos_INR n). pose proof PI_RGT_0. pose proof (fact_pos (n - m)). pose proof (fact_pos (n + m)).
  apply Rmult_lt_0_compat; apply Rdiv_lt_0_compat; lra.
Qed.
Lemma diag_positive : forall n z s, 0 < H n n z s.
Proof. induction n as [|n IH]; intros z s; [rewrite H_O; cbn [Nat.eqb]; lra|]. rewrite H_diag. apply Rmult_lt_0_compat; [pose proof (pos_INR n); lra|apply IH]. Qed.
Lemma legendre_one : forall n, H n 0 1 1 = 1 /\ ((1 <= n)%nat -> H1 n 0 1 1 = 1).
Proof.
  induction n as [|n [A B]]; [split; [reflexivity|lia]|]. rewrite H1_S. split; [|intros _; exact A].
  pose proof (H_low n 0 1 1 ltac:(lia)) as Q. cbn [INR] in Q. rewrite A in Q. pose proof (pos_INR n).
  destruct n as [|n]; [rewrite H1_O in Q; cbn [INR] in Q; lra|]. rewrite B in Q by lia. apply (Rmult_eq_reg_l (INR (S n) + 1)); lra.
Qed.
Lemma power_one : forall m, cpower 1 0 m = RtoC 1.
Proof. induction m as [|m IH]; [reflexivity|]. cbn [cpower]. rewrite IH. unfold Cmult, RtoC. cbn [fst snd]. f_equal; ring. Qed.
Lemma nth_table : forall (f : nat -> R) n i, (i < n)%nat -> nth i (map f (seq 0 n)) 0 = f i.
Proof. intros f n i Hi. rewrite (nth_indep _ 0 (f 0%nat)) by (rewrite map_length, seq_length; exact Hi). rewrite map_nth, seq_nth by exact Hi. reflexivity. Qed.

(** whenever a series has a term with n = m = deg - 1, there is a point where it is not evaluated correctly *)
Theorem C67_last_term_refuted : forall deg, (2 <= deg)%nat -> exists cs x, length cs = (deg * deg)%nat /\ symmetric_coefficients cs deg /\ x <> (0, 0, 0) /\
  exists v, evaluate_solid_sphericals x cs deg false = Some v /\ v <> series cs deg (fun n m => fst (solid n m x)).
Proof.
  intros deg Hd. set (f := fun i => if ((i =? deg * deg - 1) || (i =? (deg - 1) * (deg - 1)))%nat then 1 else 0). set (cs := map f (seq 0 (deg * deg))). exists cs, (/ 2, 0, 0).
  assert (Ll : length cs = (deg * deg)%nat) by (unfold cs; rewrite map_length, seq_length; reflexivity).
  assert (Xn : (/ 2, 0, 0) <> (0, 0, 0)) by (intros E; injection E; lra).
  assert (Sy : symmetric_coefficients cs deg).
  { intros n m Hn Hm. unfold cs. rewrite !nth_table by nia. unfold f.
    destruct (Nat.eq_dec n (deg - 1)) as [En|En].
    - subst n. destruct (Nat.eq_dec m (deg - 1)) as [Em|Em].
      + subst m. rewrite Nat.add_sub. rewrite Nat.eqb_refl, orb_true_r.
        replace ((deg - 1) * (deg - 1) + (deg - 1) + (deg - 1))%nat with (deg * deg - 1)%nat by nia. rewrite Nat.eqb_refl. reflexivity.
      + replace ((deg - 1) * (deg - 1) + (deg - 1) - m =? deg * deg - 1)%nat with false by (symmetry; apply Nat.eqb_neq; nia). replace ((deg - 1) * (deg - 1) + (deg - 1) + m =? deg * deg - 1)%nat with false by (symmetry; apply Nat.eqb_neq; nia).
        replace ((deg - 1) * (deg - 1) + (deg - 1) - m =? (deg - 1) * (deg - 1))%nat with false by (symmetry; apply Nat.eqb_neq; lia). replace ((deg - 1) * (deg - 1) + (deg - 1) + m =? (deg - 1) * (deg - 1))%nat with false by (symmetry; apply Nat.eqb_neq; lia). reflexivity.
    - assert (B : (n * n + n + m < (deg - 1) * (deg - 1))%nat) by nia. assert (B2 : ((deg - 1) * (deg - 1) <= deg * deg - 1)%nat) by nia.
      replace (n * n + n - m =? deg * deg - 1)%nat with false by (symmetry; apply Nat.eqb_neq; lia). replace (n * n + n + m =? deg * deg - 1)%nat with false by (symmetry; apply Nat.eqb_neq; lia).
      replace (n * n + n - m =? (deg - 1) * (deg - 1))%nat with false by (symmetry; apply Nat.eqb_neq; lia). replace (n * n + n + m =? (deg - 1) * (deg - 1))%nat with false by (symmetry; apply Nat.eqb_neq; lia). reflexivity. }
  split; [exact Ll|]. split; [exact Sy|]. split; [exact Xn|].
  rewrite (C67_solid_exact (/ 2, 0, 0) cs deg Xn Hd ltac:(lia) Sy). cbv zeta. eexists. split; [reflexivity|].
  assert (Nh : vnorm (/ 2, 0, 0) = / 2) by (unfold vnorm, vdot, vx, vy, vz; cbn [fst snd]; replace (/ 2 * / 2 + 0 * 0 + 0 * 0) with (/ 2 * / 2) by ring; apply sqrt_square; lra). rewrite Nh.
  replace (vscal (1 / / 2) (/ 2, 0, 0)) with (1, 0, 0) by (unfold vscal, vx, vy, vz; repeat (apply injective_projections; cbn [fst snd]); field).
  assert (C1 : nth (deg * deg - 1) cs 0 = 1) by (unfold cs; rewrite nth_table by nia; unfold f; rewrite Nat.eqb_refl; reflexivity). rewrite C1.
  assert (Yp : 0 < fst (harmonic (deg - 1) (deg - 1) (1, 0, 0))).
  { rewrite harmonic_value. unfold W, vx, vy. cbn [fst snd]. rewrite power_one. unfold Cmult, RtoC. cbn [fst snd]. rewrite Rmult_0_l, Rminus_0_r, Rmult_1_r. apply Rmult_lt_0_compat; [apply norm_positive|apply diag_positive]. }
  assert (Pd : 0 < (/ 2) ^ (deg - 1)) by (apply pow_lt; lra). assert (Ed : (/ 2) ^ deg = / 2 * (/ 2) ^ (deg - 1)) by (replace deg with (S (deg - 1)) at 1 by lia; reflexivity). rewrite Ed.
  intros E. set (S0 := series _ _ _) in E. set (q := fst (harmonic (deg - 1) (deg - 1) (1, 0, 0))) in *. set (p := (/ 2) ^ (deg - 1)) in *.
  assert (K : ((if (deg =? 2)%nat then 1 else 2) * (/ 2 * p) - 2 * p) * 1 * q < 0).
  { replace 0 with (0 * q) by ring. apply Rmult_lt_compat_r; [exact Yp|]. destruct (deg =? 2)%nat; lra. }
  lra.
Qed.
(** the documentation has a sum over n = 0, ..., deg; the coefficients with n = deg are ignored *)
Theorem C67_top_degree_refuted : forall deg, (2 <= deg)%nat -> exists cs x, length cs = ((deg + 1) * (deg + 1))%nat /\ symmetric_coefficients cs (deg + 1) /\ nth (deg * deg - 1) cs 0 = 0 /\ x <> (0, 0, 0) /\
  exists v, evaluate_solid_sphericals x cs deg false = Some v /\ v <> series cs (deg + 1) (fun n m => fst (solid n m x)).
Proof.
  intros deg Hd. set (f := fun i => if (i =? deg * deg + deg)%nat then 1 else 0). set (cs := map f (seq 0 ((deg + 1) * (deg + 1)))). exists cs, (0, 0, 1).
  assert (Ll : length cs = ((deg + 1) * (deg + 1))%nat) by (unfold cs; rewrite map_length, seq_length; reflexivity).
  assert (Xn : (0, 0, 1) <> (0, 0, 0)) by (intros E; injection E; lra).
  assert (Sy : symmetric_coefficients cs (deg + 1)).
  { intros n m Hn Hm. unfold cs. rewrite !nth_table by nia. unfold f.
    assert (Q : n = deg \/ (n * n + 2 * n + 1 <= deg * deg)%nat) by (destruct (Nat.eq_dec n deg); [left; assumption|right; nia]).
    destruct (Nat.eqb_spec (n * n + n - m) (deg * deg + deg)); destruct (Nat.eqb_spec (n * n + n + m) (deg * deg + deg)); try reflexivity; exfalso; destruct Q as [->|Q]; lia. }
  assert (Z : forall i, (i < deg * deg)%nat -> nth i cs 0 = 0).
  { intros i Hi. unfold cs. rewrite nth_table by nia. unfold f. replace (i =? deg * deg + deg)%nat with false by (symmetry; apply Nat.eqb_neq; lia). reflexivity. }
  split; [exact Ll|]. split; [exact Sy|]. split; [apply Z; nia|]. split; [exact Xn|].
  destruct (C67_solid (0, 0, 1) cs deg Xn Hd ltac:(nia)) as [E _]; [intros n m Hn Hm; apply Sy; lia|apply Z; nia|]. eexists. split; [exact E|].
  replace (deg + 1)%nat with (S deg) by lia. unfold series. rewrite rsum_S. set (S0 := rsum _ deg).
  rewrite (rsum_single _ (2 * deg + 1) deg).
  - assert (C1 : nth (deg * deg + deg) cs 0 = 1) by (unfold cs; rewrite nth_table by nia; unfold f; rewrite Nat.eqb_refl; reflexivity). rewrite C1.
    unfold order_of. rewrite Nat.ltb_irrefl, Nat.sub_diag. rewrite (solid_value deg 0 (0, 0, 1) ltac:(lia) Xn). unfold Hx, W, vdot, vx, vy, vz. cbn [fst snd cpower].
    replace (0 * 0 + 0 * 0 + 1 * 1) with 1 by ring. rewrite (proj1 (legendre_one deg)). unfold Cmult, RtoC. cbn [fst snd]. pose proof (norm_positive deg 0). lra.
  - lia.
  - intros j Hj Dj. unfold cs. rewrite nth_table by nia. unfold f. replace (deg * deg + j =? deg * deg + deg)%nat with false by (symmetry; apply Nat.eqb_neq; lia). ring.
Qed.

Lemma series_plus : forall cs N f g, series cs N (fun n m => f n m + g n m) = series cs N f + series cs N g.
Proof. intros. unfold series. rewrite <- rsum_plus. apply rsum_ext. intros n Hn. rewrite <- rsum_plus. apply rsum_ext. intros j Hj. ring. Qed.
Lemma series_scal : forall cs N f c, series cs N (fun n m => c * f n m) = c * series cs N f.
Proof. intros. unfold series. rewrite <- rsum_scal. apply rsum_ext. intros n Hn. rewrite <- rsum_scal. apply rsum_ext. intros j Hj. ring. Qed.
Lemma series_col : forall cs deg (w : nat -> R) (T c : nat -> nat -> R), symmetric_coefficients cs deg -> (forall n m, T n m = w n * (fac m * cf cs n m * c n m)) ->
  rsum (col deg T) deg = series cs deg (fun n m => w n * c n m).
Proof.
  intros cs deg w T c Sy HT. rewrite (series_half cs deg _ Sy). unfold col. rewrite (tri_swap T deg). apply rsum_ext. intros n Hn. apply rsum_ext. intros m Hm. rewrite HT. unfold cf. ring.
Qed.
Lemma partner : forall cs deg, (2 <= deg)%nat -> symmetric_coefficients cs deg -> nth (deg * (deg - 1) - (deg - 2)) cs 0 = nth (deg * deg - 2) cs 0.
Proof.
  intros cs deg Hd Sy. pose proof (Sy (deg - 1)%nat (deg - 2)%nat ltac:(lia) ltac:(lia)) as E. 
  replace ((deg - 1) * (deg - 1) + (deg - 1) - (deg - 2))%nat with (deg * (deg - 1) - (deg - 2))%nat in E by (f_equal; nia).
  replace ((deg - 1) * (deg - 1) + (deg - 1) + (deg - 2))%nat with (deg * deg - 2)%nat in E by nia. exact E.
Qed.

(** evaluate_dsphericals: the gradient of the series, if the coefficients with n = deg - 1, |m| = deg - 2 vanish *)
Theorem C67_gradient : forall x cs deg, vnorm x = 1 -> (2 <= deg)%nat -> (deg * deg <= length cs)%nat -> symmetric_coefficients cs deg -> nth (deg * deg - 2) cs 0 = 0 ->
  exists g, evaluate_dsphericals x cs deg = Some g /\ forall d, directional (fun z => series cs deg (fun n m => fst (harmonic n m z))) x d (vdot g d).
Proof.
  intros x cs deg Hx Hd Hl Sy C2. pose proof (partner cs deg Hd Sy) as C3. rewrite C2 in C3.
  rewrite (dspherical_value x cs deg Hx Hd Hl C2 C3). eexists. split; [reflexivity|]. intros d.
  rewrite (series_col cs deg (fun _ => 1) (TX cs x (fun _ => 1)) (fun n m => vx (dvec n m x)) Sy) by reflexivity.
  rewrite (series_col cs deg (fun _ => 1) (TY cs x (fun _ => 1)) (fun n m => vy (dvec n m x)) Sy) by reflexivity.
  rewrite (series_col cs deg (fun _ => 1) (TZ cs x (fun _ => 1)) (fun n m => vz (dvec n m x)) Sy) by reflexivity.
  match goal with |- directional _ _ _ ?v => replace v with (series cs deg (fun n m => vdot (dvec n m x) d)) end.
  - apply (series_dir cs deg (fun n m z => fst (harmonic n m z))). intros n m Hn Hm. apply dir_harmonic.
  - set (sx := series cs deg (fun n m => 1 * vx (dvec n m x))). set (sy := series cs deg (fun n m => 1 * vy (dvec n m x))). set (sz := series cs deg (fun n m => 1 * vz (dvec n m x))).
    transitivity (vx d * sx + vy d * sy + vz d * sz); [|unfold vdot, vx, vy, vz; cbn [fst snd]; ring].
    unfold sx, sy, sz. rewrite <- !series_scal, <- !series_plus. apply series_ext. intros n m Hn Hm. unfold vdot. ring.
Qed.
Lemma solid_dir : forall x n m d, x <> (0, 0, 0) -> (m <= n)%nat -> let u := vscal (1 / vnorm x) x in
  directional (fun z => fst (solid n m z)) x d (w3 (vnorm x) n * vdot (dvec n m u) (functionalMatrix x d) + INR n * vnorm x ^ (n - 1) * fst (harmonic n m u) * vdot u d).
Proof.
  intros x n m d Xn Hm u. pose proof (vnorm_pos x Xn) as P. pose proof (vnorm_unit x Xn) as U. fold u in U. set (N := S n).
  destruct (legendre_table (repeat 0 (((N + 1) * (N + 2)) / 2)) N (vz u) ltac:(lia) (repeat_length _ _)) as [L [_ [LL GL]]].
  assert (Ll : (tri (n + 1) <= length L)%nat) by (rewrite LL; pose proof (tri_lt (n + 1) (N + 1) ltac:(lia)); lia).
  assert (GL' : forall k, (k <= n)%nat -> lgood (vz u) L n k) by (intros k Hk; apply GL; lia).
  destruct (solid_gradient x m n L Xn Hm Ll GL') as [g [E D]]. specialize (D d). destruct D as [D _].
  unfold dsolid_spherical_prev in E. rewrite (norm_unit x Xn) in E. cbn [bind] in E. fold u in E. rewrite (gradient_parts u m n L U Hm Ll GL') in E. cbn [bind] in E.
  assert (Eg : fst g = vadd (vscal (w3 (vnorm x) n) (functionalMatrix x (dvec n m u))) (vscal (INR n * vnorm x ^ (n - 1) * fst (harmonic n m u)) u)).
  { assert (E' : forall a b : vec3 * vec3, Some a = Some b -> a = b) by congruence. apply E' in E. rewrite <- E. clear E E' D. cbn [fst]. f_equal.
    - assert (R3 : (if (3 <? n)%nat then vnorm x ^ (n - 3) else if (n =? 3)%nat then 1 else (1 / vnorm x) ^ (3 - n)) = w3 (vnorm x) n).
      { apply (Rmult_eq_reg_r (vnorm x * vnorm x * vnorm x)); [|assert (0 < vnorm x * vnorm x * vnorm x) by (apply Rmult_lt_0_compat; [apply Rmult_lt_0_compat; exact P|exact P]); lra].
        transitivity (vnorm x ^ n); [rewrite <- (pow_quot (vnorm x) n P); ring|unfold w3; field; lra]. }
      rewrite R3. f_equal. f_equal. unfold dvec, dh. unfold Cmult, RtoC. repeat (apply injective_projections; cbn [fst snd]); ring.
    - destruct (Nat.eqb_spec n 0) as [->|Nn].
      + cbn [INR]. unfold vscal. repeat (apply injective_projections; cbn [fst snd]); ring.
      + f_equal. destruct (Nat.eqb_spec n 1) as [->|N1]; [cbn [INR Nat.sub pow]; ring|ring]. }
  rewrite Eg in D.
  match type of D with directional _ _ _ ?p => match goal with |- directional _ _ _ ?v => replace v with p end end; [exact D|].
  unfold functionalMatrix, vadd, vscal, vdot, vx, vy, vz. cbn [fst snd]. ring.
Qed.
(** the gradient of a series of solid harmonics, composed as in tests/test_HomogenisedCoefficients.cpp 99-116 *)
Theorem C67_solid_gradient : forall x cs deg, x <> (0, 0, 0) -> (3 <= deg)%nat -> (deg * deg <= length cs)%nat -> symmetric_coefficients cs deg ->
  nth (deg * deg - 1) cs 0 = 0 -> nth (deg * deg - 2) cs 0 = 0 ->
  exists a v, evaluate_solid_sphericals x cs deg true = Some a /\ evaluate_dsolid_sphericals x cs deg = Some v /\
    forall d, directional (fun z => series cs deg (fun n m => fst (solid n m z))) x d (vdot (vadd (vscal a (vscal (1 / vnorm x) x)) (functionalMatrix x v)) d).
Proof.
  intros x cs deg Xn Hd Hl Sy C1 C2. pose proof (partner cs deg ltac:(lia) Sy) as C3. rewrite C2 in C3. set (u := vscal (1 / vnorm x) x).
  destruct (C67_solid x cs deg Xn ltac:(lia) Hl Sy C1) as [_ E1]. rewrite E1, (dsolid_value x cs deg Xn Hd Hl C1 C2 C3). fold u. set (w := w3 (vnorm x)).
  do 2 eexists. split; [reflexivity|]. split; [reflexivity|]. intros d.
  rewrite (series_col cs deg w (TX cs u w) (fun n m => vx (dvec n m u)) Sy) by reflexivity.
  rewrite (series_col cs deg w (TY cs u w) (fun n m => vy (dvec n m u)) Sy) by reflexivity.
  rewrite (series_col cs deg w (TZ cs u w) (fun n m => vz (dvec n m u)) Sy) by reflexivity.
  match goal with |- directional _ _ _ ?v => replace v with (series cs deg (fun n m => w n * vdot (dvec n m u) (functionalMatrix x d) + INR n * vnorm x ^ (n - 1) * fst (harmonic n m u) * vdot u d)) end.
  - apply (series_dir cs deg (fun n m z => fst (solid n m z))). intros n m Hn Hm. apply (solid_dir x n m d Xn Hm).
  - set (A := functionalMatrix x d). set (sx := series cs deg (fun n m => w n * vx (dvec n m u))). set (sy := series cs deg (fun n m => w n * vy (dvec n m u))). set (sz := series cs deg (fun n m => w n * vz (dvec n m u))).
    set (sa := series cs deg (fun n m => INR n * vnorm x ^ (n - 1) * fst (harmonic n m u))).
    transitivity (vx A * sx + vy A * sy + vz A * sz + vdot u d * sa).
    + unfold sx, sy, sz, sa. rewrite <- !series_scal, <- !series_plus. apply series_ext. intros n m Hn Hm. unfold vdot at 1. ring.
    + unfold A, functionalMatrix, vadd, vscal, vdot, vx, vy, vz. cbn [fst snd]. ring.
Qed.
(** deg = 2: a factor is not initialised; and in general the last terms are wrong *)
Theorem C67_gradient_degree_two_refuted : forall x cs, evaluate_dsolid_sphericals x cs 2 = None.
Proof. intros x cs. unfold evaluate_dsolid_sphericals. destruct (normalized x); reflexivity. Qed.
Theorem C67_gradient_refuted : exists cs x g, length cs = 4%nat /\ symmetric_coefficients cs 2 /\ vnorm x = 1 /\ evaluate_dsphericals x cs 2 = Some g /\
  ~ directional (fun z => series cs 2 (fun n m => fst (harmonic n m z))) x e3 (vdot g e3).
Proof.
  exists [0; 0; 1; 0], (1, 0, 0). eexists. assert (N1 : vnorm (1, 0, 0) = 1) by (unfold vnorm, vdot, vx, vy, vz; cbn [fst snd]; replace (1 * 1 + 0 * 0 + 0 * 0) with 1 by ring; apply sqrt_1).
  split; [reflexivity|]. split; [|split; [exact N1|]].
  { intros n m Hn Hm. destruct n as [|[|n]]; [| |lia]; destruct m as [|[|m]]; try lia; reflexivity. }
  split.
  { unfold evaluate_dsphericals. rewrite N1. replace (Rabs (1 - 1)) with 0 by (rewrite Rminus_eq_0, Rabs_R0; reflexivity). destruct (Rlt_dec 0 (1 / 1000000)) as [_|N]; [|lra]. cbn. reflexivity. }
  intros D. assert (D' := series_dir [0; 0; 1; 0] 2 (fun n m z => fst (harmonic n m z)) _ (1, 0, 0) e3 (fun n m _ _ => dir_harmonic n m (1, 0, 0) e3)).
  unfold directional in D, D'. pose proof (uniqueness_limite _ _ _ _ D D') as E. clear D D'. revert E.
  unfold series. cbn [rsum Nat.mul Nat.add nth order_of]. unfold order_of. cbn [Nat.ltb Nat.leb Nat.sub]. unfold dvec, vdot, e3, vx, vy, vz. cbn [fst snd].
  replace (H 1 1 0 1) with 1 by (rewrite H_diag; cbn; ring). unfold W. cbn [cpower]. unfold RtoC. cbn [fst snd].
  assert (En : sqrt (2 * (1 + 1 - 1)) * sqrt (0.375 / PI) = harmonic_norm 1 0).
  { rewrite <- sqrt_mult; [|lra|pose proof PI_RGT_0; apply Rlt_le, Rdiv_lt_0_compat; lra]. unfold harmonic_norm. f_equal. cbn. pose proof PI_RGT_0. replace 0.375 with (3 / 8) by lra. field. lra. }
  pose proof (norm_positive 1 0) as Np. intros E. cbn [INR] in E. 
  assert (K : 2 * harmonic_norm 1 0 = harmonic_norm 1 0); [|lra]. rewrite <- En at 1. lra.
Qed.
Example C67_example : symmetric_coefficients [0; 0; 1; 0; 0; 0; 0; 0; 0] 3 /\ exists a v, evaluate_solid_sphericals (1, 2, 3) [0; 0; 1; 0; 0; 0; 0; 0; 0] 3 true = Some a /\ evaluate_dsolid_sphericals (1, 2, 3) [0; 0; 1; 0; 0; 0; 0; 0; 0] 3 = Some v.
Proof.
  assert (Sy : symmetric_coefficients [0; 0; 1; 0; 0; 0; 0; 0; 0] 3).
  { intros n m Hn Hm. destruct n as [|[|[|n]]]; [| | |lia]; destruct m as [|[|[|m]]]; try lia; reflexivity. }
  split; [exact Sy|]. destruct (C67_solid_gradient (1, 2, 3) [0; 0; 1; 0; 0; 0; 0; 0; 0] 3) as [a [v [E1 [E2 _]]]]; [intros E; injection E; lra|lia|cbn; lia|exact Sy|reflexivity|reflexivity|]. exists a, v. split; assumption.
Qed.

(* BEGIN ASSUMPTIONS *)
Print Assumptions C66_value.
Print Assumptions C66_harmonic.
Print Assumptions C66_gradient.
Print Assumptions C66_degree_zero_refuted.
Print Assumptions C67_value.
Print Assumptions C67_solid.
Print Assumptions C67_solid_exact.
Print Assumptions C67_last_term_refuted.
Print Assumptions C67_top_degree_refuted.
Print Assumptions C67_gradient.
Print Assumptions C67_solid_gradient.
Print Assumptions C67_gradient_degree_two_refuted.
Print Assumptions C67_gradient_refuted.
