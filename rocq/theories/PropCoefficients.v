(** C69: the coefficients of the periodic kernel. *)
From Coq Require Import Reals Arith Bool List Lia Lra ZArith Permutation.
From Coquelicot Require Import Coquelicot.
From Verif Require Import ModelBase RSum ModelBall ModelOperators SpecOperators ProofPar SpecInterp ModelSpherical ModelQuad SpecSpherical SpecHomogenised ModelCoefficients SpecCoefficients PropQuad
  ProofSphericalTable ProofSphericalCode ProofHomogenised PropSpherical PropHomogenised ProofCoefficients ProofCoefficients2 ProofCoefficients3 ProofGauss PropGauss ProofLeastSquares PropUtil.
Import ListNotations.
Local Open Scope R_scope.

(** the coefficients minimise the sum of the squares of the jumps of the kernel and of its normal derivative at the points *)
Theorem C69_least_squares : forall solve mem jA jd jf xs ws p, least_squares solve -> sized (getDegree p) mem -> length jf = ((getDegree p + 1) * (getDegree p + 1))%nat -> length ws = length xs ->
  exists cs, getCoefficients solve mem jA jd jf xs ws p = Some cs /\ length cs = ((getDegree p + 1) * (getDegree p + 1))%nat /\ symmetric_coefficients cs (getDegree p + 1) /\
  forall cs', symmetric_coefficients cs' (getDegree p + 1) -> defect (expansion cs (getDegree p + 1)) xs <= defect (expansion cs' (getDegree p + 1)) xs.
Proof.
  intros solve mem jA jd jf xs ws p Ls Sz Lj Lw. destruct (coefficients_value solve mem jA jd jf xs ws p Sz Lj Lw) as [A [d [cs0 [cs [E [Lc [_ [_ [Sy [_ [_ [_ [Pk [VA Vd]]]]]]]]]]]]]]. set (deg := getDegree p) in *.
  exists cs. split; [exact E|]. split; [exact Lc|]. split; [exact Sy|]. intros cs' Sy'.
  destruct (pack_exists (fun n m => nth (n * (n + 1) + m) cs' 0) deg) as [y Py].
  rewrite <- (residual_defect A d _ cs deg xs Sy Pk VA Vd), <- (residual_defect A d y cs' deg xs Sy' Py VA Vd). apply Ls.
Qed.
(** they are the only ones, except for the constant term *)
Theorem C69_unique : forall solve mem jA jd jf t xs ws p cs cs', least_squares solve -> sized (getDegree p) mem -> length jf = ((getDegree p + 1) * (getDegree p + 1))%nat -> length ws = length xs ->
  square_grid t (getDegree p) xs -> getCoefficients solve mem jA jd jf xs ws p = Some cs ->
  symmetric_coefficients cs' (getDegree p + 1) -> defect (expansion cs' (getDegree p + 1)) xs <= defect (expansion cs (getDegree p + 1)) xs ->
  forall n j, (1 <= n <= getDegree p)%nat -> (j < 2 * n + 1)%nat -> nth (n * n + j) cs' 0 = nth (n * n + j) cs 0.
Proof.
  intros solve mem jA jd jf t xs ws p cs cs' Ls Sz Lj Lw G E Sy' Le. destruct (coefficients_value solve mem jA jd jf xs ws p Sz Lj Lw) as [A [d [cs0 [cs1 [E1 [Lc [_ [_ [Sy [_ [_ [_ [Pk [VA Vd]]]]]]]]]]]]]].
  rewrite E in E1. apply some_inj in E1. subst cs1. set (deg := getDegree p) in *. set (x := solve _ _ _ _) in *.
  destruct (pack_exists (fun n m => nth (n * (n + 1) + m) cs' 0) deg) as [y Py].
  rewrite <- (residual_defect A d x cs deg xs Sy Pk VA Vd), <- (residual_defect A d y cs' deg xs Sy' Py VA Vd) in Le.
  pose proof (same_image _ _ _ _ x y (fun z => Ls _ _ _ _ z) Le) as Si.
  pose proof (full_rank deg t xs A (fun c => x c - y c) G VA Si) as F.
  assert (Q : forall n m, (1 <= n <= deg)%nat -> (m <= n)%nat -> nth (n * n + n + m) cs' 0 = nth (n * n + n + m) cs 0).
  { intros n m Hn Hm. specialize (F n m Hn Hm). cbv beta in F. rewrite (Pk n m Hn Hm), (Py n m Hn Hm) in F. replace (n * (n + 1) + m)%nat with (n * n + n + m)%nat in F by lia. lra. }
  intros n j Hn Hj. destruct (Nat.le_gt_cases n j) as [L|L].
  - replace (n * n + j)%nat with (n * n + n + (j - n))%nat by lia. apply Q; lia.
  - replace (n * n + j)%nat with (n * n + n - (n - j))%nat by lia. rewrite (Sy' n (n - j)%nat), (Sy n (n - j)%nat) by lia. apply Q; lia.
Qed.
(** with the constant term, the average of the kernel over the faces is -1/24 *)
Theorem C69_average : forall solve mem jA jd jf xs ws p cs, sized (getDegree p) mem -> length jf = ((getDegree p + 1) * (getDegree p + 1))%nat -> length ws = length xs ->
  rsum (fun k => nth k ws 0) (length xs) = 1 -> getCoefficients solve mem jA jd jf xs ws p = Some cs -> face_average (expansion cs (getDegree p)) xs ws = - (1 / 24).
Proof.
  intros solve mem jA jd jf xs ws p cs Sz Lj Lw W1 E. destruct (coefficients_value solve mem jA jd jf xs ws p Sz Lj Lw) as [A [d [cs0 [cs1 [E1 [_ [_ [_ [_ [K [Z0 [C0 _]]]]]]]]]]]].
  rewrite E in E1. apply some_inj in E1. subst cs1. pose proof (degree_bound p) as [Dg _]. set (deg := getDegree p) in *.
  assert (X : forall f a b, expansion cs deg (face f a b) = expansion cs0 deg (face f a b) + nth 0 cs 0 / (2 * sqrt PI)).
  { intros f a b. unfold expansion. rewrite (series_first cs0 cs deg _ ltac:(lia) K), Z0, solid00 by apply face_nonzero. pose proof (sqrt_lt_R0 _ PI_RGT_0). field. lra. }
  assert (Av : face_average (expansion cs deg) xs ws = face_average (expansion cs0 deg) xs ws + nth 0 cs 0 / (2 * sqrt PI)).
  { unfold face_average. rewrite (rsum_ext _ (fun k => nth k ws 0 * rsum (fun f => expansion cs0 deg (face f (fst (nth k xs (0, 0))) (snd (nth k xs (0, 0))))) 3 + 3 * (nth 0 cs 0 / (2 * sqrt PI)) * nth k ws 0)).
    - rewrite rsum_plus, rsum_scal, W1. field. pose proof (sqrt_lt_R0 _ PI_RGT_0). lra.
    - intros k _. cbn [rsum]. rewrite !X. ring. }
  rewrite Av, C0. pose proof (sqrt_lt_R0 _ PI_RGT_0). field. lra.
Qed.
(** the coefficients do not depend on the uninitialised memory nor on the solver *)
Theorem C69_deterministic : forall solve mem jA jd jf solve' mem' jA' jd' jf' t xs ws p cs cs', least_squares solve -> sized (getDegree p) mem -> length jf = ((getDegree p + 1) * (getDegree p + 1))%nat ->
  least_squares solve' -> sized (getDegree p) mem' -> length jf' = ((getDegree p + 1) * (getDegree p + 1))%nat -> length ws = length xs -> square_grid t (getDegree p) xs ->
  getCoefficients solve mem jA jd jf xs ws p = Some cs -> getCoefficients solve' mem' jA' jd' jf' xs ws p = Some cs' -> cs' = cs.
Proof.
  intros solve mem jA jd jf solve' mem' jA' jd' jf' t xs ws p cs cs' Ls Sz Lj Ls' Sz' Lj' Lw G E E'.
  destruct (C69_least_squares solve' mem' jA' jd' jf' xs ws p Ls' Sz' Lj' Lw) as [cs1 [E1 [L1 [Sy1 M1]]]]. rewrite E' in E1. apply some_inj in E1. subst cs1.
  destruct (C69_least_squares solve mem jA jd jf xs ws p Ls Sz Lj Lw) as [cs1 [E1 [L2 [Sy2 M2]]]]. rewrite E in E1. apply some_inj in E1. subst cs1.
  pose proof (C69_unique solve mem jA jd jf t xs ws p cs cs' Ls Sz Lj Lw G E Sy1 (M1 cs Sy2)) as U.
  destruct (coefficients_value solve mem jA jd jf xs ws p Sz Lj Lw) as [_ [_ [cs0 [cs1 [E1 [_ [La [_ [_ [K [Z0 [C0 _]]]]]]]]]]]]. rewrite E in E1. apply some_inj in E1. subst cs1.
  destruct (coefficients_value solve' mem' jA' jd' jf' xs ws p Sz' Lj' Lw) as [_ [_ [cs0' [cs1 [E1 [_ [Lb [_ [_ [K' [Z0' [C0' _]]]]]]]]]]]]. rewrite E' in E1. apply some_inj in E1. subst cs1.
  pose proof (degree_bound p) as [Dg _]. set (deg := getDegree p) in *.
  assert (U0 : forall a, (a < (deg + 1) * (deg + 1))%nat -> (a <> 0)%nat -> nth a cs' 0 = nth a cs 0).
  { intros a Ha Na. pose proof (Nat.sqrt_spec a ltac:(lia)) as S1. set (n := Nat.sqrt a) in *. replace a with (n * n + (a - n * n))%nat by lia. apply U; nia. }
  assert (Eq0 : cs0' = cs0). { apply (nth_ext _ _ 0 0); [lia|]. intros a Ha. destruct (Nat.eq_dec a 0) as [->|Na]; [congruence|]. rewrite <- K, <- K' by exact Na. apply U0; [lia|exact Na]. }
  apply (nth_ext _ _ 0 0); [lia|]. intros a Ha. destruct (Nat.eq_dec a 0) as [->|Na]; [rewrite C0, C0', Eq0; reflexivity|]. apply U0; [lia|exact Na].
Qed.
(** if the points are symmetric about the centre of the faces, the coefficients of odd degree vanish *)
Theorem C69_even : forall solve mem jA jd jf t xs ws p cs, least_squares solve -> sized (getDegree p) mem -> length jf = ((getDegree p + 1) * (getDegree p + 1))%nat -> length ws = length xs ->
  square_grid t (getDegree p) xs -> mirrored t -> getCoefficients solve mem jA jd jf xs ws p = Some cs -> no_odd cs (getDegree p + 1).
Proof.
  intros solve mem jA jd jf t xs ws p cs Ls Sz Lj Lw G Mi E n j Hn O Hj. destruct (C69_least_squares solve mem jA jd jf xs ws p Ls Sz Lj Lw) as [cs1 [E1 [L2 [Sy M]]]]. rewrite E in E1. apply some_inj in E1. subst cs1.
  set (deg := getDegree p) in *. assert (Df : defect (expansion (signed cs (deg + 1)) (deg + 1)) xs = defect (expansion cs (deg + 1)) xs) by (destruct G as [-> [Nd _]]; apply defect_mirror; assumption).
  destruct n as [|n]; [discriminate|].
  pose proof (C69_unique solve mem jA jd jf t xs ws p cs (signed cs (deg + 1)) Ls Sz Lj Lw G E (signed_symmetric cs (deg + 1) Sy)) as U. fold deg in U. rewrite Df in U. specialize (U (Rle_refl _) (S n) j ltac:(lia) Hj).
  rewrite signed_value in U by lia. rewrite ProofPeriodic2.sign_odd, O in U. lra.
Qed.
(** the kernel of the operators with these coefficients *)
Theorem C69_kernel : forall solve mem jA jd jf t xs ws p cs, least_squares solve -> sized (getDegree p) mem -> length jf = ((getDegree p + 1) * (getDegree p + 1))%nat -> length ws = length xs ->
  square_grid t (getDegree p) xs -> mirrored t -> getCoefficients solve mem jA jd jf xs ws p = Some cs ->
  (forall x y, off_lattice (vsub x y) -> homogenised_kernel cs (getDegree p) x y = Some (expansion cs (getDegree p) (vsub x y)) /\ homogenised_kernel cs (getDegree p) x y = homogenised_kernel cs (getDegree p) y x) /\
  (forall x, off_lattice x -> laplacian (value (fun z => homogenised_kernel cs (getDegree p) z (0, 0, 0))) x 1).
Proof.
  intros solve mem jA jd jf t xs ws p cs Ls Sz Lj Lw G Mi E. destruct (C69_least_squares solve mem jA jd jf xs ws p Ls Sz Lj Lw) as [cs1 [E1 [Lc [Sy M]]]]. rewrite E in E1. apply some_inj in E1. subst cs1.
  pose proof (C69_even solve mem jA jd jf t xs ws p cs Ls Sz Lj Lw G Mi E) as No. pose proof (degree_bound p) as [Dg Ev]. set (deg := getDegree p) in *.
  assert (Sy' : symmetric_coefficients cs deg) by (intros n m Hn Hm; apply Sy; lia). assert (No' : no_odd cs deg) by (intros n j Hn O Hj; apply No; lia || assumption).
  assert (Last : nth (deg * deg - 1) cs 0 = 0).
  { replace (deg * deg - 1)%nat with ((deg - 1) * (deg - 1) + 2 * (deg - 1))%nat by nia. apply No'; [lia| |lia]. replace deg with (S (deg - 1)) in Ev by lia. rewrite Nat.odd_succ, <- Nat.negb_odd in Ev. apply negb_false_iff in Ev. exact Ev. }
  split.
  - intros x y O. split; [apply C68_kernel; assumption || nia|apply C68_kernel_symmetric; assumption || nia].
  - intros x O. apply C68_kernel_laplacian; assumption || nia.
Qed.

(** ** the rule of the code *)
Lemma product_points : forall l1 l2 : list R, map (fun k => (nth (k / length l2) l1 0, nth (k mod length l2) l2 0)) (seq 0 (length l1 * length l2)) = list_prod l1 l2.
Proof.
  intros l1 l2. destruct l2 as [|b0 r]; [rewrite Nat.mul_0_r; symmetry; induction l1 as [|a l1 IH]; [reflexivity|exact IH]|]. remember (b0 :: r) as l2 eqn:El. set (n := length l2). assert (Hn : (n <> 0)%nat) by (unfold n; rewrite El; discriminate). clear El b0 r.
  induction l1 as [|a l1 IH]; [reflexivity|]. cbn [length list_prod]. cbn [Nat.mul]. rewrite seq_app, map_app. f_equal.
  - apply (nth_ext _ _ (0, 0) (0, 0)); [rewrite !map_length, seq_length; reflexivity|]. intros k Hk. rewrite map_length, seq_length in Hk.
    rewrite (nth_indep _ (0, 0) ((fun k => (nth (k / n) (a :: l1) 0, nth (k mod n) l2 0)) 0%nat)) by (rewrite map_length, seq_length; exact Hk). rewrite (map_nth (fun k => (nth (k / n) (a :: l1) 0, nth (k mod n) l2 0))), seq_nth by exact Hk. cbn [Nat.add].
    rewrite Nat.div_small, Nat.mod_small by exact Hk. rewrite (nth_indep _ (0, 0) ((fun y => (a, y)) 0)) by (rewrite map_length; exact Hk). rewrite (map_nth (fun y => (a, y))). reflexivity.
  - rewrite <- IH. rewrite Nat.add_0_l. replace (seq n (length l1 * n)) with (map (fun k => (k + n)%nat) (seq 0 (length l1 * n))).
    + rewrite map_map. apply map_ext. intros k. replace (k + n)%nat with (k + 1 * n)%nat by lia. rewrite Nat.div_add, Nat.mod_add by exact Hn. replace (k / n + 1)%nat with (S (k / n)) by lia. reflexivity.
    + clear. assert (Q : forall m b, map (fun k => (k + n)%nat) (seq b m) = seq (b + n) m); [|apply (Q _ 0%nat)]. induction m as [|m IH]; intros b; [reflexivity|]. cbn [seq map]. f_equal. apply (IH (S b)).
Qed.
Lemma point_rule_eq : forall lam V, point_rule lam V = tensor_rule (eigen_rule 21 lam V).
Proof. intros. unfold point_rule. rewrite C38_lookup. reflexivity. Qed.
(** the points are a symmetric grid and the weights sum up to 1 *)
Theorem C69_rule : forall lam V, eigen_decomposition 21 jacobi lam V -> exists t, (forall p, square_grid t (getDegree p) (shifted_points lam V)) /\ mirrored t /\ (forall a, In a t -> -1/2 < a < 1/2) /\
  length (rule_weights lam V) = length (shifted_points lam V) /\ rsum (fun k => nth k (rule_weights lam V) 0) (length (shifted_points lam V)) = 1.
Proof.
  intros lam V D. set (t := map (fun i => lam i / 2) (seq 0 21)). set (g := map (fun i => 1 / 2 * (lam i + 1)) (seq 0 21)).
  assert (Ep : shifted_points lam V = list_prod t t).
  { unfold shifted_points. rewrite point_rule_eq. unfold tensor_rule, eigen_rule. cbn [fst snd]. fold g. rewrite product_points.
    assert (Et : t = map (fun a => a - 0.5) g). { unfold t, g. rewrite map_map. apply map_ext. intros i. replace 0.5 with (1 / 2) by lra. field. }
    rewrite Et. assert (Q : forall l l' : list R, map (fun q => (fst q - 0.5, snd q - 0.5)) (list_prod l l') = list_prod (map (fun a => a - 0.5) l) (map (fun a => a - 0.5) l')); [|apply Q].
    intros l l'. induction l as [|a l IH]; [reflexivity|]. cbn [list_prod map]. rewrite map_app, IH. f_equal. rewrite !map_map. reflexivity. }
  exists t. split; [|split; [|split; [|split]]].
  - intros p. split; [exact Ep|]. split; [|unfold t; rewrite map_length, seq_length; pose proof (degree_bound p); lia].
    apply (NoDup_nth t 0). unfold t. rewrite map_length, seq_length. intros i j Hi Hj E. rewrite !nth_map_seq in E by assumption. destruct (Nat.eq_dec i j) as [Q|Q]; [exact Q|]. exfalso.
    apply (nodes_distinct 21 lam V ltac:(lia) D i j Hi Hj Q). lra.
  - intros a Ha. apply in_map_iff in Ha. destruct Ha as [i [<- Hi]]. apply in_seq in Hi. destruct (node_mirror 21 lam V ltac:(lia) D i ltac:(lia)) as [j [Hj Ej]]. apply in_map_iff. exists j. split; [rewrite Ej; field|apply in_seq; lia].
  - intros a Ha. apply in_map_iff in Ha. destruct Ha as [i [<- Hi]]. apply in_seq in Hi. pose proof (leg_root_range 21 (lam i) (node_root 21 lam V ltac:(lia) D i ltac:(lia))). lra.
  - unfold rule_weights, shifted_points. rewrite point_rule_eq. unfold tensor_rule, eigen_rule. cbn [fst snd]. rewrite !map_length, !seq_length. reflexivity.
  - destruct (C55_weights 21 lam V _ _ ltac:(lia) D eq_refl) as [_ W1]. unfold rule_weights, shifted_points. rewrite point_rule_eq. unfold tensor_rule, eigen_rule. cbn [fst snd]. rewrite !map_length, !seq_length. set (w := map (fun i => V 0%nat i * V 0%nat i) (seq 0 21)) in *.
    rewrite (rsum_ext _ (fun k => nth (k / 21) w 0 * nth (k mod 21) w 0)) by (intros k Hk; apply (nth_map_seq (fun k => nth (k / 21) w 0 * nth (k mod 21) w 0)); exact Hk).
    rewrite rsum_flatten. rewrite (rsum_ext _ (fun i => nth i w 0 * 1)); [rewrite rsum_scal_r, W1; ring|]. intros i Hi. rewrite <- W1, <- rsum_scal. apply rsum_ext. intros j Hj.
    rewrite (Nat.div_add_l i 21 j) by lia. rewrite Nat.div_small by exact Hj. rewrite Nat.add_0_r, (Nat.add_comm (i * 21)), Nat.mod_add, Nat.mod_small by lia. reflexivity.
Qed.
(** the kernel with the coefficients computed by the code *)
Theorem C69_code : forall solve mem jA jd jf lam V p, least_squares solve -> sized (getDegree p) mem -> length jf = ((getDegree p + 1) * (getDegree p + 1))%nat -> eigen_decomposition 21 jacobi lam V ->
  exists cs, getCoefficients solve mem jA jd jf (shifted_points lam V) (rule_weights lam V) p = Some cs /\ no_odd cs (getDegree p + 1) /\
    face_average (expansion cs (getDegree p)) (shifted_points lam V) (rule_weights lam V) = - (1 / 24) /\
    (forall x y, off_lattice (vsub x y) -> homogenised_kernel cs (getDegree p) x y = Some (expansion cs (getDegree p) (vsub x y)) /\ homogenised_kernel cs (getDegree p) x y = homogenised_kernel cs (getDegree p) y x).
Proof.
  intros solve mem jA jd jf lam V p Ls Sz Lj D. destruct (C69_rule lam V D) as [t [G [Mi [_ [Lw W1]]]]]. specialize (G p).
  destruct (C69_least_squares solve mem jA jd jf _ _ p Ls Sz Lj Lw) as [cs [E _]]. exists cs. split; [exact E|]. split; [exact (C69_even solve mem jA jd jf t _ _ p cs Ls Sz Lj Lw G Mi E)|].
  split; [exact (C69_average solve mem jA jd jf _ _ p cs Sz Lj Lw W1 E)|]. exact (proj1 (C69_kernel solve mem jA jd jf t _ _ p cs Ls Sz Lj Lw G Mi E)).
Qed.
(** the degree: even, and not lower for a higher precision *)
Theorem C69_degree : forall p q, p <= q -> (4 <= getDegree q <= getDegree p)%nat /\ (getDegree p <= 12)%nat /\ Nat.even (getDegree p) = true.
Proof.
  intros p q L. unfold getDegree. destruct (Rlt_dec (1 / 10000) p), (Rlt_dec (1 / 10000) q), (Rlt_dec (1 / 1000000) p), (Rlt_dec (1 / 1000000) q); try (exfalso; lra); repeat split; lia || reflexivity.
Qed.
(** the hypotheses are met: a solver, memory of the right size, and the rule of the code exist *)
Example C69_example : exists solve mem (jf : list R) lam V cs, least_squares solve /\ sized (getDegree 0) mem /\ length jf = ((getDegree 0 + 1) * (getDegree 0 + 1))%nat /\ eigen_decomposition 21 jacobi lam V /\
  getCoefficients solve mem (fun _ _ => 7) (fun _ => 8) jf (shifted_points lam V) (rule_weights lam V) 0 = Some cs.
Proof.
  destruct solver_exists as [solve Ls]. destruct (C55_exists 21 ltac:(lia)) as [lam [V D]].
  set (d := getDegree 0). set (mem := fun _ : vec3 => ((repeat 1 ((d + 1) * (d + 1)), repeat 2 ((d + 1) * (d + 1))), 3, repeat 4 (((d + 1) * (d + 2)) / 2), repeat ((5, 5, 5) : vec3) ((d + 1) * (d + 1)))).
  assert (Sz : sized d mem) by (intros v; unfold mem; cbn [fst snd]; rewrite !repeat_length; auto).
  destruct (C69_code solve mem (fun _ _ => 7) (fun _ => 8) (repeat 6 ((d + 1) * (d + 1))) lam V 0 Ls Sz (repeat_length _ _) D) as [cs [E _]].
  exists solve, mem, (repeat 6 ((d + 1) * (d + 1))), lam, V, cs. split; [exact Ls|]. split; [exact Sz|]. split; [apply repeat_length|]. split; [exact D|exact E].
Qed.

(* BEGIN ASSUMPTIONS *)
Print Assumptions C69_least_squares.
Print Assumptions C69_unique.
Print Assumptions C69_average.
Print Assumptions C69_deterministic.
Print Assumptions C69_even.
Print Assumptions C69_kernel.
Print Assumptions C69_rule.
Print Assumptions C69_code.
Print Assumptions C69_degree.
