(** C68: the kernel of the homogenised Laplace operators (Bembel/src/HomogenisedLaplace). *)
From Coq Require Import Reals Arith Bool List Lia Lra ZArith.
From Coquelicot Require Import Coquelicot.
From Verif Require Import ModelBase RSum ModelBall ModelOperators SpecOperators ProofOperators ProofPotential ProofPar PropOperators ModelSpherical SpecSpherical SpecHomogenised ProofSpherical ProofSphericalCode ProofHomogenised PropSpherical.
Import ListNotations.
Local Open Scope R_scope.

(** ** the modified kernel *)
Theorem C68_value : forall x, off_lattice x -> k_mod x = Some (modified x).
Proof. exact k_mod_value. Qed.
Theorem C68_even : forall x, off_lattice x -> k_mod (vscal (-1) x) = k_mod x.
Proof. intros x O. change (vscal (-1) x) with (vneg x). rewrite (k_mod_value x O), (k_mod_value _ (lattice_neg x O)). f_equal. apply modified_even. Qed.
(** Dk_mod is its gradient *)
Theorem C68_gradient : forall x, off_lattice x -> exists g, Dk_mod x = Some g /\ forall d, directional (value k_mod) x d (vdot g d).
Proof.
  intros x O. pose proof (proj1 (off_list x) O) as N. unfold Dk_mod. eexists. split; [eapply bind_eq; [exact (fold_Dkmod x shifts (0, 0, 0) N)|reflexivity]|]. intros d.
  apply (dir_ext_list (fun z => lsum (fun m => laplace_kernel z m) shifts + vdot z z / 6) _ shifts x d _ N).
  { intros z Hz. apply off_list in Hz. unfold value. rewrite (k_mod_value z Hz), (modified_kernels z Hz). reflexivity. }
  match goal with |- directional _ _ _ ?v => replace v with (lsum (fun m => vdot (laplace_gradient x m) d) shifts + vdot x d / 3) end.
  - apply (dir_plus (fun z => lsum (fun m => laplace_kernel z m) shifts) (fun z => vdot z z / 6)); [|apply dir_square].
    apply (dir_lsum (fun m z => laplace_kernel z m)). intros m Hm. apply C49_gradient. intros E. apply N. subst. exact Hm.
  - set (F := fun m => vscal (1 / (vnorm (vsub x m) * vnorm (vsub x m) * vnorm (vsub x m))) (vsub x m)).
    transitivity (- (1 / (4 * PI)) * vdot (vsum F shifts) d + vdot x d / 3).
    + f_equal. rewrite vdot_vsum, <- lsum_scal. apply lsum_ext. intros m Hm. assert (Q : x <> m) by (intros E; apply N; subst; exact Hm).
      pose proof (vnorm_pos _ (vsub_nonzero x m Q)) as P. pose proof PI_RGT_0. unfold F, laplace_gradient. set (c := vsub x m) in *. clearbody c. set (r := vnorm c) in *. clearbody r.
      unfold vdot, vscal, vx, vy, vz; cbn [fst snd]. field. lra.
    + set (v := vsum F shifts). clearbody v. unfold vdot, vadd, vscal, vsub, vx, vy, vz; cbn [fst snd]. pose proof PI_RGT_0. field. lra.
Qed.
Lemma lap_modified : forall x, off_lattice x -> laplacian (fun z => lsum (fun m => laplace_kernel z m) shifts + vdot z z / 6) x 1.
Proof.
  intros x O. pose proof (proj1 (off_list x) O) as N. replace 1 with (0 + 1) by ring.
  apply (lap_plus (fun z => lsum (fun m => laplace_kernel z m) shifts) (fun z => vdot z z / 6)); [|apply lap_square].
  rewrite <- (lsum_zero (fun _ : vec3 => 0) shifts) by reflexivity. apply (lap_lsum (fun m z => laplace_kernel z m)). intros m Hm. apply C49_harmonic. intros E. apply N. subst. exact Hm.
Qed.
(** its Laplacian is 1 *)
Theorem C68_laplacian : forall x, off_lattice x -> laplacian (value k_mod) x 1.
Proof.
  intros x O. pose proof (proj1 (off_list x) O) as N. apply (lap_ext_list (fun z => lsum (fun m => laplace_kernel z m) shifts + vdot z z / 6) _ shifts x _ N); [|apply lap_modified, O].
  intros z Hz. apply off_list in Hz. unfold value. rewrite (k_mod_value z Hz), (modified_kernels z Hz). reflexivity.
Qed.

(** ** the kernel of the operators: k_mod plus a series of solid harmonics *)
Theorem C68_kernel : forall cs deg x y, off_lattice (vsub x y) -> (2 <= deg)%nat -> (deg * deg <= length cs)%nat -> symmetric_coefficients cs deg -> nth (deg * deg - 1) cs 0 = 0 ->
  homogenised_kernel cs deg x y = Some (modified (vsub x y) + series cs deg (fun n m => fst (solid n m (vsub x y)))).
Proof.
  intros cs deg x y O Hd Hl Sy C1. unfold homogenised_kernel. rewrite (k_mod_value _ O). cbn [bind].
  destruct (C67_solid (vsub x y) cs deg (off_zero _ O) Hd Hl Sy C1) as [E _]. rewrite E. reflexivity.
Qed.
(** the kernel is symmetric if the coefficients of odd degree vanish *)
Theorem C68_kernel_symmetric : forall cs deg x y, off_lattice (vsub x y) -> (2 <= deg)%nat -> (deg * deg <= length cs)%nat -> no_odd cs deg ->
  homogenised_kernel cs deg x y = homogenised_kernel cs deg y x.
Proof.
  intros cs deg x y O Hd Hl Od. unfold homogenised_kernel. rewrite (vneg_sub x y). set (z := vsub x y) in *. clearbody z. pose proof (lattice_neg z O) as O'.
  rewrite (k_mod_value z O), (k_mod_value _ O'), (modified_even z). cbn [bind].
  rewrite (solid_sphericals_value z cs deg false (off_zero z O) Hd Hl), (solid_sphericals_value (vneg z) cs deg false (off_zero _ O') Hd Hl). cbv zeta. rewrite neg_unit, vnorm_neg. set (u := vscal (1 / vnorm z) z).
  assert (T : forall n m, (n < deg)%nat -> (m <= n)%nat -> nth (n * (n + 1) + m) cs 0 * fst (harmonic n m (vneg u)) = nth (n * (n + 1) + m) cs 0 * fst (harmonic n m u)).
  { intros n m Hn Hm. destruct (Nat.odd n) eqn:On.
    - replace (n * (n + 1) + m)%nat with (n * n + (n + m))%nat by lia. rewrite (Od n (n + m)%nat Hn On ltac:(lia)). ring.
    - rewrite (harmonic_parity n m u Hm), (even_sign n On). unfold Cmult, RtoC. cbn [fst snd]. ring. }
  cbn [bind]. f_equal. f_equal. f_equal.
  - apply rsum_ext. intros n Hn. apply rsum_ext. intros m Hm. pose proof (T n m Hn ltac:(lia)) as E.
    transitivity (fac m * wgt false (vnorm z) n * (nth (n * (n + 1) + m) cs 0 * fst (harmonic n m u))); [ring|]. rewrite <- E. ring.
  - pose proof (T (deg - 1)%nat (deg - 1)%nat ltac:(lia) ltac:(lia)) as E. replace ((deg - 1) * (deg - 1 + 1) + (deg - 1))%nat with (deg * deg - 1)%nat in E by nia.
    rewrite !Rmult_assoc. f_equal. symmetry. exact E.
Qed.
Lemma lap_solid_re : forall n m x, (m <= n)%nat -> x <> (0, 0, 0) -> laplacian (fun z => fst (solid n m z)) x 0.
Proof.
  intros n m x Hm Xn. destruct (lap_solid n m x) as [La _]. cbn [RtoC fst snd] in La.
  apply (lap_ext_off (fun z => harmonic_norm n m * fst (Cmult (RtoC (Hx n m z)) (W z m))) _ x (0, 0, 0)); [exact Xn| |].
  - intros z Hz. rewrite (solid_value n m z Hm Hz). unfold Cmult, RtoC. cbn [fst snd]. ring.
  - rewrite <- (Rmult_0_r (harmonic_norm n m)). apply (lap_scal (fun z => fst (Cmult (RtoC (Hx n m z)) (W z m)))). exact La.
Qed.
Lemma lap_series : forall cs N x, x <> (0, 0, 0) -> laplacian (fun z => series cs N (fun n m => fst (solid n m z))) x 0.
Proof.
  intros cs N x Xn. unfold series. assert (Z : rsum (fun n => rsum (fun j => nth (n * n + j) cs 0 * 0) (2 * n + 1)) N = 0).
  { apply rsum_zero. intros n Hn. apply rsum_zero. intros j Hj. ring. }
  match goal with |- laplacian ?f ?p _ => assert (L : laplacian f p (rsum (fun n => rsum (fun j => nth (n * n + j) cs 0 * 0) (2 * n + 1)) N)); [|rewrite Z in L; exact L] end.
  apply (lap_rsum (fun n z => rsum (fun j => nth (n * n + j) cs 0 * fst (solid n (order_of n j) z)) (2 * n + 1))). intros n Hn.
    apply (lap_rsum (fun j z => nth (n * n + j) cs 0 * fst (solid n (order_of n j) z))). intros j Hj.
    apply (lap_scal (fun z => fst (solid n (order_of n j) z))). apply lap_solid_re; [apply order_le, Hj|exact Xn].
Qed.
(** minus the Laplacian is the Dirac function of the lattice minus 1: away from the lattice, the Laplacian is 1 *)
Theorem C68_kernel_laplacian : forall cs deg x, off_lattice x -> (2 <= deg)%nat -> (deg * deg <= length cs)%nat -> symmetric_coefficients cs deg -> nth (deg * deg - 1) cs 0 = 0 ->
  laplacian (value (fun z => homogenised_kernel cs deg z (0, 0, 0))) x 1.
Proof.
  intros cs deg x O Hd Hl Sy C1. pose proof (proj1 (off_list x) O) as N.
  apply (lap_ext_list (fun z => (lsum (fun m => laplace_kernel z m) shifts + vdot z z / 6) + series cs deg (fun n m => fst (solid n m z))) _ shifts x _ N).
  - intros z Hz. apply off_list in Hz. assert (Z : vsub z (0, 0, 0) = z) by (destruct z as [[a b] c]; unfold vsub, vx, vy, vz; cbn [fst snd]; repeat (apply injective_projections; cbn [fst snd]); ring).
    unfold value. rewrite C68_kernel by (rewrite ?Z; assumption). rewrite Z, (modified_kernels z Hz). reflexivity.
  - replace 1 with (1 + 0) by ring. apply (lap_plus (fun z => lsum (fun m => laplace_kernel z m) shifts + vdot z z / 6) (fun z => series cs deg (fun n m => fst (solid n m z)))); [apply lap_modified, O|apply lap_series, off_zero, O].
Qed.
Example C68_example : off_lattice (1/2, 1/3, 1/4) /\ no_odd [1; 0; 0; 0; 1; 0; 2; 0; 1; 0; 0; 0; 0; 0; 0; 0] 4 /\ symmetric_coefficients [1; 0; 0; 0; 1; 0; 2; 0; 1; 0; 0; 0; 0; 0; 0; 0] 4 /\
  exists v, homogenised_kernel [1; 0; 0; 0; 1; 0; 2; 0; 1; 0; 0; 0; 0; 0; 0; 0] 4 (1/2, 1/3, 1/4) (0, 0, 0) = Some v.
Proof.
  assert (O : off_lattice (1/2, 1/3, 1/4)).
  { intros i j k Hi Hj Hk E. unfold lattice in E. injection E. intros _ _ E1. assert (K : INR i = 3 / 2) by lra. destruct i as [|[|[|i]]]; cbn [INR] in K; lra || lia. }
  assert (Sy : symmetric_coefficients [1; 0; 0; 0; 1; 0; 2; 0; 1; 0; 0; 0; 0; 0; 0; 0] 4).
  { intros n m Hn Hm. destruct n as [|[|[|[|n]]]]; [| | | |lia]; destruct m as [|[|[|[|m]]]]; try lia; reflexivity. }
  split; [exact O|]. split; [|split; [exact Sy|]].
  { intros n j Hn On Hj. destruct n as [|[|[|[|n]]]]; try discriminate On; [| |lia].
    - destruct j as [|[|[|j]]]; [| | |lia]; reflexivity.
    - destruct j as [|[|[|[|[|[|[|j]]]]]]]; [| | | | | | |lia]; reflexivity. }
  assert (Z : vsub (1/2, 1/3, 1/4) (0, 0, 0) = (1/2, 1/3, 1/4)) by (unfold vsub, vx, vy, vz; cbn [fst snd]; repeat (apply injective_projections; cbn [fst snd]); ring).
  eexists. apply C68_kernel; [rewrite Z; exact O|lia|cbn; lia|exact Sy|reflexivity].
Qed.

(* BEGIN ASSUMPTIONS *)
Print Assumptions C68_value.
Print Assumptions C68_even.
Print Assumptions C68_gradient.
Print Assumptions C68_laplacian.
Print Assumptions C68_kernel.
Print Assumptions C68_kernel_symmetric.
Print Assumptions C68_kernel_laplacian.
