(** Proofs for C68. *)
From Coq Require Import Reals Arith Bool List Lia Lra ZArith.
From Coquelicot Require Import Coquelicot.
From Verif Require Import ModelBase RSum ModelBall ModelOperators SpecOperators ProofOperators ProofPotential ProofPar PropOperators ModelSpherical SpecSpherical SpecHomogenised ProofSpherical ProofSphericalCode.
Import ListNotations.
Local Open Scope R_scope.

(** ** functions that agree off finitely many points *)
Lemma locally_off : forall x y d, x <> y -> locally 0 (fun t => SpecOperators.along x d t <> y).
Proof.
  intros z y d Hz2. pose proof (vnorm_pos _ (vsub_nonzero z y Hz2)) as Qz. pose proof (norm_line (vsub z y) d (vsub_nonzero z y Hz2)) as N.
  assert (Ct : continuous (fun t => vnorm (vadd (vsub z y) (vscal t d))) 0) by (apply (ex_derive_continuous (fun t => vnorm (vadd (vsub z y) (vscal t d)))); eexists; exact N).
  specialize (Ct (fun u => 0 < u)). cbv beta in Ct. rewrite vscal0 in Ct.
  assert (Lo : locally (vnorm (vsub z y)) (fun u => 0 < u)).
  { exists (mkposreal _ Qz). intros u Hu. unfold ball in Hu; simpl in Hu; unfold AbsRing_ball, abs, minus, plus, opp in Hu; simpl in Hu. apply Rabs_def2 in Hu. lra. }
  specialize (Ct Lo). unfold filtermap in Ct. revert Ct. apply filter_imp. intros t Ht. rewrite <- along_sub in Ht.
  intros Ez. rewrite Ez in Ht. assert (Z : vnorm (vsub y y) = 0); [|lra]. unfold vnorm. replace (vdot (vsub y y) (vsub y y)) with 0; [apply sqrt_0|].
  unfold vdot, vsub, vx, vy, vz; cbn [fst snd]; ring.
Qed.
Lemma locally_list : forall l x d, ~ In x l -> locally 0 (fun t => ~ In (SpecOperators.along x d t) l).
Proof.
  induction l as [|y l IH]; intros x d N.
  - exists (mkposreal 1 Rlt_0_1). intros t _ [].
  - assert (A := IH x d (fun K => N (or_intror K))). assert (B : locally 0 (fun t => SpecOperators.along x d t <> y)) by (apply locally_off; intros E; apply N; left; congruence).
    generalize (filter_and _ _ A B). apply filter_imp. intros t [P Q] [K|K]; [apply Q; congruence|apply P, K].
Qed.
Lemma near_list : forall l (x : vec3), ~ In x l -> exists eps, 0 < eps /\ forall z, vnorm (vsub z x) < eps -> ~ In z l.
Proof.
  induction l as [|y l IH]; intros x N; [exists 1; split; [lra|intros z _ []]|].
  destruct (IH x (fun K => N (or_intror K))) as [e [He P]]. destruct (neighbourhood x y (fun K => N (or_introl (eq_sym K)))) as [e' [He' P']].
  exists (Rmin e e'). split; [apply Rmin_glb_lt; assumption|]. intros z Hz [K|K].
  - apply (P' z); [eapply Rlt_le_trans; [exact Hz|apply Rmin_r]|congruence].
  - apply (P z); [eapply Rlt_le_trans; [exact Hz|apply Rmin_l]|exact K].
Qed.
Lemma dir_ext_list : forall f g l x d a, ~ In x l -> (forall z, ~ In z l -> f z = g z) -> directional f x d a -> directional g x d a.
Proof.
  intros f g l x d a N E X. unfold directional in *. apply is_derive_Reals. apply is_derive_Reals in X. apply (is_derive_ext_loc (fun t => f (SpecOperators.along x d t))); [|exact X].
  generalize (locally_list l x d N). apply filter_imp. intros t Ht. apply E, Ht.
Qed.
Lemma lap_ext_list : forall f g l x a, ~ In x l -> (forall z, ~ In z l -> f z = g z) -> laplacian f x a -> laplacian g x a.
Proof.
  intros f g l x a N E [g1 [g2 [g3 [l1 [l2 [l3 [[eps [He D]] Q]]]]]]]. exists g1, g2, g3, l1, l2, l3. split; [|exact Q].
  destruct (near_list l x N) as [eps2 [He2 Hn]]. exists (Rmin eps eps2). split; [apply Rmin_glb_lt; assumption|]. intros z Hz.
  destruct (D z) as [D1 [D2 D3]]; [eapply Rlt_le_trans; [exact Hz|apply Rmin_l]|].
  assert (Hz2 : ~ In z l) by (apply Hn; eapply Rlt_le_trans; [exact Hz|apply Rmin_r]).
  repeat split; apply (dir_ext_list f g l); assumption.
Qed.

(** ** the sum over the lattice *)
Lemma shifts_lattice : shifts = flat_map (fun i => flat_map (fun j => map (fun k => lattice i j k) (seq 0 3)) (seq 0 3)) (seq 0 3).
Proof.
  unfold shifts. assert (E : [-1; 0; 1] = map (fun i => INR i - 1) (seq 0 3)) by (cbn; repeat f_equal; lra). rewrite E.
  cbn [seq map flat_map app]. reflexivity.
Qed.
Lemma lsum_flat : forall {A B} (f : B -> R) (g : A -> list B) l, lsum f (flat_map g l) = lsum (fun a => lsum f (g a)) l.
Proof. intros A B f g l. induction l as [|a l IH]; [reflexivity|]. cbn [flat_map lsum]. rewrite lsum_app, IH. reflexivity. Qed.
Lemma lsum_shifts : forall f, lsum f shifts = rsum (fun i => rsum (fun j => rsum (fun k => f (lattice i j k)) 3) 3) 3.
Proof.
  intros f. rewrite shifts_lattice, lsum_flat, lsum_seq. apply rsum_ext. intros i _. rewrite lsum_flat, lsum_seq. apply rsum_ext. intros j _. rewrite lsum_map, lsum_seq. reflexivity.
Qed.
Lemma off_list : forall x, off_lattice x <-> ~ In x shifts.
Proof.
  intros x. rewrite shifts_lattice. split.
  - intros O K. apply in_flat_map in K. destruct K as [i [Hi K]]. apply in_flat_map in K. destruct K as [j [Hj K]]. apply in_map_iff in K. destruct K as [k [K Hk]].
    apply in_seq in Hi. apply in_seq in Hj. apply in_seq in Hk. apply (O i j k); [lia|lia|lia|congruence].
  - intros N i j k Hi Hj Hk E. apply N. apply in_flat_map. exists i. split; [apply in_seq; lia|]. apply in_flat_map. exists j. split; [apply in_seq; lia|].
    apply in_map_iff. exists k. split; [congruence|apply in_seq; lia].
Qed.
Lemma fold_kmod : forall x l r0, ~ In x l ->
  fold_left (fun r m => r <- r ;; if Req_EM_T (vnorm (vsub x m)) 0 then None else Some (r + 1 / vnorm (vsub x m))) l (Some r0) = Some (r0 + lsum (fun m => 1 / vnorm (vsub x m)) l).
Proof.
  intros x l. induction l as [|m l IH]; intros r0 N; [cbn; f_equal; lra|]. cbn [fold_left bind lsum].
  assert (Q : x <> m) by (intros E; apply N; left; congruence). pose proof (vnorm_pos _ (vsub_nonzero x m Q)).
  destruct (Req_EM_T (vnorm (vsub x m)) 0) as [E|_]; [lra|]. rewrite IH by (intros K; apply N; right; exact K). f_equal. lra.
Qed.
Definition vsum (f : vec3 -> vec3) (l : list vec3) : vec3 := fold_right (fun m a => vadd (f m) a) (0, 0, 0) l.
Lemma fold_Dkmod : forall x l r0, ~ In x l ->
  fold_left (fun r m => r <- r ;; let s := vsub x m in let snorm := vnorm s in
    if Req_EM_T snorm 0 then None else Some (vsub r (vscal (1 / (snorm * snorm * snorm)) s))) l (Some r0) =
  Some (vsub r0 (vsum (fun m => vscal (1 / (vnorm (vsub x m) * vnorm (vsub x m) * vnorm (vsub x m))) (vsub x m)) l)).
Proof.
  intros x l. induction l as [|m l IH]; intros r0 N; [cbn; f_equal; destruct r0 as [[a b] c]; unfold vsub, vx, vy, vz; cbn [fst snd]; repeat (apply injective_projections; cbn [fst snd]); ring|].
  cbn [fold_left bind vsum fold_right]. fold (vsum (fun m => vscal (1 / (vnorm (vsub x m) * vnorm (vsub x m) * vnorm (vsub x m))) (vsub x m)) l).
  assert (Q : x <> m) by (intros E; apply N; left; congruence). pose proof (vnorm_pos _ (vsub_nonzero x m Q)). cbv zeta.
  destruct (Req_EM_T (vnorm (vsub x m)) 0) as [E|_]; [lra|]. rewrite IH by (intros K; apply N; right; exact K). f_equal.
  set (v := vscal _ (vsub x m)). set (w := vsum _ l). clearbody v w. unfold vsub, vadd, vx, vy, vz; cbn [fst snd]. repeat (apply injective_projections; cbn [fst snd]); ring.
Qed.
Lemma vdot_vsum : forall f l d, vdot (vsum f l) d = lsum (fun m => vdot (f m) d) l.
Proof.
  intros f l d. induction l as [|m l IH]; [unfold vsum, vdot, vx, vy, vz; cbn [fold_right fst snd lsum]; ring|]. cbn [lsum]. rewrite <- IH.
  change (vsum f (m :: l)) with (vadd (f m) (vsum f l)). unfold vdot, vadd, vx, vy, vz; cbn [fst snd]. ring.
Qed.
Lemma dir_lsum : forall (f : vec3 -> vec3 -> R) (g : vec3 -> R) l x d, (forall m, In m l -> directional (f m) x d (g m)) -> directional (fun z => lsum (fun m => f m z) l) x d (lsum g l).
Proof.
  intros f g l x d. induction l as [|m l IH]; intros D; [exact (dir_const 0 x d)|]. cbn [lsum].
  apply (dir_plus (f m) (fun z => lsum (fun m => f m z) l)); [apply D; left; reflexivity|apply IH; intros; apply D; right; assumption].
Qed.
Lemma lap_lsum : forall (f : vec3 -> vec3 -> R) (g : vec3 -> R) l x, (forall m, In m l -> laplacian (f m) x (g m)) -> laplacian (fun z => lsum (fun m => f m z) l) x (lsum g l).
Proof.
  intros f g l x. induction l as [|m l IH]; intros D; [apply lap_zero|]. cbn [lsum].
  apply (lap_plus (f m) (fun z => lsum (fun m => f m z) l)); [apply D; left; reflexivity|apply IH; intros; apply D; right; assumption].
Qed.
Lemma modified_kernels : forall x, off_lattice x -> modified x = lsum (fun m => laplace_kernel x m) shifts + vdot x x / 6.
Proof.
  intros x O. unfold modified. f_equal. rewrite lsum_shifts. apply rsum_ext. intros i Hi. apply rsum_ext. intros j Hj. apply rsum_ext. intros k Hk. unfold laplace_kernel.
  pose proof (vnorm_pos _ (vsub_nonzero x _ (O i j k Hi Hj Hk))). pose proof PI_RGT_0. field. lra.
Qed.
Lemma k_mod_value : forall x, off_lattice x -> k_mod x = Some (modified x).
Proof.
  intros x O. pose proof (proj1 (off_list x) O) as N. unfold k_mod. rewrite (fold_kmod x shifts 0 N). cbn [bind]. rewrite (modified_kernels x O). f_equal. f_equal.
  rewrite Rplus_0_l. unfold Rdiv. rewrite Rmult_comm, <- lsum_scal. apply lsum_ext. intros m Hm. unfold laplace_kernel.
  assert (Q : x <> m) by (intros E; apply N; subst; exact Hm). pose proof (vnorm_pos _ (vsub_nonzero x m Q)). pose proof PI_RGT_0. field. lra.
Qed.
Lemma dir_square : forall x d, directional (fun z => vdot z z / 6) x d (vdot x d / 3).
Proof.
  intros x d. unfold directional. apply is_derive_Reals. unfold SpecOperators.along, vdot, vadd, vscal, vx, vy, vz. cbn [fst snd]. auto_derive; [exact I|field].
Qed.
Lemma lap_square : forall x, laplacian (fun z => vdot z z / 6) x 1.
Proof.
  intros x. exists (fun z => vx z / 3), (fun z => vy z / 3), (fun z => vz z / 3), (1/3), (1/3), (1/3).
  split; [|repeat split; [| | |lra]; unfold directional; apply is_derive_Reals; unfold SpecOperators.along, vadd, vscal, e1, e2, e3, vx, vy, vz; cbn [fst snd]; auto_derive; [exact I|field|exact I|field|exact I|field]].
  exists 1. split; [lra|]. intros z _. rewrite <- (vdot_e1 z), <- (vdot_e2 z), <- (vdot_e3 z). repeat split; apply dir_square.
Qed.

(** ** parity *)
Definition vneg (x : vec3) : vec3 := vscal (-1) x.
Lemma vneg_sub : forall x y, vsub y x = vneg (vsub x y).
Proof. intros. unfold vneg, vscal, vsub, vx, vy, vz. cbn [fst snd]. repeat (apply injective_projections; cbn [fst snd]); ring. Qed.
Lemma vnorm_neg : forall x, vnorm (vneg x) = vnorm x.
Proof. intros x. unfold vnorm. f_equal. unfold vneg, vdot, vscal, vx, vy, vz. cbn [fst snd]. ring. Qed.
Lemma harmonic_parity : forall n m y, (m <= n)%nat -> harmonic n m (vneg y) = Cmult (RtoC ((-1) ^ n)) (harmonic n m y).
Proof.
  intros n m y Hm. rewrite !harmonic_value. unfold W.
  replace (vx (vneg y)) with (-1 * vx y) by (destruct y as [[a b] c]; reflexivity). replace (vy (vneg y)) with (-1 * vy y) by (destruct y as [[a b] c]; reflexivity).
  replace (vz (vneg y)) with (-1 * vz y) by (destruct y as [[a b] c]; reflexivity). rewrite cpower_scale.
  pose proof (proj1 (H_scale n (-1) (vz y) 1) m Hm) as E. replace (-1 * -1 * 1) with 1 in E by ring. rewrite E.
  replace ((-1) ^ n) with ((-1) ^ (n - m) * (-1) ^ m) by (rewrite <- pow_add; f_equal; lia). apply injective_projections; unfold Cmult, RtoC; cbn [fst snd]; ring.
Qed.
Lemma neg_unit : forall x, vscal (1 / vnorm (vneg x)) (vneg x) = vneg (vscal (1 / vnorm x) x).
Proof. intros x. rewrite vnorm_neg. unfold vneg, vscal, vx, vy, vz. cbn [fst snd]. repeat (apply injective_projections; cbn [fst snd]); ring. Qed.
Lemma even_sign : forall n, Nat.odd n = false -> (-1) ^ n = 1.
Proof.
  intros n O. rewrite <- Nat.negb_even in O. apply negb_false_iff in O. apply Nat.even_spec in O. destruct O as [k ->]. apply pow_1_even.
Qed.
Lemma lattice_neg : forall x, off_lattice x -> off_lattice (vneg x).
Proof.
  intros x O i j k Hi Hj Hk E. apply (O (2 - i)%nat (2 - j)%nat (2 - k)%nat); [lia|lia|lia|].
  assert (E' : x = vneg (vneg x)) by (destruct x as [[a b] c]; unfold vneg, vscal, vx, vy, vz; cbn [fst snd]; repeat (apply injective_projections; cbn [fst snd]); ring).
  rewrite E', E. unfold lattice, vneg, vscal, vx, vy, vz. cbn [fst snd]. rewrite !minus_INR by lia. cbn [INR]. repeat (apply injective_projections; cbn [fst snd]); ring.
Qed.
Lemma rsum_rev3 : forall f, rsum f 3 = rsum (fun i => f (2 - i)%nat) 3.
Proof. intros f. cbn [rsum Nat.sub]. ring. Qed.
Lemma modified_even : forall x, modified (vneg x) = modified x.
Proof.
  intros x. unfold modified. f_equal; [|unfold vneg, vdot, vscal, vx, vy, vz; cbn [fst snd]; f_equal; ring].
  rewrite rsum_rev3. apply rsum_ext. intros i Hi. rewrite rsum_rev3. apply rsum_ext. intros j Hj. rewrite rsum_rev3. apply rsum_ext. intros k Hk.
  do 2 f_equal. replace (vsub (vneg x) (lattice (2 - i) (2 - j) (2 - k))) with (vneg (vsub x (lattice i j k))); [apply vnorm_neg|].
  unfold lattice, vneg, vscal, vsub, vx, vy, vz. cbn [fst snd]. rewrite !minus_INR by lia. cbn [INR]. repeat (apply injective_projections; cbn [fst snd]); ring.
Qed.
Lemma off_zero : forall x, off_lattice x -> x <> (0, 0, 0).
Proof. intros x O E. apply (O 1%nat 1%nat 1%nat); [lia|lia|lia|]. rewrite E. unfold lattice. cbn [INR]. repeat (apply injective_projections; cbn [fst snd]); ring. Qed.
