(** Laplacians of sums and of dipole fields. *)
From Coq Require Import Reals Arith List Lia Lra QArith Qreals.
From Coquelicot Require Import Coquelicot.
From Verif Require Import ModelBase RSum ModelBernstein ModelTree ModelBall ModelQuad ModelDuffy ModelOperators SpecOperators SpecForms ProofOperators PropOperators.
Import ListNotations.
Local Close Scope Q_scope.
Local Open Scope R_scope.

Lemma dir_plus : forall f g x d a b, directional f x d a -> directional g x d b -> directional (fun z => f z + g z) x d (a + b).
Proof. intros f g x d a b F G. exact (derivable_pt_lim_plus (fun t => f (along x d t)) (fun t => g (along x d t)) 0 a b F G). Qed.
Lemma dir_scal : forall f x d a c, directional f x d a -> directional (fun z => c * f z) x d (c * a).
Proof. intros f x d a c F. exact (derivable_pt_lim_scal (fun t => f (along x d t)) c 0 a F). Qed.
Lemma dir_const : forall c x d, directional (fun _ => c) x d 0.
Proof. intros. apply derivable_pt_lim_const. Qed.
Lemma along0 : forall x d, along x d 0 = x.
Proof. intros. unfold along. apply vscal0. Qed.
Lemma dir_mult : forall f g x d a b, directional f x d a -> directional g x d b -> directional (fun z => f z * g z) x d (a * g x + f x * b).
Proof.
  intros f g x d a b F G. pose proof (derivable_pt_lim_mult (fun t => f (along x d t)) (fun t => g (along x d t)) 0 a b F G) as M. cbv beta in M. rewrite !along0 in M. exact M.
Qed.
Lemma dir_lin : forall y n x d, directional (fun z => vdot (vsub z y) n) x d (vdot d n).
Proof.
  intros y n x d. assert (L : forall t : R, vdot (vsub x y) n + t * vdot d n = vdot (vsub (along x d t) y) n).
  { intros t. unfold along, vdot, vsub, vadd, vscal, vx, vy, vz; cbn [fst snd]. ring. }
  unfold directional. apply is_derive_Reals. apply (is_derive_ext (fun t => vdot (vsub x y) n + t * vdot d n)); [exact L|].
  auto_derive; [trivial|ring].
Qed.
Lemma lap_plus : forall f g x a b, laplacian f x a -> laplacian g x b -> laplacian (fun z => f z + g z) x (a + b).
Proof.
  intros f g x a b [f1 [f2 [f3 [a1 [a2 [a3 [[e [He F]] [F1 [F2 [F3 Ea]]]]]]]]]] [g1 [g2 [g3 [b1 [b2 [b3 [[e' [He' G]] [G1 [G2 [G3 Eb]]]]]]]]]].
  exists (fun z => f1 z + g1 z), (fun z => f2 z + g2 z), (fun z => f3 z + g3 z), (a1 + b1), (a2 + b2), (a3 + b3).
  split; [|repeat split; try (apply dir_plus; assumption); lra].
  exists (Rmin e e'). split; [apply Rmin_glb_lt; assumption|]. intros z Hz.
  destruct (F z ltac:(eapply Rlt_le_trans; [exact Hz|apply Rmin_l])) as [X1 [X2 X3]]. destruct (G z ltac:(eapply Rlt_le_trans; [exact Hz|apply Rmin_r])) as [Y1 [Y2 Y3]].
  repeat split; apply dir_plus; assumption.
Qed.
Lemma lap_scal : forall f x a c, laplacian f x a -> laplacian (fun z => c * f z) x (c * a).
Proof.
  intros f x a c [f1 [f2 [f3 [a1 [a2 [a3 [[e [He F]] [F1 [F2 [F3 Ea]]]]]]]]]].
  exists (fun z => c * f1 z), (fun z => c * f2 z), (fun z => c * f3 z), (c * a1), (c * a2), (c * a3).
  split; [|repeat split; try (apply dir_scal; assumption); subst a; ring]. exists e. split; [exact He|]. intros z Hz. destruct (F z Hz) as [X1 [X2 X3]].
  repeat split; apply dir_scal; assumption.
Qed.
Lemma lap_zero : forall x, laplacian (fun _ => 0) x 0.
Proof.
  intros. exists (fun _ => 0), (fun _ => 0), (fun _ => 0), 0, 0, 0. split; [|repeat split; try apply dir_const; ring].
  exists 1. split; [lra|]. intros. repeat split; apply dir_const.
Qed.
Lemma lap_ext : forall f g x a, (forall z, f z = g z) -> laplacian f x a -> laplacian g x a.
Proof.
  intros f g x a E [f1 [f2 [f3 [a1 [a2 [a3 [[e [He F]] H]]]]]]]. exists f1, f2, f3, a1, a2, a3. split; [|exact H]. exists e. split; [exact He|]. intros z Hz.
  assert (T : forall d l, directional f z d l -> directional g z d l).
  { intros d l D. unfold directional in *. apply is_derive_Reals. apply is_derive_Reals in D. eapply is_derive_ext; [|exact D]. intros t. apply E. }
  destruct (F z Hz) as [X1 [X2 X3]]. repeat split; apply T; assumption.
Qed.
Lemma lap_rsum : forall (f : nat -> vec3 -> R) l x n, (forall k, (k < n)%nat -> laplacian (f k) x (l k)) -> laplacian (fun z => rsum (fun k => f k z) n) x (rsum l n).
Proof.
  intros f l x n. induction n as [|n IH]; intros H; cbn [rsum]; [apply lap_zero|].
  apply (lap_plus (fun z => rsum (fun k => f k z) n) (f n)); [apply IH; intros; apply H; lia|apply H; lia].
Qed.
Lemma lap_surface : forall els Q (F : vec3 -> node -> R * R -> R) (L : node -> R * R -> R) x,
  (forall e q, In e els -> (q < q_size Q)%nat -> laplacian (fun z => F z e (q_xi Q q)) x (L e (q_xi Q q))) ->
  laplacian (fun z => surface_sum els Q (F z)) x (surface_sum els Q L).
Proof.
  intros els Q F L x H. unfold surface_sum.
  apply (lap_rsum (fun k z => match nth_error els k with Some e => Q2R (get_h e) * Q2R (get_h e) * rsum (fun q => q_w Q q * F z e (q_xi Q q)) (q_size Q) | None => 0 end)).
  intros k Hk. destruct (nth_error els k) as [e|] eqn:Ek; [|apply lap_zero]. apply nth_error_In in Ek. apply lap_scal.
  apply (lap_rsum (fun q z => q_w Q q * F z e (q_xi Q q))). intros q Hq. apply lap_scal. apply H; assumption.
Qed.
Lemma dir_rsum : forall (f : nat -> vec3 -> R) l x d n, (forall k, (k < n)%nat -> directional (f k) x d (l k)) -> directional (fun z => rsum (fun k => f k z) n) x d (rsum l n).
Proof.
  intros f l x d n. induction n as [|n IH]; intros H; cbn [rsum]; [apply dir_const|].
  apply (dir_plus (fun z => rsum (fun k => f k z) n) (f n)); [apply IH; intros; apply H; lia|apply H; lia].
Qed.
Lemma dir_surface : forall els Q (F : vec3 -> node -> R * R -> R) (L : node -> R * R -> R) x d,
  (forall e q, In e els -> (q < q_size Q)%nat -> directional (fun z => F z e (q_xi Q q)) x d (L e (q_xi Q q))) ->
  directional (fun z => surface_sum els Q (F z)) x d (surface_sum els Q L).
Proof.
  intros els Q F L x d H. unfold surface_sum.
  apply (dir_rsum (fun k z => match nth_error els k with Some e => Q2R (get_h e) * Q2R (get_h e) * rsum (fun q => q_w Q q * F z e (q_xi Q q)) (q_size Q) | None => 0 end)).
  intros k Hk. destruct (nth_error els k) as [e|] eqn:Ek; [|apply dir_const]. apply nth_error_In in Ek. apply dir_scal.
  apply (dir_rsum (fun q z => q_w Q q * F z e (q_xi Q q))). intros q Hq. apply dir_scal. apply H; assumption.
Qed.
(** phi(|z - y|) (z - y).n with phi' = psi r *)
Lemma dipole_laplacian : forall (phi psi psi' : R -> R) x y n, x <> y ->
  (forall r, 0 < r -> is_derive phi r (psi r * r)) -> (forall r, 0 < r -> is_derive psi r (psi' r)) ->
  let r := vnorm (vsub x y) in laplacian (fun z => phi (vnorm (vsub z y)) * vdot (vsub z y) n) x ((psi' r * r + 5 * psi r) * vdot (vsub x y) n).
Proof.
  intros phi psi psi' x y n H Ph Ps r.
  assert (D1 : forall z d, z <> y -> directional (fun z => phi (vnorm (vsub z y))) z d (psi (vnorm (vsub z y)) * vdot (vsub z y) d)).
  { intros z d Hz. pose proof (vnorm_pos _ (vsub_nonzero z y Hz)) as Q. pose proof (radial phi _ z y d Hz (Ph _ Q)) as X.
    replace (psi (vnorm (vsub z y)) * vdot (vsub z y) d) with (psi (vnorm (vsub z y)) * vnorm (vsub z y) * (vdot (vsub z y) d / vnorm (vsub z y))) by (field; lra). exact X. }
  pose proof (vnorm_pos _ (vsub_nonzero x y H)) as Q. fold r in Q.
  assert (D2 : forall d, directional (fun z => psi (vnorm (vsub z y))) x d (psi' r * (vdot (vsub x y) d / r))) by (intros d; apply (radial psi _ x y d H); apply Ps; exact Q).
  set (g := fun d z => psi (vnorm (vsub z y)) * vdot (vsub z y) d * vdot (vsub z y) n + phi (vnorm (vsub z y)) * vdot d n).
  assert (G : forall d, directional (g d) x d ((psi' r * (vdot (vsub x y) d / r) * vdot (vsub x y) d + psi r * vdot d d) * vdot (vsub x y) n + psi r * vdot (vsub x y) d * vdot d n
     + (psi r * vdot (vsub x y) d * vdot d n + phi r * 0))).
  { intros d. unfold g. apply dir_plus.
    - apply (dir_mult (fun z => psi (vnorm (vsub z y)) * vdot (vsub z y) d) (fun z => vdot (vsub z y) n)); [|apply dir_lin].
      apply (dir_mult (fun z => psi (vnorm (vsub z y))) (fun z => vdot (vsub z y) d)); [apply D2|apply dir_lin].
    - apply (dir_mult (fun z => phi (vnorm (vsub z y))) (fun _ => vdot d n)); [apply D1; exact H|apply dir_const]. }
  exists (g e1), (g e2), (g e3). do 3 eexists. split; [|split; [apply G|split; [apply G|split; [apply G|]]]].
  - destruct (neighbourhood x y H) as [eps [He Hn]]. exists eps. split; [assumption|]. intros z Hz. apply Hn in Hz.
    repeat split; (apply (dir_mult (fun z => phi (vnorm (vsub z y))) (fun z => vdot (vsub z y) n)); [apply D1; exact Hz|apply dir_lin]).
  - assert (S : vx (vsub x y) * vx (vsub x y) + vy (vsub x y) * vy (vsub x y) + vz (vsub x y) * vz (vsub x y) = r * r) by (symmetry; apply vnorm_sq).
    rewrite !vdot_e1, !vdot_e2, !vdot_e3. change (vx e1) with 1. change (vy e2) with 1. change (vz e3) with 1.
    replace (vdot e1 n) with (vx n) by (unfold vdot, e1, vx, vy, vz; cbn [fst snd]; ring). replace (vdot e2 n) with (vy n) by (unfold vdot, e2, vx, vy, vz; cbn [fst snd]; ring).
    replace (vdot e3 n) with (vz n) by (unfold vdot, e3, vx, vy, vz; cbn [fst snd]; ring).
    transitivity ((psi' r * ((vx (vsub x y) * vx (vsub x y) + vy (vsub x y) * vy (vsub x y) + vz (vsub x y) * vz (vsub x y)) / r) + 5 * psi r) * vdot (vsub x y) n).
    + rewrite S. field. lra.
    + unfold vdot. field. lra.
Qed.

(** ** complex valued functions *)
Lemma lap_ext_off : forall f g x y a, x <> y -> (forall z, z <> y -> f z = g z) -> laplacian f x a -> laplacian g x a.
Proof.
  intros f g x y a H E [g1 [g2 [g3 [l1 [l2 [l3 [[eps [He D]] R]]]]]]]. exists g1, g2, g3, l1, l2, l3. split; [|exact R].
  destruct (neighbourhood x y H) as [eps2 [He2 Hn]]. exists (Rmin eps eps2). split; [apply Rmin_glb_lt; assumption|]. intros z Hz.
  assert (Hz1 : vnorm (vsub z x) < eps) by (eapply Rlt_le_trans; [exact Hz|apply Rmin_l]). assert (Hz2 : vnorm (vsub z x) < eps2) by (eapply Rlt_le_trans; [exact Hz|apply Rmin_r]).
  specialize (D z Hz1). apply Hn in Hz2.
  assert (T : forall d l, directional f z d l -> directional g z d l).
  { intros d l0 X. unfold directional in *. apply is_derive_Reals. apply is_derive_Reals in X. apply (is_derive_ext_loc (fun t => f (along z d t))); [|exact X].
    pose proof (vnorm_pos _ (vsub_nonzero z y Hz2)) as Qz. pose proof (norm_line (vsub z y) d (vsub_nonzero z y Hz2)) as N.
    assert (Ct : continuous (fun t => vnorm (vadd (vsub z y) (vscal t d))) 0) by (apply (ex_derive_continuous (fun t => vnorm (vadd (vsub z y) (vscal t d)))); eexists; exact N).
    specialize (Ct (fun u => 0 < u)). cbv beta in Ct. rewrite vscal0 in Ct.
    assert (Lo : locally (vnorm (vsub z y)) (fun u => 0 < u)).
    { exists (mkposreal _ Qz). intros u Hu. unfold ball in Hu; simpl in Hu; unfold AbsRing_ball, abs, minus, plus, opp in Hu; simpl in Hu.
      apply Rabs_def2 in Hu. lra. }
    specialize (Ct Lo). unfold filtermap in Ct. revert Ct. apply filter_imp. intros t Ht. rewrite <- along_sub in Ht. apply E.
    intros Ez. rewrite Ez in Ht. assert (Z : vnorm (vsub y y) = 0); [|lra]. unfold vnorm. replace (vdot (vsub y y) (vsub y y)) with 0; [apply sqrt_0|].
    unfold vdot, vsub, vx, vy, vz; cbn [fst snd]. ring. }
  destruct D as [D1 [D2 D3]]. split; [|split]; apply T; assumption.
Qed.
Lemma clap_scal : forall f x a (c : C), claplacian f x a -> claplacian (fun z => c * f z)%C x (c * a)%C.
Proof.
  intros f x a [c1 c2] [A B]. split; unfold Cmult; cbn [fst snd].
  - apply (lap_ext (fun z => c1 * fst (f z) + - c2 * snd (f z))); [intros; ring|]. replace (c1 * fst a - c2 * snd a) with (c1 * fst a + - c2 * snd a) by ring.
    apply (lap_plus (fun z => c1 * fst (f z)) (fun z => - c2 * snd (f z))); apply lap_scal; assumption.
  - apply (lap_plus (fun z => c1 * snd (f z)) (fun z => c2 * fst (f z))); apply lap_scal; assumption.
Qed.
Lemma clap_plus : forall f g x a b, claplacian f x a -> claplacian g x b -> claplacian (fun z => f z + g z)%C x (a + b)%C.
Proof.
  intros f g x a b [A A'] [B B']. split; unfold Cplus; cbn [fst snd].
  - apply (lap_plus (fun z => fst (f z)) (fun z => fst (g z))); assumption.
  - apply (lap_plus (fun z => snd (f z)) (fun z => snd (g z))); assumption.
Qed.
Lemma clap_ext : forall f g x a, (forall z, f z = g z) -> claplacian f x a -> claplacian g x a.
Proof.
  intros f g x a E [A B]. split; [eapply lap_ext; [|exact A]|eapply lap_ext; [|exact B]]; intros z; cbv beta; rewrite E; reflexivity.
Qed.
Lemma clap_ext_off : forall f g x y a, x <> y -> (forall z, z <> y -> f z = g z) -> claplacian f x a -> claplacian g x a.
Proof.
  intros f g x y a H E [A B]. split; [eapply (lap_ext_off _ _ x y); [exact H| |exact A]|eapply (lap_ext_off _ _ x y); [exact H| |exact B]]; intros z Hz; cbv beta; rewrite (E z Hz); reflexivity.
Qed.
Lemma clap_surface : forall els Q (F : vec3 -> node -> R * R -> C) (L : node -> R * R -> C) x,
  (forall e q, In e els -> (q < q_size Q)%nat -> claplacian (fun z => F z e (q_xi Q q)) x (L e (q_xi Q q))) ->
  claplacian (fun z => csurface_sum els Q (F z)) x (csurface_sum els Q L).
Proof.
  intros els Q F L x H. split; unfold csurface_sum; cbn [fst snd].
  - apply (lap_surface els Q (fun z e s => fst (F z e s)) (fun e s => fst (L e s))). intros e q I Hq. apply (H e q I Hq).
  - apply (lap_surface els Q (fun z e s => snd (F z e s)) (fun e s => snd (L e s))). intros e q I Hq. apply (H e q I Hq).
Qed.
Lemma cdir_scal : forall f x d a (c : C), cdirectional f x d a -> cdirectional (fun z => c * f z)%C x d (c * a)%C.
Proof.
  intros f x d a [c1 c2] [A B]. split; unfold Cmult; cbn [fst snd].
  - replace (c1 * fst a - c2 * snd a) with (c1 * fst a + - c2 * snd a) by ring.
    pose proof (dir_plus _ _ _ _ _ _ (dir_scal _ _ _ _ c1 A) (dir_scal _ _ _ _ (- c2) B)) as X. unfold directional in *. apply is_derive_Reals. apply is_derive_Reals in X.
    eapply is_derive_ext; [|exact X]. intros t. cbv beta. change (c1 * fst (f (along x d t)) + - c2 * snd (f (along x d t)) = c1 * fst (f (along x d t)) - c2 * snd (f (along x d t))). ring.
  - apply (dir_plus (fun z => c1 * snd (f z)) (fun z => c2 * fst (f z))); apply dir_scal; assumption.
Qed.
Lemma cdir_surface : forall els Q (F : vec3 -> node -> R * R -> C) (L : node -> R * R -> C) x d,
  (forall e q, In e els -> (q < q_size Q)%nat -> cdirectional (fun z => F z e (q_xi Q q)) x d (L e (q_xi Q q))) ->
  cdirectional (fun z => csurface_sum els Q (F z)) x d (csurface_sum els Q L).
Proof.
  intros els Q F L x d H. split; unfold csurface_sum; cbn [fst snd].
  - apply (dir_surface els Q (fun z e s => fst (F z e s)) (fun e s => fst (L e s))). intros e q I Hq. apply (H e q I Hq).
  - apply (dir_surface els Q (fun z e s => snd (F z e s)) (fun e s => snd (L e s))). intros e q I Hq. apply (H e q I Hq).
Qed.
Definition hpsi (k : C) (r : R) : C := ((- fst (k * k * hk k r)%C - 3 * fst (hphi k r)) / (r * r), (- snd (k * k * hk k r)%C - 3 * snd (hphi k r)) / (r * r)).
Lemma hpsi_re : forall k r, 0 < r -> is_derive (fun r => fst (hpsi k r)) r ((- fst (k * k * hphi k r)%C - 5 * fst (hpsi k r)) / r).
Proof.
  intros k r H. pose proof (hphi_re k r H) as P. pose proof (hk_re k r H) as K1. pose proof (hk_im k r H) as K2. unfold hpsi. cbn [fst].
  destruct k as [a b]. set (k := (a, b)) in *.
  assert (K : is_derive (fun r => fst (k * k * hk k r)%C) r (fst (k * k * hphi k r)%C * r)).
  { unfold k, Cmult; cbn [fst snd]. fold k.
    replace (((a * a - b * b) * fst (hphi k r) - (a * b + b * a) * snd (hphi k r)) * r) with ((a * a - b * b) * (fst (hphi k r) * r) - (a * b + b * a) * (snd (hphi k r) * r)) by ring.
    apply (is_derive_minus (fun r => (a * a - b * b) * fst (hk k r)) (fun r => (a * b + b * a) * snd (hk k r))); apply (is_derive_scal (fun r => _ (hk k r))); assumption. }
  set (u := fun r => fst (k * k * hk k r)%C) in *. set (p := fun r => fst (hphi k r)) in *.
  assert (N : is_derive (fun s => - u s - 3 * p s) r (- (fst (k * k * hphi k r)%C * r) - 3 * ((- u r - 3 * p r) / r))).
  { apply (is_derive_minus (fun s => - u s) (fun s => 3 * p s)); [apply (is_derive_opp u); exact K|apply (is_derive_scal p); exact P]. }
  assert (D : is_derive (fun s => s * s) r (2 * r)) by (auto_derive; [trivial|ring]).
  pose proof (is_derive_div _ _ _ _ _ N D ltac:(nra)) as X. change (is_derive (fun s => (- u s - 3 * p s) / (s * s)) r ((- fst (k * k * hphi k r)%C - 5 * ((- u r - 3 * p r) / (r * r))) / r)).
  replace ((- fst (k * k * hphi k r)%C - 5 * ((- u r - 3 * p r) / (r * r))) / r) with (((- (fst (k * k * hphi k r)%C * r) - 3 * ((- u r - 3 * p r) / r)) * (r * r) - (- u r - 3 * p r) * (2 * r)) / (r * r) ^ 2); [exact X|].
  generalize (fst (k * k * hphi k r)%C) (u r) (p r). intros. field. lra.
Qed.
Lemma hpsi_im : forall k r, 0 < r -> is_derive (fun r => snd (hpsi k r)) r ((- snd (k * k * hphi k r)%C - 5 * snd (hpsi k r)) / r).
Proof.
  intros k r H. pose proof (hphi_im k r H) as P. pose proof (hk_re k r H) as K1. pose proof (hk_im k r H) as K2. unfold hpsi. cbn [snd].
  destruct k as [a b]. set (k := (a, b)) in *.
  assert (K : is_derive (fun r => snd (k * k * hk k r)%C) r (snd (k * k * hphi k r)%C * r)).
  { unfold k, Cmult; cbn [fst snd]. fold k.
    replace (((a * a - b * b) * snd (hphi k r) + (a * b + b * a) * fst (hphi k r)) * r) with ((a * a - b * b) * (snd (hphi k r) * r) + (a * b + b * a) * (fst (hphi k r) * r)) by ring.
    apply (is_derive_plus (fun r => (a * a - b * b) * snd (hk k r)) (fun r => (a * b + b * a) * fst (hk k r))); apply (is_derive_scal (fun r => _ (hk k r))); assumption. }
  set (u := fun r => snd (k * k * hk k r)%C) in *. set (p := fun r => snd (hphi k r)) in *.
  assert (N : is_derive (fun s => - u s - 3 * p s) r (- (snd (k * k * hphi k r)%C * r) - 3 * ((- u r - 3 * p r) / r))).
  { apply (is_derive_minus (fun s => - u s) (fun s => 3 * p s)); [apply (is_derive_opp u); exact K|apply (is_derive_scal p); exact P]. }
  assert (D : is_derive (fun s => s * s) r (2 * r)) by (auto_derive; [trivial|ring]).
  pose proof (is_derive_div _ _ _ _ _ N D ltac:(nra)) as X. change (is_derive (fun s => (- u s - 3 * p s) / (s * s)) r ((- snd (k * k * hphi k r)%C - 5 * ((- u r - 3 * p r) / (r * r))) / r)).
  replace ((- snd (k * k * hphi k r)%C - 5 * ((- u r - 3 * p r) / (r * r))) / r) with (((- (snd (k * k * hphi k r)%C * r) - 3 * ((- u r - 3 * p r) / r)) * (r * r) - (- u r - 3 * p r) * (2 * r)) / (r * r) ^ 2); [exact X|].
  generalize (snd (k * k * hphi k r)%C) (u r) (p r). intros. field. lra.
Qed.
(** derivatives of the fundamental solution satisfy the Helmholtz equation, too *)
Lemma hdipole : forall k x y n, x <> y ->
  claplacian (fun z => hphi k (vnorm (vsub z y)) * RtoC (vdot (vsub z y) n))%C x (- (k * k * (hphi k (vnorm (vsub x y)) * RtoC (vdot (vsub x y) n))))%C.
Proof.
  intros k x y n H. pose proof (vnorm_pos _ (vsub_nonzero x y H)) as Q. split.
  - apply (lap_ext (fun z => fst (hphi k (vnorm (vsub z y))) * vdot (vsub z y) n)); [intros z; rewrite cmul_real; reflexivity|].
    pose proof (dipole_laplacian (fun r => fst (hphi k r)) (fun r => fst (hpsi k r)) (fun r => (- fst (k * k * hphi k r)%C - 5 * fst (hpsi k r)) / r) x y n H) as D. cbv zeta in D.
    match goal with |- laplacian _ _ ?l => replace l with (((- fst (k * k * hphi k (vnorm (vsub x y)))%C - 5 * fst (hpsi k (vnorm (vsub x y)))) / vnorm (vsub x y) * vnorm (vsub x y) + 5 * fst (hpsi k (vnorm (vsub x y)))) * vdot (vsub x y) n) end.
    + apply D; [|apply hpsi_re]. intros r Hr. replace (fst (hpsi k r) * r) with ((- fst (k * k * hk k r)%C - 3 * fst (hphi k r)) / r); [apply hphi_re; exact Hr|]. unfold hpsi; cbn [fst]. field. lra.
    + rewrite Cmult_assoc, cmul_real. unfold Copp; cbn [fst]. field. lra.
  - apply (lap_ext (fun z => snd (hphi k (vnorm (vsub z y))) * vdot (vsub z y) n)); [intros z; rewrite cmul_real; reflexivity|].
    pose proof (dipole_laplacian (fun r => snd (hphi k r)) (fun r => snd (hpsi k r)) (fun r => (- snd (k * k * hphi k r)%C - 5 * snd (hpsi k r)) / r) x y n H) as D. cbv zeta in D.
    match goal with |- laplacian _ _ ?l => replace l with (((- snd (k * k * hphi k (vnorm (vsub x y)))%C - 5 * snd (hpsi k (vnorm (vsub x y)))) / vnorm (vsub x y) * vnorm (vsub x y) + 5 * snd (hpsi k (vnorm (vsub x y)))) * vdot (vsub x y) n) end.
    + apply D; [|apply hpsi_im]. intros r Hr. replace (snd (hpsi k r) * r) with ((- snd (k * k * hk k r)%C - 3 * snd (hphi k r)) / r); [apply hphi_im; exact Hr|]. unfold hpsi; cbn [snd]. field. lra.
    + rewrite Cmult_assoc, cmul_real. unfold Copp; cbn [snd]. field. lra.
Qed.
