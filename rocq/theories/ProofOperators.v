(** Derivatives of radial functions. *)
From Coq Require Import Reals Lra Lia Arith.
From Coquelicot Require Import Coquelicot.
From Verif Require Import ModelBase ModelBernstein ModelBall ModelOperators SpecOperators.
Local Open Scope R_scope.

Lemma vdot_pos : forall c, c <> (0, 0, 0) -> 0 < vdot c c.
Proof.
  intros [[a b] d] H. unfold vdot, vx, vy, vz; cbn [fst snd].
  destruct (Req_dec a 0); [|nra]. destruct (Req_dec b 0); [|nra]. destruct (Req_dec d 0); [|nra]. subst. congruence.
Qed.
Lemma vnorm_pos : forall c, c <> (0, 0, 0) -> 0 < vnorm c.
Proof. intros c H. apply sqrt_lt_R0, vdot_pos, H. Qed.
Lemma vnorm_sq : forall c, vnorm c * vnorm c = vdot c c.
Proof. intros c. apply sqrt_sqrt. destruct c as [[a b] d]. unfold vdot, vx, vy, vz; cbn [fst snd]. nra. Qed.
Lemma vsub_nonzero : forall x y : vec3, x <> y -> vsub x y <> (0, 0, 0).
Proof.
  intros [[a b] c] [[a' b'] c'] H E. apply H. unfold vsub, vx, vy, vz in E; cbn [fst snd] in E. injection E as E1 E2 E3.
  f_equal; [f_equal|]; lra.
Qed.
Lemma vnorm_sym : forall x y, vnorm (vsub x y) = vnorm (vsub y x).
Proof. intros. unfold vnorm, vdot, vsub, vx, vy, vz; cbn [fst snd]. f_equal. ring. Qed.

(** the distance to y along a line *)
Lemma norm_line : forall c d, c <> (0, 0, 0) -> is_derive (fun t => vnorm (vadd c (vscal t d))) 0 (vdot c d / vnorm c).
Proof.
  intros c d H. pose proof (vdot_pos c H) as P. destruct c as [[c0 c1] c2], d as [[d0 d1] d2].
  unfold vnorm, vadd, vscal, vdot, vx, vy, vz in *; cbn [fst snd] in *. auto_derive.
  - replace ((c0 + 0 * d0) * (c0 + 0 * d0) + (c1 + 0 * d1) * (c1 + 0 * d1) + (c2 + 0 * d2) * (c2 + 0 * d2)) with (c0 * c0 + c1 * c1 + c2 * c2) by ring. exact P.
  - replace ((c0 + 0 * d0) * (c0 + 0 * d0) + (c1 + 0 * d1) * (c1 + 0 * d1) + (c2 + 0 * d2) * (c2 + 0 * d2)) with (c0 * c0 + c1 * c1 + c2 * c2) by ring.
    assert (0 < sqrt (c0 * c0 + c1 * c1 + c2 * c2)) by (apply sqrt_lt_R0; exact P). field. lra.
Qed.
Lemma along_sub : forall x d t y, vsub (along x d t) y = vadd (vsub x y) (vscal t d).
Proof. intros [[x0 x1] x2] [[d0 d1] d2] t [[y0 y1] y2]. unfold along, vsub, vadd, vscal, vx, vy, vz; cbn [fst snd]. f_equal; [f_equal|]; ring. Qed.
Lemma vscal0 : forall c d, vadd c (vscal 0 d) = c.
Proof. intros [[x0 x1] x2] [[d0 d1] d2]. unfold vadd, vscal, vx, vy, vz; cbn [fst snd]. f_equal; [f_equal|]; ring. Qed.
(** functions of the distance *)
Lemma radial : forall g g' x y d, x <> y -> is_derive g (vnorm (vsub x y)) g' ->
  directional (fun z => g (vnorm (vsub z y))) x d (g' * (vdot (vsub x y) d / vnorm (vsub x y))).
Proof.
  intros g g' x y d H D. unfold directional. apply is_derive_Reals.
  apply (is_derive_ext (fun t => g (vnorm (vadd (vsub x y) (vscal t d))))). { intros t. rewrite along_sub. reflexivity. }
  pose proof (norm_line (vsub x y) d (vsub_nonzero x y H)) as N.
  evar_last. { apply (is_derive_comp g (fun t => vnorm (vadd (vsub x y) (vscal t d)))); [|exact N]. rewrite vscal0. exact D. }
  unfold scal; simpl; unfold mult; simpl. ring.
Qed.
(** functions of the distance times a component *)
Lemma radial_comp : forall g g' x y d (pr : vec3 -> R), x <> y -> is_derive g (vnorm (vsub x y)) g' ->
  (forall t, pr (vsub (along x d t) y) = pr (vsub x y) + t * pr d) ->
  directional (fun z => g (vnorm (vsub z y)) * pr (vsub z y)) x d
    (g' * (vdot (vsub x y) d / vnorm (vsub x y)) * pr (vsub x y) + g (vnorm (vsub x y)) * pr d).
Proof.
  intros g g' x y d pr H D P. pose proof (radial g g' x y d H D) as Q. unfold directional in *.
  assert (E : vnorm (vsub x y) = vnorm (vsub (along x d 0) y)) by (rewrite along_sub, vscal0; reflexivity).
  assert (E2 : pr (vsub x y) = pr (vsub (along x d 0) y)) by (rewrite P; ring).
  rewrite E at 2. rewrite E2.
  apply (derivable_pt_lim_mult (fun t => g (vnorm (vsub (along x d t) y))) (fun t => pr (vsub (along x d t) y))); [exact Q|].
  apply is_derive_Reals. apply (is_derive_ext (fun t => pr (vsub x y) + t * pr d)). { intros t. rewrite P. reflexivity. }
  auto_derive; [trivial|ring].
Qed.
(** radial functions are smooth in a neighbourhood *)
Lemma neighbourhood : forall x y : vec3, x <> y -> exists eps, 0 < eps /\ forall z, vnorm (vsub z x) < eps -> z <> y.
Proof.
  intros x y H. exists (vnorm (vsub x y)). split; [apply vnorm_pos, vsub_nonzero, H|]. intros z Hz ->. rewrite vnorm_sym in Hz. lra.
Qed.
Lemma vdot_e1 : forall c, vdot c e1 = vx c.
Proof. intros. unfold vdot, e1, vx, vy, vz; cbn [fst snd]. ring. Qed.
Lemma vdot_e2 : forall c, vdot c e2 = vy c.
Proof. intros. unfold vdot, e2, vx, vy, vz; cbn [fst snd]. ring. Qed.
Lemma vdot_e3 : forall c, vdot c e3 = vz c.
Proof. intros. unfold vdot, e3, vx, vy, vz; cbn [fst snd]. ring. Qed.
(** g radial with g' = phi r: the gradient is phi(r) c, the Laplacian phi' r + 3 phi *)
Lemma radial_laplacian : forall (g phi phi' : R -> R) x y, x <> y ->
  (forall r, 0 < r -> is_derive g r (phi r * r)) -> (forall r, 0 < r -> is_derive phi r (phi' r)) ->
  let r := vnorm (vsub x y) in laplacian (fun z => g (vnorm (vsub z y))) x (phi' r * r + 3 * phi r).
Proof.
  intros g phi phi' x y H G P r.
  assert (D : forall z d, z <> y -> directional (fun z => g (vnorm (vsub z y))) z d (phi (vnorm (vsub z y)) * vdot (vsub z y) d)).
  { intros z d Hz. pose proof (vnorm_pos _ (vsub_nonzero z y Hz)) as Q. pose proof (radial g _ z y d Hz (G _ Q)) as X.
    replace (phi (vnorm (vsub z y)) * vdot (vsub z y) d) with (phi (vnorm (vsub z y)) * vnorm (vsub z y) * (vdot (vsub z y) d / vnorm (vsub z y))) by (field; lra). exact X. }
  pose proof (vnorm_pos _ (vsub_nonzero x y H)) as Q. fold r in Q.
  exists (fun z => phi (vnorm (vsub z y)) * vx (vsub z y)), (fun z => phi (vnorm (vsub z y)) * vy (vsub z y)), (fun z => phi (vnorm (vsub z y)) * vz (vsub z y)).
  exists (phi' r * (vx (vsub x y) / r) * vx (vsub x y) + phi r), (phi' r * (vy (vsub x y) / r) * vy (vsub x y) + phi r), (phi' r * (vz (vsub x y) / r) * vz (vsub x y) + phi r).
  split; [|split; [|split; [|split]]].
  - destruct (neighbourhood x y H) as [eps [He Hn]]. exists eps. split; [assumption|]. intros z Hz. apply Hn in Hz.
    split; [|split]; [rewrite <- vdot_e1|rewrite <- vdot_e2|rewrite <- vdot_e3]; apply D, Hz.
  - pose proof (radial_comp phi _ x y e1 vx H (P _ Q)) as X. rewrite vdot_e1 in X. fold r in X. change (vx e1) with 1 in X. rewrite Rmult_1_r in X.
    apply X. intros t. unfold along, vsub, vadd, vscal, e1, vx, vy, vz; cbn [fst snd]. ring.
  - pose proof (radial_comp phi _ x y e2 vy H (P _ Q)) as X. rewrite vdot_e2 in X. fold r in X. change (vy e2) with 1 in X. rewrite Rmult_1_r in X.
    apply X. intros t. unfold along, vsub, vadd, vscal, e2, vx, vy, vz; cbn [fst snd]. ring.
  - pose proof (radial_comp phi _ x y e3 vz H (P _ Q)) as X. rewrite vdot_e3 in X. fold r in X. change (vz e3) with 1 in X. rewrite Rmult_1_r in X.
    apply X. intros t. unfold along, vsub, vadd, vscal, e3, vx, vy, vz; cbn [fst snd]. ring.
  - assert (S : vx (vsub x y) * vx (vsub x y) + vy (vsub x y) * vy (vsub x y) + vz (vsub x y) * vz (vsub x y) = r * r) by (symmetry; apply vnorm_sq).
    transitivity (phi' r * ((vx (vsub x y) * vx (vsub x y) + vy (vsub x y) * vy (vsub x y) + vz (vsub x y) * vz (vsub x y)) / r) + 3 * phi r); [rewrite S; field; lra|field; lra].
Qed.
