(** C78: the accuracy of the compressed far field of the Laplace single layer operator. *)
From Coq Require Import Reals Lra Lia Arith Bool List ZArith QArith Qreals.
From Coquelicot Require Import Coquelicot.
From Verif Require Import RSum SpecBernstein ModelBase ModelBernstein ProofBernstein ModelTree ModelBall ModelBlock ModelH2 ModelInterp ModelH2Init ModelQuad ModelAssembly ModelDuffy SpecTree SpecMesh SpecBall SpecQuad SpecInterp
  ProofTree ProofTreeWF ProofTreeHist ProofTreeGeo ProofTreeLook ProofPoints ProofMoment ProofInterp ProofBall PropTree PropBlock PropTopo PropConform PropBall PropH2 PropAssembly ProofH2Entry PropInterp SpecDuffy ProofDuffy ProofDuffyInt PropCompare ModelOperators SpecOperators ProofOperators PropOperators ProofNearFar PropNearFar
  SpecBlock SpecCheb ProofCheb ProofLegendre PropCheb SpecFlat.
Local Close Scope Q_scope.
Import ListNotations.
Local Open Scope R_scope.

Lemma some_eq : forall {A : Type} (x y : A), Some x = Some y -> x = y.
Proof. intros A x y E. injection E as E. exact E. Qed.
Lemma bounded_scal : forall n B f c, derivative_bounded n B f -> derivative_bounded n (Rabs c * B) (fun t => c * f t).
Proof.
  intros n B f c [F [F0 [FD FB]]]. exists (fun k t => c * F k t). split; [intros x Ix; rewrite F0 by exact Ix; reflexivity|]. split.
  - intros k x Hk Ix. apply (derivable_pt_lim_scal (F k)), FD; assumption.
  - intros x Ix. rewrite Rabs_mult. apply Rmult_le_compat_l; [apply Rabs_pos|apply FB, Ix].
Qed.
Lemma bounded_weaken : forall n B B' f g, B <= B' -> (forall t, f t = g t) -> derivative_bounded n B f -> derivative_bounded n B' g.
Proof.
  intros n B B' f g HB E [F [F0 [FD FB]]]. exists F. split; [intros x Ix; rewrite <- E; apply F0, Ix|]. split; [exact FD|]. intros x Ix. eapply Rle_trans; [apply FB, Ix|exact HB].
Qed.
(** the inverse distance along a line that stays away from the origin *)
Definition line_bound (n : nat) (s d : R) : R := INR (fact n) * s ^ n / d ^ S n.
Lemma line_bounded : forall n (a b : vec3) d s, 0 < d -> vnorm b <= s -> (forall t, inside t -> d <= vnorm (vadd a (vscal t b))) ->
  derivative_bounded n (line_bound n s d) (fun t => / vnorm (vadd a (vscal t b))).
Proof.
  intros n a b d s Hd Hs Hq.
  assert (Q : forall t, vnorm (vadd a (vscal t b)) = sqrt (qq (vdot a a) (vdot a b) (vdot b b) t)).
  { intros t. unfold vnorm. f_equal. unfold qq, vdot, vadd, vscal, vx, vy, vz. cbn [fst snd]. ring. }
  assert (CS : vdot a b ^ 2 <= vdot a a * vdot b b).
  { unfold vdot, vx, vy, vz. destruct a as [[a1 a2] a3], b as [[b1 b2] b3]. cbn [fst snd].
    pose proof (Rle_0_sqr (a1 * b2 - a2 * b1)). pose proof (Rle_0_sqr (a1 * b3 - a3 * b1)). pose proof (Rle_0_sqr (a2 * b3 - a3 * b2)). unfold Rsqr in *. nra. }
  pose proof (vdot_nonneg b) as Be.
  pose proof (inverse_bounded (vdot a a) (vdot a b) (vdot b b) CS Be n d 1 Hd ltac:(lra) (fun t It => eq_ind _ (fun z => d <= z) (Hq t It) _ (Q t))) as IB.
  refine (bounded_weaken _ _ _ _ _ _ _ IB).
  - unfold line_bound. rewrite Rmult_1_l. unfold Rdiv. apply Rmult_le_compat_r; [apply Rlt_le, Rinv_0_lt_compat, pow_lt, Hd|]. apply Rmult_le_compat_l; [apply pos_INR|]. fold (vnorm b).
    apply pow_incr. split; [apply vnorm_nonneg|exact Hs].
  - intros t. rewrite Q. ring.
Qed.
Lemma kernel_inverse : forall x y, laplace_kernel x y = / (4 * PI) * / vnorm (vsub x y).
Proof.
  intros x y. unfold laplace_kernel, Rdiv. pose proof PI_RGT_0. rewrite Rinv_mult. ring.
Qed.
Lemma fp_dir : forall a b, vnorm (vscal a b) = Rabs a * vnorm b. Proof. exact vnorm_scal. Qed.
Lemma cheb_line : forall n c s d, 0 < d -> cheb_error n (c * line_bound n s d) = 2 * c / d * (s / (4 * d)) ^ n.
Proof.
  intros n c s d Hd. unfold cheb_error, line_bound. pose proof (INR_fact_lt_0 n) as Fp. assert (P4 : 0 < 4 ^ n) by (apply pow_lt; lra). assert (Pd : 0 < d ^ n) by (apply pow_lt, Hd).
  unfold Rdiv at 4. rewrite Rpow_mult_distr, pow_inv, Rpow_mult_distr. cbn [pow]. field. repeat split; lra.
Qed.
Section Flat.
Variables (X : surface) (O U V : nat -> vec3).
Hypothesis FX : flat_surface X O U V.
Lemma flat_point : forall n s w, surf_point X n s w = mkSP s w (vadd (O (n_patch n)) (vadd (vscal (Q2R (fst (n_llc n)) + Q2R (get_h n) * fst s) (U (n_patch n))) (vscal (Q2R (snd (n_llc n)) + Q2R (get_h n) * snd s) (V (n_patch n))))) (U (n_patch n)) (V (n_patch n)).
Proof. intros n s w. unfold surf_point. rewrite FX. reflexivity. Qed.
Lemma flat_kappa : forall n s w, p_kappa (surf_point X n s w) = area U V (n_patch n).
Proof. intros n s w. rewrite flat_point. reflexivity. Qed.
Notation pt c s := (p_f (surf_point X c s 0)).
(** the sides of a cluster *)
Definition side_ok (c : node) (L : R) : Prop := Rabs (Q2R (get_h c)) * vnorm (U (n_patch c)) <= L /\ Rabs (Q2R (get_h c)) * vnorm (V (n_patch c)) <= L.
Lemma flat_bounded : forall n c1 c2 d L k, 0 < d -> side_ok c1 L -> side_ok c2 L ->
  (forall s s', in_open_square s -> in_open_square s' -> d <= vnorm (vsub (pt c1 s) (pt c2 s'))) ->
  kernel_bounded n (Rabs k / (4 * PI) * line_bound n L d) (fun s s' => k * laplace_kernel (pt c1 s) (pt c2 s')).
Proof.
  intros n c1 c2 d L k Hd [A1 A2] [B1 B2] Hdist. pose proof PI_RGT_0 as Pp.
  assert (Ec : Rabs k / (4 * PI) = Rabs (k * / (4 * PI))).
  { rewrite Rabs_mult, (Rabs_right (/ (4 * PI))); [reflexivity|]. apply Rle_ge, Rlt_le, Rinv_0_lt_compat. lra. }
  rewrite Ec.
  assert (G : forall (f : R -> vec3) a b, vnorm b <= L -> (forall t, f t = vadd a (vscal t b)) -> (forall t, inside t -> d <= vnorm (f t)) ->
    derivative_bounded n (Rabs (k * / (4 * PI)) * line_bound n L d) (fun t => k * / (4 * PI) * / vnorm (f t))).
  { intros f a b Hb Ef Hf. apply bounded_scal. refine (bounded_weaken _ _ _ _ _ (Rle_refl _) _ (line_bounded n a b d L Hd Hb _)); [intros t; rewrite Ef; reflexivity|].
    intros t It. rewrite <- Ef. apply Hf, It. }
  assert (Kk : forall x y, k * laplace_kernel x y = k * / (4 * PI) * / vnorm (vsub x y)) by (intros; rewrite kernel_inverse; ring).
  set (h1 := Q2R (get_h c1)) in *. set (h2 := Q2R (get_h c2)) in *. rewrite <- vnorm_scal in A1, A2.
  assert (B1' : vnorm (vscal (- h2) (U (n_patch c2))) <= L) by (rewrite vnorm_scal, Rabs_Ropp; exact B1).
  assert (B2' : vnorm (vscal (- h2) (V (n_patch c2))) <= L) by (rewrite vnorm_scal, Rabs_Ropp; exact B2).
  split; [|split; [|split]].
  - intros b c e Ib Ic Ie. refine (bounded_weaken _ _ _ _ _ (Rle_refl _) (fun t => eq_sym (Kk _ _)) (G (fun a => vsub (pt c1 (a, b)) (pt c2 (c, e))) (vsub (pt c1 (0, b)) (pt c2 (c, e))) _ A1 _ _)).
    + intros a. rewrite !flat_point. cbn [p_f fst snd]. fold h1 h2. unfold vsub, vadd, vscal, vx, vy, vz. cbn [fst snd]. apply f_equal2; [apply f_equal2|]; ring.
    + intros a Ia. apply Hdist; split; assumption.
  - intros b c e Ib Ic Ie. refine (bounded_weaken _ _ _ _ _ (Rle_refl _) (fun t => eq_sym (Kk _ _)) (G (fun a => vsub (pt c1 (b, a)) (pt c2 (c, e))) (vsub (pt c1 (b, 0)) (pt c2 (c, e))) _ A2 _ _)).
    + intros a. rewrite !flat_point. cbn [p_f fst snd]. fold h1 h2. unfold vsub, vadd, vscal, vx, vy, vz. cbn [fst snd]. apply f_equal2; [apply f_equal2|]; ring.
    + intros a Ia. apply Hdist; split; assumption.
  - intros b c e Ib Ic Ie. refine (bounded_weaken _ _ _ _ _ (Rle_refl _) (fun t => eq_sym (Kk _ _)) (G (fun a => vsub (pt c1 (b, c)) (pt c2 (a, e))) (vsub (pt c1 (b, c)) (pt c2 (0, e))) _ B1' _ _)).
    + intros a. rewrite !flat_point. cbn [p_f fst snd]. fold h1 h2. unfold vsub, vadd, vscal, vx, vy, vz. cbn [fst snd]. apply f_equal2; [apply f_equal2|]; ring.
    + intros a Ia. apply Hdist; split; assumption.
  - intros b c e Ib Ic Ie. refine (bounded_weaken _ _ _ _ _ (Rle_refl _) (fun t => eq_sym (Kk _ _)) (G (fun a => vsub (pt c1 (b, c)) (pt c2 (e, a))) (vsub (pt c1 (b, c)) (pt c2 (e, 0))) _ B2' _ _)).
    + intros a. rewrite !flat_point. cbn [p_f fst snd]. fold h1 h2. unfold vsub, vadd, vscal, vx, vy, vz. cbn [fst snd]. apply f_equal2; [apply f_equal2|]; ring.
    + intros a Ia. apply Hdist; split; assumption.
Qed.
End Flat.

(** ** the balls of the clusters of a flat surface *)
Lemma open_closed : forall s, in_open_square s -> in_square s.
Proof. intros s [[A1 A2] [A3 A4]]. split; lra. Qed.
Lemma ball_segment : forall p q B l, in_ball p B -> in_ball q B -> 0 <= l <= 1 -> in_ball (vadd (vscal (1 - l) p) (vscal l q)) B.
Proof.
  intros p q [m r] l Hp Hq Hl. unfold in_ball in *. cbn [fst snd] in *. rewrite dist_norm in *.
  replace (vsub (vadd (vscal (1 - l) p) (vscal l q)) m) with (vadd (vscal (1 - l) (vsub p m)) (vscal l (vsub q m))).
  - eapply Rle_trans; [apply vtriangle|]. rewrite !vnorm_scal, !Rabs_right by lra. nra.
  - unfold vadd, vsub, vscal, vx, vy, vz. cbn [fst snd]. apply f_equal2; [apply f_equal2|]; ring.
Qed.
Lemma corner_leaf : forall t l eval f a k, WF t l -> t_store t a <> None -> a <> [] -> (k < 4)%nat -> (t_maxlevel t - pos_level a <= f)%nat ->
  exists e, is_leaf t e /\ under a e /\ corner_point eval e k = corner_point eval a k.
Proof.
  intros t l eval f. induction f as [|f IH]; intros a k W Ha Ne Hk Hf.
  - destruct (t_store t a) as [n|] eqn:En; [|congruence]. exists a. split; [|split; [exists []; reflexivity|reflexivity]]. exists n. split; [exact En|]. destruct (n_ref n) eqn:Er; [|reflexivity]. exfalso.
    assert (So : t_store t (k :: a) <> None) by (apply (wf_son t l W); [exact Ne|split; [exact Hk|exists n; split; assumption]]).
    pose proof (wf_ml t l W _ So) as ML. unfold pos_level in *. cbn [length] in ML. destruct a; [congruence|cbn [length] in *; lia].
  - destruct (t_store t a) as [n|] eqn:En; [|congruence]. destruct (n_ref n) eqn:Er.
    + assert (So : t_store t (k :: a) <> None) by (apply (wf_son t l W); [exact Ne|split; [exact Hk|exists n; split; assumption]]).
      destruct (IH (k :: a) k W So ltac:(discriminate) Hk) as [e [L1 [[x U1] C1]]].
      { unfold pos_level in *. cbn [length]. destruct a; [congruence|cbn [length] in *; lia]. }
      exists e. split; [exact L1|]. split; [exists (x ++ [k]); rewrite U1, <- app_assoc; reflexivity|]. rewrite C1. unfold corner_point.
      assert (Lv : pos_level (k :: a) = S (pos_level a)) by (unfold pos_level; cbn [length]; destruct a; [congruence|cbn [length]; lia]).
      assert (Px : pos_x (k :: a) = (2 * pos_x a + quad_x k)%nat) by (destruct a; [congruence|reflexivity]).
      assert (Py : pos_y (k :: a) = (2 * pos_y a + quad_y k)%nat) by (destruct a; [congruence|reflexivity]).
      assert (Pp : pos_patch (k :: a) = pos_patch a) by (destruct a; [congruence|reflexivity]).
      rewrite Lv, Px, Py, Pp. assert (P2 : 2 ^ pos_level a <> 0) by (apply pow_nonzero; lra).
      replace (2 * pos_x a + quad_x k + quad_x k)%nat with (2 * (pos_x a + quad_x k))%nat by lia. replace (2 * pos_y a + quad_y k + quad_y k)%nat with (2 * (pos_y a + quad_y k))%nat by lia.
      rewrite !mult_INR. change (INR 2) with 2. cbn [pow]. f_equal; field; exact P2.
    + exists a. split; [exists n; split; assumption|]. split; [exists []; reflexivity|reflexivity].
Qed.
Section Ball.
Variables (X : surface) (O U V : nat -> vec3).
Hypothesis FX : flat_surface X O U V.
Lemma cluster_ball : forall a c x, node_ok a c -> a <> [] -> (forall k, (k < 4)%nat -> in_ball (corner_point (points_of X) a k) x) ->
  (forall s, in_square s -> in_ball (p_f (surf_point X c s 0)) x) /\ side_ok U V c (2 * snd x).
Proof.
  intros a c x K Ne Hc. destruct (nk_llc _ _ K) as [L1 L2]. assert (H2 : 2 ^ pos_level a <> 0) by (apply pow_nonzero; lra).
  assert (Hh : Q2R (get_h c) = 1 / 2 ^ pos_level a).
  { unfold get_h. rewrite Q2R_div by apply pow2Q_neq. rewrite Q2R_pow2, (nk_level _ _ K). f_equal. unfold Q2R; simpl; lra. }
  set (h := 1 / 2 ^ pos_level a) in *. set (x0 := INR (pos_x a) * h). set (y0 := INR (pos_y a) * h). set (p := n_patch c).
  set (g := fun u v => vadd (O p) (vadd (vscal u (U p)) (vscal v (V p)))).
  assert (E1 : Q2R (fst (n_llc c)) = x0) by (rewrite (Q2R_llc _ _ _ L1); unfold x0, h; field; exact H2).
  assert (E2 : Q2R (snd (n_llc c)) = y0) by (rewrite (Q2R_llc _ _ _ L2); unfold y0, h; field; exact H2).
  assert (Pp : pos_patch a = p) by (symmetry; apply (nk_patch _ _ K)).
  assert (C : forall k, (k < 4)%nat -> in_ball (g (x0 + INR (quad_x k) * h) (y0 + INR (quad_y k) * h)) x).
  { intros k Hk. pose proof (Hc k Hk) as B. unfold corner_point, points_of in B. rewrite FX, Pp in B. cbn [fst snd] in B.
    replace (INR (pos_x a + quad_x k) / 2 ^ pos_level a) with (x0 + INR (quad_x k) * h) in B by (rewrite plus_INR; unfold x0, h; field; exact H2).
    replace (INR (pos_y a + quad_y k) / 2 ^ pos_level a) with (y0 + INR (quad_y k) * h) in B by (rewrite plus_INR; unfold y0, h; field; exact H2). exact B. }
  pose proof (C 0%nat ltac:(lia)) as C0. pose proof (C 1%nat ltac:(lia)) as C1. pose proof (C 2%nat ltac:(lia)) as C2. pose proof (C 3%nat ltac:(lia)) as C3. cbn [quad_x quad_y INR] in C0, C1, C2, C3.
  split.
  - intros [s1 s2] [[A1 A2] [A3 A4]]. cbn [fst snd] in *. rewrite (flat_point X O U V FX). cbn [p_f fst snd]. fold p. rewrite E1, E2, Hh.
    pose proof (ball_segment _ _ _ s1 C0 C1 ltac:(lra)) as B0. pose proof (ball_segment _ _ _ s1 C3 C2 ltac:(lra)) as B1. pose proof (ball_segment _ _ _ s2 B0 B1 ltac:(lra)) as B.
    match type of B with in_ball ?z _ => match goal with |- in_ball ?y _ => replace y with z; [exact B|] end end.
    unfold g, vadd, vscal, vx, vy, vz. cbn [fst snd]. apply f_equal2; [apply f_equal2|]; ring.
  - destruct x as [m r]. cbn [snd]. unfold side_ok. fold p. rewrite Hh, <- !vnorm_scal. split.
    + pose proof (two_points m r _ _ C1 C0) as T. rewrite dist_norm in T. match type of T with vnorm ?z <= _ => match goal with |- vnorm ?y <= _ => replace y with z; [exact T|] end end.
      unfold g, vsub, vadd, vscal, vx, vy, vz. cbn [fst snd]. apply f_equal2; [apply f_equal2|]; ring.
    + pose proof (two_points m r _ _ C3 C0) as T. rewrite dist_norm in T. match type of T with vnorm ?z <= _ => match goal with |- vnorm ?y <= _ => replace y with z; [exact T|] end end.
      unfold g, vsub, vadd, vscal, vx, vy, vz. cbn [fst snd]. apply f_equal2; [apply f_equal2|]; ring.
Qed.
End Ball.
Lemma balls_apart : forall p q m1 r1 m2 r2, in_ball p (m1, r1) -> in_ball q (m2, r2) -> dist3 m1 m2 - r1 - r2 <= vnorm (vsub p q).
Proof.
  intros p q m1 r1 m2 r2 B1 B2. unfold in_ball in *. cbn [fst snd] in *. rewrite <- dist_norm.
  assert (E : dist3 m1 m2 = dist m1 m2) by (unfold dist3, dist, Rsqr; f_equal; ring). rewrite E.
  pose proof (dist_tri m1 p m2). pose proof (dist_tri p q m2). rewrite (dist_sym m1 p) in H. lra.
Qed.
(** ** the setting: the uniformly refined mesh of a flat surface, its balls, and the compressed operator *)
Record far_setting {Pt : Type} (close : Pt -> Pt -> bool) (corners : list (list Pt)) (M : nat) (t : tree) (X : surface) (O U V : nat -> vec3)
  (P : list (option vec3)) (b : balls) (mid : addr -> vec3) (rad : addr -> option R) : Prop := {
  fs_ne : corners <> [];
  fs_four : forall c, In c corners -> length c = 4%nat;
  fs_tree : init_tree close corners M = Some t;
  fs_mesh : mesh_ok (fst (patch_vertices close [] corners));
  fs_fits : fits (fst (patch_vertices close [] corners)) (points_of X);
  fs_flat : flat_surface X O U V;
  fs_area : forall p, area U V p <> 0;
  (* the points of the mesh, the balls of the clusters, and what compareCluster reads *)
  fs_points : point_list (points_of X) t = Some P;
  fs_balls : enclosings t P = Some b;
  fs_mid : forall a x, b a = Some x -> mid a = fst x;
  fs_rad : forall a, rad a = option_map snd (b a) }.
Lemma bounded_mono : forall n B B' K, B <= B' -> kernel_bounded n B K -> kernel_bounded n B' K.
Proof.
  intros n B B' K HB [K1 [K2 [K3 K4]]]. split; [|split; [|split]]; intros; (eapply bounded_weaken; [exact HB|intros; reflexivity|auto]).
Qed.
Lemma kernel_ext : forall n B K K', (forall s t, K s t = K' s t) -> kernel_bounded n B K -> kernel_bounded n B K'.
Proof.
  intros n B K K' E [K1 [K2 [K3 K4]]]. split; [|split; [|split]]; intros; (eapply bounded_weaken; [apply Rle_refl|intros; apply E|auto]).
Qed.
Section Far.
Context {Pt : Type} (close : Pt -> Pt -> bool) (corners : list (list Pt)) (M : nat) (t : tree) (X : surface) (O U V : nat -> vec3)
  (P : list (option vec3)) (b : balls) (mid : addr -> vec3) (rad : addr -> option R).
Hypothesis FS : far_setting close corners M t X O U V P b mid rad.
Lemma fs_geometry : from_geometry close corners (fst (patch_vertices close [] corners)) t.
Proof.
  exists M, [], t. split; [reflexivity|]. split; [apply (fs_four _ _ _ _ _ _ _ _ _ _ _ _ FS)|]. split; [apply (fs_tree _ _ _ _ _ _ _ _ _ _ _ _ FS)|]. split; [exact I|reflexivity].
Qed.
Lemma fs_reach : reachable t.
Proof.
  exists Pt, close, corners, M, [], t. split; [apply (fs_ne _ _ _ _ _ _ _ _ _ _ _ _ FS)|]. split; [apply (fs_four _ _ _ _ _ _ _ _ _ _ _ _ FS)|]. split; [apply (fs_tree _ _ _ _ _ _ _ _ _ _ _ _ FS)|]. split; [exact I|reflexivity].
Qed.
Lemma cluster_facts : forall a c, t_store t a = Some c -> exists x, b a = Some x /\ 0 <= snd x /\ (forall s, in_square s -> in_ball (p_f (surf_point X c s 0)) x) /\ side_ok U V c (2 * snd x).
Proof.
  intros a c Ea.
  destruct (C15_balls_enclose_surface_corners Pt close corners _ t (points_of X) (fs_ne _ _ _ _ _ _ _ _ _ _ _ _ FS) fs_geometry (fs_mesh _ _ _ _ _ _ _ _ _ _ _ _ FS) (fs_fits _ _ _ _ _ _ _ _ _ _ _ _ FS)) as [P' [b' [EP [Eb B]]]].
  rewrite (fs_points _ _ _ _ _ _ _ _ _ _ _ _ FS) in EP. apply some_eq in EP. subst P'. rewrite (fs_balls _ _ _ _ _ _ _ _ _ _ _ _ FS) in Eb. apply some_eq in Eb. subst b'.
  destruct (reachable_wf t fs_reach) as [[l W] _]. pose proof (wf_node t l W _ c Ea) as K. assert (Ne : a <> []) by (eapply wf_nonroot; [eassumption|congruence]).
  assert (Ex : exists_node t a) by (unfold exists_node; congruence).
  assert (Ball : forall k, (k < 4)%nat -> exists x, b a = Some x /\ in_ball (corner_point (points_of X) a k) x).
  { intros k Hk. destruct (corner_leaf t l (points_of X) (t_maxlevel t) a k W ltac:(congruence) Ne Hk ltac:(lia)) as [e [L1 [U1 C1]]]. destruct (B a e k Ex L1 U1 Hk) as [x [Bx Ix]]. exists x. rewrite C1 in Ix. split; assumption. }
  destruct (Ball 0%nat ltac:(lia)) as [x [Bx Ix]]. exists x. split; [exact Bx|]. split; [destruct x as [m r]; unfold in_ball in Ix; cbn [fst snd] in *; eapply Rle_trans; [apply dist_pos|exact Ix]|].
  apply (cluster_ball X O U V (fs_flat _ _ _ _ _ _ _ _ _ _ _ _ FS) a c x K Ne). intros k Hk. destruct (Ball k Hk) as [y [By Iy]]. rewrite Bx in By. apply some_eq in By. subst y. exact Iy.
Qed.
Lemma near_false : forall eta a a' x x', b a = Some x -> b a' = Some x' -> 0 <= snd x -> 0 <= snd x' -> near_of mid rad eta a a' = false -> admissible (fst x) (fst x') (snd x) (snd x') eta.
Proof.
  intros eta a a' x x' Bx Bx' R0 R0' N. unfold near_of in N. rewrite !(fs_rad _ _ _ _ _ _ _ _ _ _ _ _ FS), Bx, Bx' in N. cbn [option_map] in N.
  rewrite (fs_mid _ _ _ _ _ _ _ _ _ _ _ _ FS a x Bx), (fs_mid _ _ _ _ _ _ _ _ _ _ _ _ FS a' x' Bx') in N.
  assert (E : norm3 (fst x) (fst x') = dist3 (fst x) (fst x')) by (unfold norm3, dist3; destruct (fst x) as [[u v] w], (fst x') as [[u' v'] w']; reflexivity). rewrite E in N.
  set (D := dist3 (fst x) (fst x')) in *. unfold admissible. fold D.
  assert (Mx : (if Rlt_dec (snd x') (snd x) then snd x else snd x') = Rmax (snd x) (snd x')) by (destruct (Rlt_dec (snd x') (snd x)); [rewrite Rmax_left; lra|rewrite Rmax_right; lra]).
  rewrite Mx in N. destruct (Rlt_dec 0 (D - snd x - snd x')) as [Hd|Hd]; destruct (Rle_dec _ _) as [H1|H1] in N; try discriminate; [split; lra|]. exfalso. apply H1. rewrite Rmult_0_r. pose proof (Rmax_l (snd x) (snd x')). lra.
Qed.
Lemma root_ball : b [] = None.
Proof.
  destruct (C18_geometries _ _ _ _ _ fs_geometry) as [npts [N Ro]].
  assert (Hv : fst (patch_vertices close [] corners) <> []).
  { intros Q. pose proof (fs_ne _ _ _ _ _ _ _ _ _ _ _ _ FS) as Nc. destruct corners as [|c r]; [congruence|].
    cbn [patch_vertices] in Q. destruct (add_pts close [] c) as [ks p1]. destruct (patch_vertices close p1 r). discriminate Q. }
  destruct (C52_point_list _ npts t (points_of X) (fs_mesh _ _ _ _ _ _ _ _ _ _ _ _ FS) N Ro Hv (fs_fits _ _ _ _ _ _ _ _ _ _ _ _ FS)) as [P' [EP [LP [CP AP]]]].
  rewrite (fs_points _ _ _ _ _ _ _ _ _ _ _ _ FS) in EP. apply some_eq in EP. subst P'.
  destruct (C15_balls_enclose t P fs_reach) as [b' [Eb [B0 _]]].
  { intros a k v La Ev. destruct (lt_dec k 4) as [Hk|Hk].
    - exists (corner_point (points_of X) a k). apply CP; auto. destruct La as [n [En _]]. unfold exists_node. congruence.
    - exfalso. destruct (reachable_wf t fs_reach) as [[l W] _]. destruct La as [n [En _]]. unfold vertex in Ev. rewrite En in Ev.
      apply Hk. rewrite <- (nk_verts _ _ (wf_node t l W a n En)). apply nth_error_Some. congruence. }
  rewrite (fs_balls _ _ _ _ _ _ _ _ _ _ _ _ FS) in Eb. apply some_eq in Eb. subst b'. exact B0.
Qed.
Lemma root_near : forall eta, near_of mid rad eta [] [] = true.
Proof.
  intros eta. unfold near_of. rewrite !(fs_rad _ _ _ _ _ _ _ _ _ _ _ _ FS).
  rewrite root_ball. reflexivity.
Qed.
(** a far-field block: the balls are apart, and the kernel (times a constant) has bounded derivatives on the pair of clusters *)
Lemma block_kernel : forall o eta mincl n xi w ja jm H B c1 c2, h2_init o t (near_of mid rad eta) mincl n xi w ja jm = Some H ->
  In B (leaves (h_blocks H)) -> b_cc B = LowRank -> t_store t (b_c1 B) = Some c1 -> t_store t (b_c2 B) = Some c2 -> 0 < eta ->
  exists x1 x2, b (b_c1 B) = Some x1 /\ b (b_c2 B) = Some x2 /\ let d := dist3 (fst x1) (fst x2) - snd x1 - snd x2 in 0 < d /\
    forall m k, kernel_bounded m (Rabs k / (4 * PI) * line_bound m (2 * eta * d) d) (fun s s' => k * laplace_kernel (p_f (surf_point X c1 s 0)) (p_f (surf_point X c2 s' 0))).
Proof.
  intros o eta mincl n xi w ja jm H B c1 c2 EH HB Hlr Ec1 Ec2 He.
  destruct (h2_init_facts _ _ _ _ _ _ _ _ _ _ EH) as [_ [_ [Eb _]]]. destruct (reachable_wf t fs_reach) as [[l W] HP].
  destruct (block_tree_ok t l (near_of mid rad eta) mincl W HP) as [bt' [E' H']]. rewrite Eb in E'. apply some_eq in E'. subst bt'.
  destruct (H' B HB) as [_ [_ [_ [Cc _]]]]. rewrite Hlr in Cc. unfold compare_cluster in Cc.
  destruct (near_of mid rad eta (b_c1 B) (b_c2 B)) eqn:En; [destruct (_ <=? _)%Z in Cc; discriminate|].
  destruct (cluster_facts _ _ Ec1) as [x1 [B1 [R1 [In1 Sd1]]]]. destruct (cluster_facts _ _ Ec2) as [x2 [B2 [R2 [In2 Sd2]]]].
  destruct (near_false eta _ _ x1 x2 B1 B2 R1 R2 En) as [A1 A2]. exists x1, x2. split; [exact B1|]. split; [exact B2|]. cbv zeta. set (d := dist3 (fst x1) (fst x2) - snd x1 - snd x2) in *.
  assert (Hd : 0 < d) by (unfold d; lra). split; [exact Hd|]. intros m k. pose proof (Rmax_l (snd x1) (snd x2)). pose proof (Rmax_r (snd x1) (snd x2)).
  apply (flat_bounded X O U V (fs_flat _ _ _ _ _ _ _ _ _ _ _ _ FS)); [exact Hd|split; destruct Sd1; lra|split; destruct Sd2; lra|].
  intros s s' Is Is'. destruct x1 as [m1 r1], x2 as [m2 r2]. cbn [fst snd] in *. apply balls_apart; [apply In1, open_closed, Is|apply In2, open_closed, Is'].
Qed.
End Far.
Lemma growth_nonneg : forall n, (0 < n)%nat -> 0 <= 1 + (2 * INR n - 1) + (2 * INR n - 1) ^ 2 + (2 * INR n - 1) ^ 3.
Proof. intros n Hn. assert (1 <= INR n) by (change 1 with (INR 1); apply le_INR; lia). pose proof (pow_le (2 * INR n - 1) 2 ltac:(lra)). pose proof (pow_le (2 * INR n - 1) 3 ltac:(lra)). lra. Qed.
Lemma error4_line : forall n c eta d, 0 < d -> cheb_error4 n (c * line_bound n (2 * eta * d) d) = (1 + (2 * INR n - 1) + (2 * INR n - 1) ^ 2 + (2 * INR n - 1) ^ 3) * (2 * c / d * (eta / 2) ^ n).
Proof.
  intros n c eta d Hd. unfold cheb_error4. cbv zeta. rewrite cheb_line by exact Hd. f_equal. replace (2 * eta * d / (4 * d)) with (eta / 2) by (field; lra). reflexivity.
Qed.
(** ** the single layer operator: with n interpolation points per direction and the admissibility constant eta, every entry in a
    far-field block differs from the quadrature of the exact kernel by at most
       h^2 |patch 1| |patch 2| / (4 pi) (1 + L + L^2 + L^3) (2 / d) (eta / 2)^n,   L = 2 n - 1,
    where d > 0 is the distance of the two balls *)
Theorem C78_single_layer : forall (Pt : Type) (close : Pt -> Pt -> bool) corners M t X O U V P b mid rad, far_setting close corners M t X O U V P b mid rad ->
  forall ss form eta mincl n xi w ja jm H A, 0 < eta -> (0 <= mincl)%Z -> (0 < n)%nat -> ss_M ss = M -> positive_rule xi w ->
  h2_init (op_linop laplace_sl ss X form) t (near_of mid rad eta) mincl n xi w ja jm = Some H -> described_by H (length corners) M A ->
  forall B a1 a2 E1 E2 c1 c2 i j, In B (leaves (h_blocks H)) -> b_cc B = LowRank ->
  t_store t a1 = Some (e_node E1) -> t_store t a2 = Some (e_node E2) -> is_leaf t a1 -> is_leaf t a2 ->
  t_store t (b_c1 B) = Some c1 -> t_store t (b_c2 B) = Some c2 -> under (b_c1 B) a1 -> under (b_c2 B) a2 -> (i < ss_n2 ss)%nat -> (j < ss_n2 ss)%nat ->
  let N := (length corners * 4 ^ M)%nat in
  exists m1 r1 m2 r2, b (b_c1 B) = Some (m1, r1) /\ b (b_c2 B) = Some (m2, r2) /\ let d := dist3 m1 m2 - r1 - r2 in let L := 2 * INR n - 1 in 0 < d /\
  Rabs (A (row_of (ss_n2 ss) N 0 i (e_node E1)) (row_of (ss_n2 ss) N 0 j (e_node E2)) - integrate1 (op_kern laplace_sl ss X) E1 E2 (tensor_rule (xi, w)) i j)
  <= ss_h ss * ss_h ss * (area U V (n_patch (e_node E1)) * area U V (n_patch (e_node E2)) / (4 * PI)) * (1 + L + L ^ 2 + L ^ 3) * (2 / d) * (eta / 2) ^ n.
Proof.
  intros Pt close corners M t X O U V P b mid rad FS ss form eta mincl n xi w ja jm H A He H0 Hn HM HR EH DA B a1 a2 E1 E2 c1 c2 i j HB Hlr S1 S2 L1 L2 Ec1 Ec2 U1 U2 Hi Hj N.
  destruct (block_kernel close corners M t X O U V P b mid rad FS _ eta mincl n xi w ja jm H B c1 c2 EH HB Hlr Ec1 Ec2 He) as [[m1 r1] [[m2 r2] [B1 [B2 [Hd KB]]]]]. cbn [fst snd] in *.
  exists m1, r1, m2, r2. split; [exact B1|]. split; [exact B2|]. cbv zeta. set (d := dist3 m1 m2 - r1 - r2) in *. split; [exact Hd|].
  pose proof (fs_flat _ _ _ _ _ _ _ _ _ _ _ _ FS) as FX. pose proof (fs_area _ _ _ _ _ _ _ _ _ _ _ _ FS) as FA. pose proof (fs_four _ _ _ _ _ _ _ _ _ _ _ _ FS) as H4. pose proof (fs_tree _ _ _ _ _ _ _ _ _ _ _ _ FS) as Et.
  destruct (level_patch close corners M t a1 (e_node E1) (b_c1 B) c1 H4 Et S1 L1 Ec1 U1) as [_ P1]. destruct (level_patch close corners M t a2 (e_node E2) (b_c2 B) c2 H4 Et S2 L2 Ec2 U2) as [_ P2].
  set (k := area U V (n_patch (e_node E1)) * area U V (n_patch (e_node E2))).
  assert (Hk : 0 <= k) by (apply Rmult_le_pos; apply vnorm_nonneg).
  assert (HC : Ci <> RtoC 0) by (intro Q; injection Q; lra).
  pose proof (C77_compressed_error Pt close corners M t Ci laplace_sl ss X form (near_of mid rad eta) mincl n xi w ja jm H A (fs_ne _ _ _ _ _ _ _ _ _ _ _ _ FS) H4 Et (root_near close corners M t X O U V P b mid rad FS eta) H0 Hn
    (or_introl eq_refl) HC HM ltac:(apply HR) EH DA B a1 a2 E1 E2 c1 c2 0%nat 0%nat i j HB Hlr S1 S2 L1 L2 Ec1 Ec2 U1 U2 ltac:(cbn; lia) ltac:(cbn; lia) Hi Hj) as F.
  cbv zeta in F. fold N in F. rewrite !Nat.mul_0_l, !Nat.add_0_l in F.
  specialize (F (fun a bb _ _ => eq_ind_r (fun z => z <> 0) (FA _) (flat_kappa X O U V FX _ _ _)) (fun a bb _ _ => eq_ind_r (fun z => z <> 0) (FA _) (flat_kappa X O U V FX _ _ _))).
  specialize (F (Rabs k / (4 * PI) * line_bound n (2 * eta * d) d) 1 (some_psi (ss_p ss)) HR (some_psi_ok _)).
  eapply Rle_trans; [apply F|].
  - intros C1 C2 HC1 HC2. refine (kernel_ext _ _ _ _ _ (KB n k)). intros s s'. cbn [op_fmm laplace_sl]. unfold laplace_sl_fmm. rewrite !(flat_kappa X O U V FX), P1, P2. unfold k. ring.
  - intros c C q s Hc HC' Hq [[A1 A2] [A3 A4]]. cbn [op_kinds laplace_sl plain_kinds]. rewrite component_plain by apply some_psi_ok. unfold shape. destruct (split_index _ q Hq) as [_ [I1 I2]].
    assert (Uq : forall m u, (m <= ss_p ss)%nat -> 0 < u < 1 -> 0 <= bern (ss_p ss) m u <= 1) by (intros m u Hm Hu; split; [apply bern_nonneg; lra|apply bern_le_1; [lra|assumption]]).
    pose proof (Uq _ (fst s) I2 (conj A1 A2)). pose proof (Uq _ (snd s) I1 (conj A3 A4)).
    rewrite Rabs_pos_eq by (apply Rmult_le_pos; lra). replace 1 with (1 * 1) by ring. apply Rmult_le_compat; lra.
  - rewrite error4_line by exact Hd. rewrite Rabs_right by lra. cbn [op_nF laplace_sl INR]. apply Req_le. field. pose proof PI_RGT_0. split; lra.
Qed.
(** ** the hypersingular operator: G bounds the products of the tangents, S the scaled derivatives of the shape functions *)
Theorem C78_hypersingular : forall (Pt : Type) (close : Pt -> Pt -> bool) corners M t X O U V P b mid rad, far_setting close corners M t X O U V P b mid rad ->
  forall ss form eta mincl n xi w ja jm H A, 0 < eta -> (0 <= mincl)%Z -> (0 < n)%nat -> ss_M ss = M -> positive_rule xi w ->
  h2_init (op_linop laplace_hs ss X form) t (near_of mid rad eta) mincl n xi w ja jm = Some H -> described_by H (length corners) M A ->
  forall B a1 a2 E1 E2 c1 c2 i j, In B (leaves (h_blocks H)) -> b_cc B = LowRank ->
  t_store t a1 = Some (e_node E1) -> t_store t a2 = Some (e_node E2) -> is_leaf t a1 -> is_leaf t a2 ->
  t_store t (b_c1 B) = Some c1 -> t_store t (b_c2 B) = Some c2 -> under (b_c1 B) a1 -> under (b_c2 B) a2 -> (i < ss_n2 ss)%nat -> (j < ss_n2 ss)%nat ->
  let N := (length corners * 4 ^ M)%nat in
  forall G S psi, shape_values (ss_p ss) psi ->
  (forall x y, In x [U (n_patch c1); V (n_patch c1)] -> In y [U (n_patch c2); V (n_patch c2)] -> Rabs (vdot x y) <= G) ->
  (forall c C q s, (c < 1)%nat -> (C < 2)%nat -> (q < ss_n2 ss)%nat -> in_open_square s -> Rabs (component (ss_p ss) (ss_h ss) psi (op_kinds laplace_hs c C) q s) <= S) ->
  exists m1 r1 m2 r2, b (b_c1 B) = Some (m1, r1) /\ b (b_c2 B) = Some (m2, r2) /\ let d := dist3 m1 m2 - r1 - r2 in let L := 2 * INR n - 1 in 0 < d /\
  Rabs (A (row_of (ss_n2 ss) N 0 i (e_node E1)) (row_of (ss_n2 ss) N 0 j (e_node E2)) - integrate1 (op_kern laplace_hs ss X) E1 E2 (tensor_rule (xi, w)) i j)
  <= 4 * (ss_h ss * ss_h ss) * (S * S * G / (4 * PI)) * (1 + L + L ^ 2 + L ^ 3) * (2 / d) * (eta / 2) ^ n.
Proof.
  intros Pt close corners M t X O U V P b mid rad FS ss form eta mincl n xi w ja jm H A He H0 Hn HM HR EH DA B a1 a2 E1 E2 c1 c2 i j HB Hlr S1 S2 L1 L2 Ec1 Ec2 U1 U2 Hi Hj N G S psi Hpsi HG HS.
  destruct (block_kernel close corners M t X O U V P b mid rad FS _ eta mincl n xi w ja jm H B c1 c2 EH HB Hlr Ec1 Ec2 He) as [[m1 r1] [[m2 r2] [B1 [B2 [Hd KB]]]]]. cbn [fst snd] in *.
  exists m1, r1, m2, r2. split; [exact B1|]. split; [exact B2|]. cbv zeta. set (d := dist3 m1 m2 - r1 - r2) in *. split; [exact Hd|].
  pose proof (fs_flat _ _ _ _ _ _ _ _ _ _ _ _ FS) as FX. pose proof (fs_area _ _ _ _ _ _ _ _ _ _ _ _ FS) as FA. pose proof (fs_four _ _ _ _ _ _ _ _ _ _ _ _ FS) as H4. pose proof (fs_tree _ _ _ _ _ _ _ _ _ _ _ _ FS) as Et.
  assert (HC : Ci <> RtoC 0) by (intro Q; injection Q; lra). pose proof PI_RGT_0 as Pp.
  pose proof (C77_compressed_error Pt close corners M t Ci laplace_hs ss X form (near_of mid rad eta) mincl n xi w ja jm H A (fs_ne _ _ _ _ _ _ _ _ _ _ _ _ FS) H4 Et (root_near close corners M t X O U V P b mid rad FS eta) H0 Hn
    (or_intror (or_intror (or_intror (or_introl eq_refl)))) HC HM ltac:(apply HR) EH DA B a1 a2 E1 E2 c1 c2 0%nat 0%nat i j HB Hlr S1 S2 L1 L2 Ec1 Ec2 U1 U2 ltac:(cbn; lia) ltac:(cbn; lia) Hi Hj) as F.
  cbv zeta in F. fold N in F. rewrite !Nat.mul_0_l, !Nat.add_0_l in F.
  specialize (F (fun a bb _ _ => eq_ind_r (fun z => z <> 0) (FA _) (flat_kappa X O U V FX _ _ _)) (fun a bb _ _ => eq_ind_r (fun z => z <> 0) (FA _) (flat_kappa X O U V FX _ _ _))).
  specialize (F (G / (4 * PI) * line_bound n (2 * eta * d) d) S psi HR Hpsi).
  eapply Rle_trans; [apply F|].
  - intros C1 C2 HC1 HC2.
    assert (LB : 0 <= line_bound n (2 * eta * d) d).
    { unfold line_bound, Rdiv. apply Rmult_le_pos; [apply Rmult_le_pos; [apply pos_INR|apply pow_le; nra]|]. apply Rlt_le, Rinv_0_lt_compat, pow_lt, Hd. }
    assert (KX : exists k, Rabs k <= G /\ forall s s', k * laplace_kernel (p_f (surf_point X c1 s 0)) (p_f (surf_point X c2 s' 0)) = op_fmm laplace_hs (surf_point X c1 s 0) (surf_point X c2 s' 0) C1 C2).
    { cbn [op_nF laplace_hs] in HC1, HC2. destruct C1 as [|[|C1]], C2 as [|[|C2]]; try lia; cbn [op_fmm laplace_hs]; unfold laplace_hs_fmm, updm; cbn [Nat.eqb andb].
      - exists (vdot (V (n_patch c1)) (V (n_patch c2))). split; [apply HG; cbn; tauto|]. intros s s'. rewrite !(flat_point X O U V FX). cbn [p_dx p_dy p_f]. ring.
      - exists (- vdot (V (n_patch c1)) (U (n_patch c2))). split; [rewrite Rabs_Ropp; apply HG; cbn; tauto|]. intros s s'. rewrite !(flat_point X O U V FX). cbn [p_dx p_dy p_f]. ring.
      - exists (- vdot (U (n_patch c1)) (V (n_patch c2))). split; [rewrite Rabs_Ropp; apply HG; cbn; tauto|]. intros s s'. rewrite !(flat_point X O U V FX). cbn [p_dx p_dy p_f]. ring.
      - exists (vdot (U (n_patch c1)) (U (n_patch c2))). split; [apply HG; cbn; tauto|]. intros s s'. rewrite !(flat_point X O U V FX). cbn [p_dx p_dy p_f]. ring. }
    destruct KX as [k [Gk Ek]]. refine (bounded_mono _ _ _ _ _ (kernel_ext _ _ _ _ Ek (KB n k))).
    apply Rmult_le_compat_r; [exact LB|]. unfold Rdiv. apply Rmult_le_compat_r; [apply Rlt_le, Rinv_0_lt_compat; lra|exact Gk].
  - exact HS.
  - rewrite error4_line by exact Hd. cbn [op_nF laplace_hs INR]. apply Req_le. field. split; lra.
Qed.

(** ** a concrete case: two unit squares in the planes z = 0 and z = 1000 *)
Definition far_corners : list (list nat) := [[0; 1; 2; 3]; [4; 5; 6; 7]]%nat.
Definition far_O (p : nat) : vec3 := (0, 0, 1000 * INR p).
Definition far_U (p : nat) : vec3 := (1, 0, 0).
Definition far_V (p : nat) : vec3 := (0, 1, 0).
Definition far_sheets : surface := fun p st => (vadd (far_O p) (vadd (vscal (fst st) (far_U p)) (vscal (snd st) (far_V p))), far_U p, far_V p).
Lemma far_fits : mesh_ok far_corners /\ fits far_corners (points_of far_sheets).
Proof.
  split.
  - apply mesh_ok_b; vm_compute; reflexivity.
  - assert (D : forall p (Q : nat -> Prop), (p < length far_corners)%nat -> Q 0%nat -> Q 1%nat -> Q p) by (intros [|[|p]] Q Hp; simpl in Hp; auto; lia).
    assert (D4 : forall k (Q : nat -> Prop), (k < 4)%nat -> Q 0%nat -> Q 1%nat -> Q 2%nat -> Q 3%nat -> Q k) by (intros [|[|[|[|k]]]] Q Hk; auto; lia).
    constructor.
    + intros p q k m Hp Hq Hk Hm. apply (D p); [assumption| |]; (apply (D q); [assumption| |]); (apply (D4 k); [assumption| | | |]);
        (apply (D4 m); [assumption| | | |]); intros E; vm_compute in E; try discriminate; reflexivity.
    + intros p q i j s Hp Hq Hi Hj Hs. apply (D p); [assumption| |]; (apply (D q); [assumption| |]); (apply (D4 i); [assumption| | | |]);
        (apply (D4 j); [assumption| | | |]); intros [E E']; vm_compute in E, E'; try discriminate; reflexivity.
    + intros p q i j s Hp Hq Hi Hj Hs. apply (D p); [assumption| |]; (apply (D q); [assumption| |]); (apply (D4 i); [assumption| | | |]);
        (apply (D4 j); [assumption| | | |]); intros [E E']; vm_compute in E, E'; discriminate.
Qed.
Lemma enclosing_radius : forall m1 r1 m2 r2 x p q, 0 <= r1 -> 0 <= r2 -> enclosing_ball (m1, r1) (m2, r2) = Some x -> in_ball p (m1, r1) -> in_ball q (m2, r2) ->
  0 <= snd x /\ snd x <= r1 + r2 + dist p q /\ in_ball p x.
Proof.
  intros m1 r1 m2 r2 x p q R1 R2 E I1 I2. destruct (enclosing_ok m1 r1 m2 r2 R1 R2) as [m [r [E' [C1 [_ [Rr Er]]]]]]. rewrite E in E'. apply some_eq in E'. subst x. cbn [snd].
  split; [exact Rr|]. split.
  - rewrite Er. unfold in_ball in *. cbn [fst snd] in *. pose proof (dist_tri m1 p m2). pose proof (dist_tri p q m2). rewrite (dist_sym m1 p) in H. pose proof (dist_pos p q).
    apply Rmax_lub; [apply Rmax_lub; lra|lra].
  - destruct (C14_enclosing_ball m1 r1 m2 r2 R1 R2) as [m' [r' [E2 [K _]]]]. rewrite E in E2. apply some_eq in E2. injection E2 as <- <-. apply K, I1.
Qed.
Lemma point_ball : forall p : vec3, in_ball p (p, 0). Proof. intros p. unfold in_ball. cbn [fst snd]. rewrite dist_self. lra. Qed.
Lemma ball4_radius : forall p0 p1 p2 p3 x D, dist p0 p2 <= D -> dist p1 p3 <= D -> dist p0 p1 <= D -> ball4 (p0, 0) (p1, 0) (p2, 0) (p3, 0) = Some x ->
  0 <= snd x <= 3 * D /\ in_ball p0 x.
Proof.
  intros p0 p1 p2 p3 x D D1 D2 D3 E. unfold ball4 in E. apply bind_some in E. destruct E as [[m r] [E1 E]]. apply bind_some in E. destruct E as [[m' r'] [E2 E]].
  destruct (enclosing_radius p0 0 p2 0 (m, r) p0 p2 ltac:(lra) ltac:(lra) E1 (point_ball _) (point_ball _)) as [A1 [A2 A3]].
  destruct (enclosing_radius p1 0 p3 0 (m', r') p1 p3 ltac:(lra) ltac:(lra) E2 (point_ball _) (point_ball _)) as [B1 [B2 B3]]. cbn [snd] in *.
  destruct (enclosing_radius m r m' r' x p0 p1 A1 B1 E A3 B3) as [C1 [C2 C3]]. split; [split; [exact C1|lra]|exact C3].
Qed.
Lemma one_step : forall u v : vec3, Rabs (vx u - vx v) <= 1 -> Rabs (vy u - vy v) <= 1 -> vz u = vz v -> dist u v <= 2.
Proof.
  intros [[a1 b1] c1] [[a2 b2] c2]. unfold vx, vy, vz. cbn [fst snd]. intros A1 A2 ->. unfold dist. cbn [fst snd]. rewrite <- (sqrt_square 2) by lra. apply sqrt_le_1_alt.
  unfold Rsqr. apply Rabs_le_between in A1, A2. nra.
Qed.
Lemma far_corner : forall p k, corner_point (points_of far_sheets) [p] k = (INR (quad_x k), INR (quad_y k), 1000 * INR p).
Proof.
  intros p k. unfold corner_point, points_of, far_sheets, far_O, far_U, far_V. cbn [pos_patch pos_x pos_y fst snd]. replace (2 ^ pos_level [p]) with 1 by (unfold pos_level; cbn [length Nat.sub pow]; reflexivity). rewrite !Nat.add_0_l.
  rewrite !Rdiv_1. unfold vadd, vscal, vx, vy, vz. cbn [fst snd]. apply f_equal2; [apply f_equal2|].
  all: change (pos_patch [p]) with p; ring.
Qed.
Lemma append_flat : forall f t near i j r c, t_maxlevel t = 0%nat -> level_of t [i] = 0%Z ->
  append_subtree f t near 0 [i] [j] r c = Some (BT (if near [i] [j] then Dense else LowRank) [i] [j] r c []).
Proof.
  intros f t near i j r c HM HL. destruct f; cbn [append_subtree]; unfold compare_cluster; rewrite HM, HL; destruct (near [i] [j]); reflexivity.
Qed.
Lemma append_step : forall f t near mincl a b r c, compare_cluster t near mincl a b = Refine ->
  append_subtree (S f) t near mincl a b r c = (sons <- map_opt (fun ij => r <- cluster_elements t (fst ij) ;; c <- cluster_elements t (snd ij) ;; append_subtree f t near mincl (fst ij) (snd ij) (length r) (length c))
    (flat_map (fun j => map (fun i => (i, j)) (sons_of t a)) (sons_of t b)) ;; Some (BT Refine a b r c sons)).
Proof. intros f t near mincl a b r c E. cbn [append_subtree]. rewrite E. reflexivity. Qed.
Example C78_example : exists t P b mid rad, far_setting Nat.eqb far_corners 0 t far_sheets far_O far_U far_V P b mid rad /\
  exists H A B E1 E2 c1 c2, h2_init (op_linop laplace_sl (mkSS 1 0 zero_arr zero_arr zero_arr zero_arr) far_sheets (fun _ _ _ _ => 0)) t (near_of mid rad 1) 0 4 [/ 2] [1] zero_arr zero_mat = Some H /\
    described_by H 2 0 A /\ positive_rule [/ 2] [1] /\ In B (leaves (h_blocks H)) /\ b_cc B = LowRank /\
    t_store t [0%nat] = Some (e_node E1) /\ t_store t [1%nat] = Some (e_node E2) /\ is_leaf t [0%nat] /\ is_leaf t [1%nat] /\
    t_store t (b_c1 B) = Some c1 /\ t_store t (b_c2 B) = Some c2 /\ under (b_c1 B) [0%nat] /\ under (b_c2 B) [1%nat].
Proof.
  destruct (init_tree Nat.eqb far_corners 0) as [t|] eqn:E; [|vm_compute in E; discriminate].
  assert (Z : (t <- init_tree Nat.eqb far_corners 0 ;; n1 <- t_store t [0]%nat ;; n2 <- t_store t [1]%nat ;; r1 <- cluster_elements t [0]%nat ;; r2 <- cluster_elements t [1]%nat ;;
     Some ((n_ref n1, n_ref n2), (n_verts n1, n_verts n2), (n_level n1, n_level n2), (t_maxlevel t, t_patches t), (length r1, length r2)))
    = Some ((false, false), ([0; 1; 2; 3], [4; 5; 6; 7]), (0, 0), (0, 2), (1, 1))%nat) by (vm_compute; reflexivity).
  rewrite E in Z. cbn [bind] in Z. apply bind_some in Z. destruct Z as [n1 [N1 Z]]. apply bind_some in Z. destruct Z as [n2 [N2 Z]]. apply bind_some in Z. destruct Z as [l1 [L1 Z]]. apply bind_some in Z. destruct Z as [l2 [L2 Z]].
  apply some_eq in Z. injection Z as R1 R2 V1 V2 Lv1 Lv2 ML TP LL1 LL2.
  destruct far_fits as [MO FI].
  assert (H4 : forall c, In c far_corners -> length c = 4%nat) by (intros c Hc; repeat (destruct Hc as [<-|Hc]; [reflexivity|]); destruct Hc).
  assert (EV : fst (patch_vertices Nat.eqb [] far_corners) = far_corners) by (vm_compute; reflexivity).
  assert (G : from_geometry Nat.eqb far_corners far_corners t).
  { exists 0%nat, [], t. split; [symmetry; exact EV|]. split; [exact H4|split; [exact E|split; [exact I|reflexivity]]]. }
  destruct (C18_geometries _ _ _ _ _ G) as [npts [Nu Ro]].
  destruct (C52_point_list _ npts t (points_of far_sheets) MO Nu Ro ltac:(discriminate) FI) as [P [EP [_ [CP _]]]].
  destruct (C15_balls_enclose_surface_corners nat Nat.eqb far_corners _ t (points_of far_sheets) ltac:(discriminate) G MO FI) as [P' [b [EP' [Eb _]]]].
  rewrite EP in EP'. apply some_eq in EP'. subst P'.
  exists t, P, b, (fun a => match b a with Some x => fst x | None => (0, 0, 0) end), (fun a => option_map snd (b a)).
  set (mid := fun a => match b a with Some x => fst x | None => (0, 0, 0) end). set (rad := fun a => option_map snd (b a)).
  assert (FS : far_setting Nat.eqb far_corners 0 t far_sheets far_O far_U far_V P b mid rad).
  { constructor; [discriminate|exact H4|exact E|rewrite EV; exact MO|rewrite EV; exact FI| |  |exact EP|exact Eb| |reflexivity].
    - intros p st. reflexivity.
    - intros p. unfold area, far_U, far_V, vnorm, vdot, vcross, vx, vy, vz. cbn [fst snd]. match goal with |- sqrt ?z <> _ => replace z with 1 by ring end. rewrite sqrt_1. lra.
    - intros a x Ea. unfold mid. rewrite Ea. reflexivity. }
  split; [exact FS|].
  (* the two balls *)
  assert (X0 : forall k, (k < 4)%nat -> col P k = Some (corner_point (points_of far_sheets) [0%nat] k)).
  { intros k Hk. apply CP; [unfold exists_node; congruence|exact Hk|]. unfold vertex. rewrite N1, V1. destruct k as [|[|[|[|k]]]]; try reflexivity. lia. }
  assert (X1 : forall k, (k < 4)%nat -> col P (4 + k) = Some (corner_point (points_of far_sheets) [1%nat] k)).
  { intros k Hk. apply CP; [unfold exists_node; congruence|exact Hk|]. unfold vertex. rewrite N2, V2. destruct k as [|[|[|[|k]]]]; try reflexivity. lia. }
  unfold enclosings in Eb. rewrite TP, ML in Eb. cbn [for_opt Nat.add] in Eb. apply bind_some in Eb. destruct Eb as [b0 [Eb0 Eb]]. cbn [bind] in Eb0.
  cbn [enclose_rec] in Eb0, Eb. rewrite N1 in Eb0. rewrite N2 in Eb. cbn [bind] in Eb0, Eb. rewrite R1, V1 in Eb0. rewrite R2, V2 in Eb. cbn [get nth_error bind] in Eb0, Eb.
  pose proof (X0 0%nat ltac:(lia)) as Y0. pose proof (X0 1%nat ltac:(lia)) as Y1. pose proof (X0 2%nat ltac:(lia)) as Y2. pose proof (X0 3%nat ltac:(lia)) as Y3.
  pose proof (X1 0%nat ltac:(lia)) as Y4. pose proof (X1 1%nat ltac:(lia)) as Y5. pose proof (X1 2%nat ltac:(lia)) as Y6. pose proof (X1 3%nat ltac:(lia)) as Y7. cbn [Nat.add] in Y4, Y5, Y6, Y7.
  rewrite Y0, Y1, Y2, Y3 in Eb0. rewrite Y4, Y5, Y6, Y7 in Eb. cbn [bind] in Eb0, Eb. rewrite !far_corner in Eb0, Eb.
  apply bind_some in Eb0. destruct Eb0 as [x1 [Bx1 Eb0]]. apply some_eq in Eb0. apply bind_some in Eb. destruct Eb as [x2 [Bx2 Eb]]. apply some_eq in Eb.
  assert (D0 : b [0%nat] = Some x1) by (rewrite <- Eb, <- Eb0; reflexivity). assert (D1 : b [1%nat] = Some x2) by (rewrite <- Eb; reflexivity).
  assert (Rd : forall z x, ball4 (INR (quad_x 0), INR (quad_y 0), z, 0) (INR (quad_x 1), INR (quad_y 1), z, 0) (INR (quad_x 2), INR (quad_y 2), z, 0) (INR (quad_x 3), INR (quad_y 3), z, 0) = Some x ->
    0 <= snd x <= 3 * 2 /\ in_ball (0, 0, z) x).
  { intros z x Ex. cbn [quad_x quad_y INR] in Ex. apply ball4_radius with (D := 2) in Ex; [exact Ex|..]; apply one_step; unfold vx, vy, vz; cbn [fst snd]; try reflexivity; apply Rabs_le; lra. }
  destruct (Rd _ _ Bx1) as [Q1 I1]. destruct (Rd _ _ Bx2) as [Q2 I2].
  assert (Far : near_of mid rad 1 [0%nat] [1%nat] = false).
  { unfold near_of, rad, mid. rewrite D0, D1. cbn [option_map]. destruct x1 as [m1 r1], x2 as [m2 r2]. cbn [fst snd] in *.
    assert (Dm : 1000 - r1 - r2 <= norm3 m1 m2).
    { unfold in_ball in I1, I2. cbn [fst snd] in I1, I2. assert (En : norm3 m1 m2 = dist m1 m2) by (unfold norm3, dist; destruct m1 as [[? ?] ?], m2 as [[? ?] ?]; cbn [fst snd]; unfold Rsqr; f_equal; ring). rewrite En.
      pose proof (dist_tri (0, 0, 1000 * INR 0) m1 (0, 0, 1000 * INR 1)) as T1. pose proof (dist_tri m1 m2 (0, 0, 1000 * INR 1)) as T2. rewrite (dist_sym m2) in T2.
      assert (T0 : dist (0, 0, 1000 * INR 0) (0, 0, 1000 * INR 1) = 1000).
      { unfold dist. cbn [fst snd INR]. unfold Rsqr. replace (_ + _) with (1000 * 1000) by ring. apply sqrt_square. lra. }
      rewrite T0 in T1. lra. }
    destruct (Rlt_dec 0 (norm3 m1 m2 - r1 - r2)) as [K|K]; [|lra]. destruct (Rlt_dec r2 r1); destruct (Rle_dec _ _); try reflexivity; exfalso; lra. }
  (* the block *)
  pose proof (root_near Nat.eqb far_corners 0 t far_sheets far_O far_U far_V P b mid rad FS 1) as Rn.
  assert (Lev : level_of t [0%nat] = 0%Z /\ level_of t [1%nat] = 0%Z) by (unfold level_of; rewrite N1, N2, Lv1, Lv2; split; reflexivity). destruct Lev as [Le0 Le1].
  assert (BT0 : exists bt B, block_tree t (near_of mid rad 1) 0 = Some bt /\ In B (leaves bt) /\ b_cc B = LowRank /\ b_c1 B = [0%nat] /\ b_c2 B = [1%nat]).
  { unfold block_tree. rewrite ML. cbn [Nat.add].
    assert (Cr : compare_cluster t (near_of mid rad 1) 0 [] [] = Refine) by (unfold compare_cluster; rewrite Rn, ML; reflexivity).
    rewrite append_step by exact Cr. cbn [sons_of]. rewrite TP. cbn [seq map flat_map app map_opt fst snd]. rewrite L1, L2. cbn [bind].
    repeat match goal with |- context [append_subtree ?f t ?nr 0 [?i] [?j] ?r ?c] => rewrite (append_flat f t nr i j r c ML) by assumption end. cbn [bind].
    eexists. exists (BT LowRank [0%nat] [1%nat] (length l1) (length l2) []). split; [reflexivity|]. rewrite Far. split; [|repeat split].
    cbn [leaves flat_map]. rewrite !in_app_iff. right. right. left. left. reflexivity. }
  destruct BT0 as [bt [B [Ebt [HB [Cc [Ec1 Ec2]]]]]].
  set (sse := mkSS 1 0 zero_arr zero_arr zero_arr zero_arr).
  assert (EH : exists H, h2_init (op_linop laplace_sl sse far_sheets (fun _ _ _ _ => 0)) t (near_of mid rad 1) 0 4 [/ 2] [1] zero_arr zero_mat = Some H) by (unfold h2_init; rewrite Ebt; cbn [bind]; eauto).
  destruct EH as [H EH].
  assert (SU : h2_of_mesh H 2 0).
  { apply (C54_setup nat Nat.eqb far_corners 0 t (op_linop laplace_sl sse far_sheets (fun _ _ _ _ => 0)) (near_of mid rad 1) 0 4 [/ 2] [1] zero_arr zero_mat H).
    - intro K; discriminate K. - exact H4. - exact E. - exact Rn. - lia. - lia. - cbn; lia. - cbn; lia. - exact EH. }
  destruct (C29_matrix_exists H 2 0 SU) as [A DA].
  destruct (h2_init_facts _ _ _ _ _ _ _ _ _ _ EH) as [T1 [T2 [T3 _]]]. rewrite Ebt in T3. apply some_eq in T3.
  exists H, A, B, (Build_element [0]%nat n1 (0, 0, 0) 1), (Build_element [1]%nat n2 (0, 0, 0) 1), n1, n2. cbn [e_node].
  split; [exact EH|]. split; [exact DA|].
  split. { split; [split; [reflexivity|]|split; [|cbn [rsum nth length]; ring]]; intros q Hq; cbn [length] in Hq; assert (q = 0%nat) by lia; subst q; cbn [nth]; lra. }
  split; [rewrite <- T3; exact HB|]. split; [exact Cc|]. rewrite Ec1, Ec2. split; [exact N1|]. split; [exact N2|]. split; [exists n1; split; assumption|]. split; [exists n2; split; assumption|].
  split; [exact N1|]. split; [exact N2|]. split; exists []; reflexivity.
Qed.

(* BEGIN ASSUMPTIONS *)
Print Assumptions C78_single_layer.
Print Assumptions C78_hypersingular.
