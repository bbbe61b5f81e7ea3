(** C82: the divergence theorem for the div-conforming spaces. *)
From Coq Require Import Reals Lra Lia Arith Bool List QArith Qreals ZArith.
From Coquelicot Require Import Coquelicot.
From Verif Require Import RSum ModelBase ModelBernstein SpecBernstein ModelTree SpecTree SpecMesh ModelGlue SpecGlue ProofTopoInfo ProofGlueMesh PropTopo PropGlue
  SpecPatch SpecForms ModelBall ModelQuad ModelAssembly ModelDuffy ModelOperators ModelForms PropTree PropAssembly ProofForms PropForms ModelProj SpecProj ProofProj ProofProjMesh
  ModelAnsatz SpecConform PropConform SpecQuad SpecL2 ProofSurfInt PropQuad PropL2 PropUtil SpecInterp ModelInterp ProofInterp PropInterp ProofDuffyInt ProofGaussErr PropDuffy PropProj ProofAnsatz.
Import ListNotations.
Local Close Scope Q_scope.
Local Open Scope R_scope.

(** ** one element *)
(** f is the flux of the field with components u 0, u 1 out of the unit square through side i *)
Definition side_flux (u : nat -> R * R -> R) (i : nat) (f : R) : Prop :=
  is_RInt (fun tau => IZR (out_flux i) * u (if normal_comp i then 1%nat else 0%nat) (along i tau)) 0 1 f.
Lemma reverse01 : forall (f : R -> R) (v : R), is_RInt f 0 1 v -> is_RInt (fun s => f (1 - s)) 0 1 v.
Proof.
  intros f v I. pose proof (is_RInt_comp_lin f (-1) 1 0 1 (opp v)) as L. apply is_RInt_swap in I.
  assert (E : is_RInt (fun y => scal (-1) (f (-1 * y + 1))) 0 1 (opp v)). { apply L. replace (-1 * 0 + 1) with 1 by ring. replace (-1 * 1 + 1) with 0 by ring. exact I. }
  apply (is_RInt_scal _ 0 1 (-1)) in E.
  change (is_RInt (fun y : R => scal (-1) (scal (-1) (f (-1 * y + 1)))) 0 1 (-1 * - v)) in E. replace (-1 * - v) with v in E by ring. eapply is_RInt_ext; [|exact E].
  intros x _. unfold scal. simpl. unfold mult. simpl. replace (-1 * x + 1) with (1 - x) by ring. ring.
Qed.
(** two functions that agree inside the interval have the same integral *)
Lemma int_unique : forall (f g : R -> R) (a b : R), (forall s, 0 < s < 1 -> f s = g s) -> is_RInt f 0 1 a -> is_RInt g 0 1 b -> a = b.
Proof.
  intros f g a b H A B. rewrite <- (is_RInt_unique _ _ _ _ A), <- (is_RInt_unique _ _ _ _ B). apply RInt_ext. intros x Hx. rewrite Rmin_left, Rmax_right in Hx by lra. apply H, Hx.
Qed.
Lemma int_poly : forall d (c : nat -> R), is_RInt (fun s => rsum (fun a => c a * s ^ a) d) 0 1 (rsum (fun a => c a / INR (S a)) d).
Proof. intros d c. exact (integral_poly c d). Qed.
(** derivative of a polynomial in the first or second variable, as a polynomial *)
Definition shift_x (d : nat) (c : nat -> nat -> R) (a b : nat) : R := if (S a <? d)%nat then INR (S a) * c (S a) b else 0.
Definition shift_y (d : nat) (c : nat -> nat -> R) (a b : nat) : R := if (S b <? d)%nat then INR (S b) * c a (S b) else 0.
Lemma sum_shift : forall (f : nat -> R) d, f 0%nat = 0 -> rsum f d = rsum (fun a => if (S a <? d)%nat then f (S a) else 0) d.
Proof.
  intros f [|d] H; [reflexivity|]. rewrite rsum_shift, H. cbn [rsum]. destruct (Nat.ltb_spec (S d) (S d)); [lia|].
  rewrite (rsum_ext (fun a => if (S a <? S d)%nat then f (S a) else 0) (fun a => f (S a)) d); [ring|]. intros i Hi. destruct (Nat.ltb_spec (S i) (S d)); [reflexivity|lia].
Qed.
Lemma deriv_x : forall d c h x y a, h <> 0 -> derivable_pt_lim (fun t => tensor_poly d c (x + t / h, y)) 0 a -> h * a = tensor_poly d (shift_x d c) (x, y).
Proof.
  intros d c h x y a Hh D. assert (D' : derivable_pt_lim (fun t => tensor_poly d c (x + t / h, y)) 0 (rsum (fun i => rsum (fun b => c i b * (INR i * x ^ pred i / h) * y ^ b) d) d)).
  { unfold tensor_poly. cbn [fst snd].
    apply (rsum_derivable (fun i t => rsum (fun b => c i b * (x + t / h) ^ i * y ^ b) d) (fun i _ => rsum (fun b => c i b * (INR i * x ^ pred i / h) * y ^ b) d) d 0). intros i _.
    apply (rsum_derivable (fun b t => c i b * (x + t / h) ^ i * y ^ b) (fun b _ => c i b * (INR i * x ^ pred i / h) * y ^ b) d 0). intros b _.
    apply is_derive_Reals. auto_derive; [exact I|]. replace (x + 0 * / h) with x by ring. unfold Rdiv. ring. }
  rewrite (uniqueness_limite _ _ _ _ D D'). rewrite <- rsum_scal. unfold tensor_poly. cbn [fst snd].
  rewrite (sum_shift (fun i => h * rsum (fun b => c i b * (INR i * x ^ pred i / h) * y ^ b) d) d).
  - apply rsum_ext. intros i Hi. unfold shift_x. destruct (S i <? d)%nat; [|symmetry; apply rsum_zero; intros; ring]. rewrite <- rsum_scal. apply rsum_ext. intros b _. cbn [pred]. field. exact Hh.
  - rewrite rsum_zero; [ring|]. intros b _. cbn [INR]. unfold Rdiv. ring.
Qed.
Lemma deriv_y : forall d c h x y a, h <> 0 -> derivable_pt_lim (fun t => tensor_poly d c (x, y + t / h)) 0 a -> h * a = tensor_poly d (shift_y d c) (x, y).
Proof.
  intros d c h x y a Hh D. assert (D' : derivable_pt_lim (fun t => tensor_poly d c (x, y + t / h)) 0 (rsum (fun i => rsum (fun b => c i b * x ^ i * (INR b * y ^ pred b / h)) d) d)).
  { unfold tensor_poly. cbn [fst snd].
    apply (rsum_derivable (fun i t => rsum (fun b => c i b * x ^ i * (y + t / h) ^ b) d) (fun i _ => rsum (fun b => c i b * x ^ i * (INR b * y ^ pred b / h)) d) d 0). intros i _.
    apply (rsum_derivable (fun b t => c i b * x ^ i * (y + t / h) ^ b) (fun b _ => c i b * x ^ i * (INR b * y ^ pred b / h)) d 0). intros b _.
    apply is_derive_Reals. auto_derive; [exact I|]. replace (y + 0 * / h) with y by ring. unfold Rdiv. ring. }
  rewrite (uniqueness_limite _ _ _ _ D D'). rewrite <- rsum_scal. unfold tensor_poly. cbn [fst snd]. apply rsum_ext. intros i _. rewrite <- rsum_scal.
  rewrite (sum_shift (fun b => h * (c i b * x ^ i * (INR b * y ^ pred b / h))) d).
  - apply rsum_ext. intros b Hb. unfold shift_y. destruct (S b <? d)%nat; [|ring]. cbn [pred]. field. exact Hh.
  - cbn [INR]. unfold Rdiv. ring.
Qed.
(** the coefficients of the integral of the derivative *)
Lemma integral_shift_x : forall d c, (0 < d)%nat -> poly_integral d (shift_x d c) = rsum (fun b => rsum (fun a => c a b) d / INR (S b)) d - rsum (fun b => c 0%nat b / INR (S b)) d.
Proof.
  intros d c Hd. unfold poly_integral. rewrite rsum_swap, <- rsum_minus. apply rsum_ext. intros b _.
  rewrite (rsum_ext _ (fun a => (if (S a <? d)%nat then c (S a) b else 0) * / INR (S b))).
  - rewrite rsum_scal_r. pose proof (sum_shift (fun a => if (a =? 0)%nat then 0 else c a b) d eq_refl) as Q. cbn [Nat.eqb] in Q. rewrite <- Q. clear Q. destruct d as [|d]; [lia|]. rewrite !rsum_shift. cbn [Nat.eqb]. unfold Rdiv. ring.
  - intros a _. unfold shift_x. destruct (S a <? d)%nat; [|unfold Rdiv; ring]. field. split; apply not_0_INR; lia.
Qed.
Lemma integral_shift_y : forall d c, (0 < d)%nat -> poly_integral d (shift_y d c) = rsum (fun a => rsum (fun b => c a b) d / INR (S a)) d - rsum (fun a => c a 0%nat / INR (S a)) d.
Proof.
  intros d c Hd. unfold poly_integral. rewrite <- rsum_minus. apply rsum_ext. intros a _.
  rewrite (rsum_ext _ (fun b => (if (S b <? d)%nat then c a (S b) else 0) * / INR (S a))).
  - rewrite rsum_scal_r. pose proof (sum_shift (fun b => if (b =? 0)%nat then 0 else c a b) d eq_refl) as Q. cbn [Nat.eqb] in Q. rewrite <- Q. clear Q. destruct d as [|d]; [lia|]. rewrite !rsum_shift. cbn [Nat.eqb]. unfold Rdiv. ring.
  - intros b _. unfold shift_y. destruct (S b <? d)%nat; [|unfold Rdiv; ring]. field. split; apply not_0_INR; lia.
Qed.
(** the values on the four sides as polynomials in one variable *)
Lemma on_right : forall d c y, tensor_poly d c (1, y) = rsum (fun b => rsum (fun a => c a b) d * y ^ b) d.
Proof. intros d c y. unfold tensor_poly. cbn [fst snd]. rewrite rsum_swap. apply rsum_ext. intros b _. rewrite <- rsum_scal_r. apply rsum_ext. intros a _. rewrite pow1. ring. Qed.
Lemma on_top : forall d c x, tensor_poly d c (x, 1) = rsum (fun a => rsum (fun b => c a b) d * x ^ a) d.
Proof. intros d c x. unfold tensor_poly. cbn [fst snd]. apply rsum_ext. intros a _. rewrite <- rsum_scal_r. apply rsum_ext. intros b _. rewrite pow1. ring. Qed.
Lemma on_left : forall d c y, (0 < d)%nat -> tensor_poly d c (0, y) = rsum (fun b => c 0%nat b * y ^ b) d.
Proof.
  intros d c y Hd. unfold tensor_poly. cbn [fst snd]. rewrite (rsum_single _ d 0%nat Hd); [apply rsum_ext; intros; simpl; ring|]. intros a _ Ha. apply rsum_zero. intros b _. rewrite pow_i by lia. ring.
Qed.
Lemma on_bottom : forall d c x, (0 < d)%nat -> tensor_poly d c (x, 0) = rsum (fun a => c a 0%nat * x ^ a) d.
Proof.
  intros d c x Hd. unfold tensor_poly. cbn [fst snd]. apply rsum_ext. intros a _. rewrite (rsum_single _ d 0%nat Hd); [simpl; ring|]. intros b _ Hb. rewrite pow_i by lia. ring.
Qed.
(** Gauss on one element: cubature of the divergence = sum of the four fluxes *)
Lemma element_gauss : forall d x w h (u : nat -> R * R -> R) dv flux, (0 < d)%nat -> exact_rule d x w -> h <> 0 ->
  is_tensor_poly d (u 0%nat) -> is_tensor_poly d (u 1%nat) ->
  (forall s, exists ax ay bx byy, dv s = ax + byy /\ patch_derivatives h (u 0%nat) s ax ay /\ patch_derivatives h (u 1%nat) s bx byy) ->
  (forall i, (i < 4)%nat -> side_flux u i (flux i)) ->
  h * h * rsum (fun q => q_w (tensor_rule (x, w)) q * dv (q_xi (tensor_rule (x, w)) q)) (q_size (tensor_rule (x, w))) = h * rsum flux 4.
Proof.
  intros d x w h u dv flux Hd Ex Hh [c0 E0] [c1 E1] Hdv Hf.
  assert (Dv : forall s, h * dv s = tensor_poly d (shift_x d c0) s + tensor_poly d (shift_y d c1) s).
  { intros s. destruct (Hdv s) as [ax [ay [bx [byy [-> [[A _] [_ B]]]]]]]. rewrite Rmult_plus_distr_l. destruct s as [s1 s2]; cbn [fst snd] in A, B. apply f_equal2.
    - apply deriv_x; [exact Hh|]. apply is_derive_Reals. apply is_derive_Reals in A. apply (is_derive_ext (fun t => u 0%nat (s1 + t / h, s2))); [intros t; apply E0|exact A].
    - apply deriv_y; [exact Hh|]. apply is_derive_Reals. apply is_derive_Reals in B. apply (is_derive_ext (fun t => u 1%nat (s1, s2 + t / h))); [intros t; apply E1|exact B]. }
  rewrite Rmult_assoc. apply f_equal. rewrite <- rsum_scal.
  rewrite (rsum_ext _ (fun q => q_w (tensor_rule (x, w)) q * tensor_poly d (shift_x d c0) (q_xi (tensor_rule (x, w)) q) + q_w (tensor_rule (x, w)) q * tensor_poly d (shift_y d c1) (q_xi (tensor_rule (x, w)) q))).
  2:{ intros q _. rewrite <- Rmult_plus_distr_l, <- Dv. ring. }
  rewrite rsum_plus, !cubature_poly by exact Ex. rewrite integral_shift_x, integral_shift_y by exact Hd. cbn [rsum].
  assert (F0 : flux 0%nat = - rsum (fun a => c1 a 0%nat / INR (S a)) d).
  { apply (int_unique (fun s => -1 * rsum (fun a => c1 a 0%nat * s ^ a) d) (fun s => -1 * rsum (fun a => c1 a 0%nat * s ^ a) d)); [reflexivity| |].
    - eapply is_RInt_ext; [|exact (Hf 0%nat ltac:(lia))]. intros s _. cbn [out_flux normal_comp along]. rewrite E1, on_bottom by exact Hd. reflexivity.
    - pose proof (is_RInt_scal _ 0 1 (-1) _ (int_poly d (fun a => c1 a 0%nat))) as Q. replace (- rsum (fun a => c1 a 0%nat / INR (S a)) d) with (scal (-1) (rsum (fun a => c1 a 0%nat / INR (S a)) d)) by (unfold scal; simpl; unfold mult; simpl; ring). exact Q. }
  assert (F1 : flux 1%nat = rsum (fun b => rsum (fun a => c0 a b) d / INR (S b)) d).
  { eapply int_unique; [|exact (Hf 1%nat ltac:(lia))|apply int_poly]. intros s _. cbn [out_flux normal_comp along]. rewrite E0, on_right. ring. }
  assert (F2 : flux 2%nat = rsum (fun a => rsum (fun b => c1 a b) d / INR (S a)) d).
  { eapply int_unique; [|exact (Hf 2%nat ltac:(lia))|apply reverse01; apply int_poly]. intros s _. cbn [out_flux normal_comp along]. rewrite E1, on_top. ring. }
  assert (F3 : flux 3%nat = - rsum (fun b => c0 0%nat b / INR (S b)) d).
  { apply (int_unique (fun s => -1 * rsum (fun b => c0 0%nat b * (1 - s) ^ b) d) (fun s => -1 * rsum (fun b => c0 0%nat b * (1 - s) ^ b) d)); [reflexivity| |].
    - eapply is_RInt_ext; [|exact (Hf 3%nat ltac:(lia))]. intros s _. cbn [out_flux normal_comp along]. rewrite E0, on_left by exact Hd. reflexivity.
    - pose proof (is_RInt_scal _ 0 1 (-1) _ (reverse01 _ _ (int_poly d (fun b => c0 0%nat b)))) as Q. replace (- rsum (fun b => c0 0%nat b / INR (S b)) d) with (scal (-1) (rsum (fun b => c0 0%nat b / INR (S b)) d)) by (unfold scal; simpl; unfold mult; simpl; ring). exact Q. }
  rewrite F0, F1, F2, F3. ring.
Qed.

(** exact rules of all orders exist *)
Lemma rule_exists : forall d, exists x w, exact_rule d x w.
Proof.
  intros d. destruct (C31_chebychev_points d) as [Ds _].
  set (x := map (chebychev d) (seq 0 d)). set (w := map (fun i : nat => RInt (lagrange d (chebychev d) i) 0 1) (seq 0 d) : list R). exists x, w.
  assert (Lx : length x = d) by (unfold x; rewrite map_length, seq_length; reflexivity). assert (Lw : length w = d) by (unfold w; rewrite map_length, seq_length; reflexivity).
  split; [exact (eq_trans Lx (eq_sym Lw))|]. intros c v I. unfold quad. rewrite Lw.
  assert (Pc : polynomial d (poly_eval c d)) by (exists c; reflexivity).
  assert (J : is_RInt (fun t => rsum (fun i => poly_eval c d (chebychev d i) * lagrange d (chebychev d) i t) d) 0 1 (rsum (fun i => poly_eval c d (chebychev d i) * RInt (lagrange d (chebychev d) i) 0 1) d)).
  { assert (G : forall m, (m <= d)%nat -> is_RInt (fun t => rsum (fun i => poly_eval c d (chebychev d i) * lagrange d (chebychev d) i t) m) 0 1 (rsum (fun i => poly_eval c d (chebychev d i) * RInt (lagrange d (chebychev d) i) 0 1) m)).
    { induction m as [|m IH]; intros Hmd; cbn [rsum].
      - pose proof (is_RInt_const (V := R_NormedModule) 0 1 0) as Q. refine (eq_ind _ (fun q => is_RInt (fun _ => 0) 0 1 q) Q _ _). unfold scal; simpl; unfold mult; simpl; ring.
      - apply (integral01_plus _ (fun t => poly_eval c d (chebychev d m) * lagrange d (chebychev d) m t)); [apply IH; lia|]. apply integral01_scal. destruct (poly_integrable d _ (lagrange_poly d (chebychev d) m ltac:(lia))) as [z Iz]. rewrite (is_RInt_unique _ _ _ _ Iz). exact Iz. }
    apply G. lia. }
  rewrite (int_unique _ _ _ _ (fun s _ => eq_sym (interpolation_exact d (chebychev d) _ Ds Pc s)) I J). apply rsum_ext. intros k Hk.
  assert (Nm : forall f : nat -> R, nth k (map f (seq 0 d)) 0 = f k).
  { intros f. rewrite (nth_indep _ 0 (f 0%nat)) by (rewrite map_length, seq_length; exact Hk). rewrite map_nth, seq_nth by exact Hk. reflexivity. }
  assert (Nw : nth k w 0 = RInt (lagrange d (chebychev d) k) 0 1) by exact (Nm (fun i => RInt (lagrange d (chebychev d) i) 0 1)). assert (Nx : nth k x 0 = chebychev d k) by exact (Nm (chebychev d)).
  change (nth k w 0 * poly_eval c d (nth k x 0) = poly_eval c d (chebychev d k) * RInt (lagrange d (chebychev d) k) 0 1). rewrite Nw, Nx. apply Rmult_comm.
Qed.
(** the divergence is a polynomial *)
Lemma divergence_poly : forall d h (u : nat -> R * R -> R) dv, h <> 0 -> is_tensor_poly d (u 0%nat) -> is_tensor_poly d (u 1%nat) ->
  (forall s, exists ax ay bx byy, dv s = ax + byy /\ patch_derivatives h (u 0%nat) s ax ay /\ patch_derivatives h (u 1%nat) s bx byy) -> is_tensor_poly d dv.
Proof.
  intros d h u dv Hh [c0 E0] [c1 E1] Hdv. apply (itp_ext _ (fun s => / h * (tensor_poly d (shift_x d c0) s + tensor_poly d (shift_y d c1) s))).
  - intros s. destruct (Hdv s) as [ax [ay [bx [byy [-> [[A _] [_ B]]]]]]]. destruct s as [s1 s2]; cbn [fst snd] in A, B.
    rewrite <- (deriv_x d c0 h s1 s2 ax Hh), <- (deriv_y d c1 h s1 s2 byy Hh); [field; exact Hh| |]; apply is_derive_Reals.
    + apply is_derive_Reals in B. apply (is_derive_ext (fun t => u 1%nat (s1, s2 + t / h))); [intros t; apply E1|exact B].
    + apply is_derive_Reals in A. apply (is_derive_ext (fun t => u 0%nat (s1 + t / h, s2))); [intros t; apply E0|exact A].
  - apply itp_scal. apply itp_plus; eexists; reflexivity.
Qed.

(** ** sums over the cells of a patch *)
Lemma telescope : forall (f g : nat -> R) n, (0 < n)%nat -> (forall X, (S X < n)%nat -> g (S X) = - f X) -> rsum (fun X => f X + g X) n = f (n - 1)%nat + g 0%nat.
Proof.
  intros f g [|n] Hn H; [lia|]. rewrite rsum_plus. rewrite (rsum_shift g). cbn [rsum]. rewrite (rsum_ext (fun i => g (S i)) (fun i => -1 * f i) n) by (intros i Hi; rewrite H by lia; ring). rewrite rsum_scal. replace (S n - 1)%nat with n by lia. ring.
Qed.
(** the cell at position s of side i, counter-clockwise *)
Definition side_x (n i s : nat) : nat := match i with 0 => s | 1 => n - 1 | 2 => n - 1 - s | _ => 0 end%nat.
Definition side_y (n i s : nat) : nat := match i with 0 => 0 | 1 => s | 2 => n - 1 | _ => n - 1 - s end%nat.
Lemma patch_gauss : forall (f : nat -> nat -> nat -> R) n, (0 < n)%nat ->
  (forall X Y, (S X < n)%nat -> (Y < n)%nat -> f (S X) Y 3%nat = - f X Y 1%nat) -> (forall X Y, (X < n)%nat -> (S Y < n)%nat -> f X (S Y) 0%nat = - f X Y 2%nat) ->
  rsum (fun X => rsum (fun Y => rsum (f X Y) 4) n) n = rsum (fun i => rsum (fun s => f (side_x n i s) (side_y n i s) i) n) 4.
Proof.
  intros f n Hn H1 H2.
  transitivity (rsum (fun Y => f (n - 1)%nat Y 1%nat + f 0%nat Y 3%nat) n + rsum (fun X => f X (n - 1)%nat 2%nat + f X 0%nat 0%nat) n).
  - rewrite (rsum_ext _ (fun X => rsum (fun Y => f X Y 1%nat + f X Y 3%nat) n + rsum (fun Y => f X Y 2%nat + f X Y 0%nat) n)).
    + rewrite rsum_plus. rewrite rsum_swap. apply f_equal2; apply rsum_ext; intros k Hk.
      * apply (telescope (fun X => f X k 1%nat) (fun X => f X k 3%nat) n Hn). intros X HX. apply H1; assumption.
      * apply (telescope (fun Y => f k Y 2%nat) (fun Y => f k Y 0%nat) n Hn). intros Y HY. apply H2; assumption.
    + intros X _. rewrite <- rsum_plus. apply rsum_ext. intros Y _. cbn [rsum]. ring.
  - cbn [rsum side_x side_y]. rewrite !rsum_plus. rewrite (rsum_rev (fun Y => f 0%nat Y 3%nat)), (rsum_rev (fun X => f X (n - 1)%nat 2%nat)). ring.
Qed.
(** the contributions of the sides on the boundary of the patch *)
Lemma patch_boundary : forall (f : nat -> nat -> nat -> R) (b : nat -> nat -> nat -> bool) (o : nat -> bool) n, (0 < n)%nat ->
  (forall X Y i, (X < n)%nat -> (Y < n)%nat -> (i < 4)%nat -> b X Y i = (match i with 0 => Y =? 0 | 1 => S X =? n | 2 => S Y =? n | _ => X =? 0 end)%nat && o i) ->
  rsum (fun X => rsum (fun Y => rsum (fun i => if b X Y i then f X Y i else 0) 4) n) n = rsum (fun i => if o i then rsum (fun s => f (side_x n i s) (side_y n i s) i) n else 0) 4.
Proof.
  intros f b o n Hn H.
  assert (D : forall X Y, (X < n)%nat -> (Y < n)%nat -> rsum (fun i => if b X Y i then f X Y i else 0) 4 =
    (if (S X =? n)%nat && o 1%nat then f X Y 1%nat else 0) + (if (X =? 0)%nat && o 3%nat then f X Y 3%nat else 0) + ((if (S Y =? n)%nat && o 2%nat then f X Y 2%nat else 0) + (if (Y =? 0)%nat && o 0%nat then f X Y 0%nat else 0))).
  { intros X Y HX HY. cbn [rsum]. rewrite !H by (assumption || lia). ring. }
  rewrite (rsum_ext _ (fun X => rsum (fun Y => (if (S X =? n)%nat && o 1%nat then f X Y 1%nat else 0) + (if (X =? 0)%nat && o 3%nat then f X Y 3%nat else 0)) n +
     rsum (fun Y => (if (S Y =? n)%nat && o 2%nat then f X Y 2%nat else 0) + (if (Y =? 0)%nat && o 0%nat then f X Y 0%nat else 0)) n)).
  2:{ intros X HX. rewrite <- rsum_plus. apply rsum_ext. intros Y HY. apply D; assumption. }
  rewrite rsum_plus, rsum_swap.
  assert (One : forall (g : nat -> R) (q : bool) k (eqk : nat -> bool), (k < n)%nat -> (forall i, (i < n)%nat -> eqk i = (i =? k)%nat) -> rsum (fun i => if eqk i && q then g i else 0) n = if q then g k else 0).
  { intros g q k eqk Hk He. rewrite (rsum_single _ n k Hk); [rewrite He, Nat.eqb_refl by exact Hk; destruct q; reflexivity|]. intros i Hi Ne. rewrite He by exact Hi. destruct (Nat.eqb_spec i k); [congruence|reflexivity]. }
  assert (L1 : forall i, (i < n)%nat -> (S i =? n)%nat = (i =? n - 1)%nat) by (intros i Hi; destruct (Nat.eqb_spec (S i) n), (Nat.eqb_spec i (n - 1)); lia || reflexivity).
  assert (E1 : rsum (fun Y => rsum (fun X => (if (S X =? n)%nat && o 1%nat then f X Y 1%nat else 0) + (if (X =? 0)%nat && o 3%nat then f X Y 3%nat else 0)) n) n
    = (if o 1%nat then rsum (fun Y => f (n - 1)%nat Y 1%nat) n else 0) + (if o 3%nat then rsum (fun Y => f 0%nat Y 3%nat) n else 0)).
  { rewrite (rsum_ext _ (fun Y => (if o 1%nat then f (n - 1)%nat Y 1%nat else 0) + (if o 3%nat then f 0%nat Y 3%nat else 0))).
    - rewrite rsum_plus. apply f_equal2; [destruct (o 1%nat)|destruct (o 3%nat)]; try reflexivity; apply rsum_zero; reflexivity.
    - intros Y _. rewrite rsum_plus. rewrite (One (fun X => f X Y 1%nat) (o 1%nat) (n - 1)%nat (fun X => (S X =? n)%nat)) by (lia || exact L1). rewrite (One (fun X => f X Y 3%nat) (o 3%nat) 0%nat (fun X => (X =? 0)%nat)) by (lia || reflexivity). reflexivity. }
  assert (E2 : rsum (fun X => rsum (fun Y => (if (S Y =? n)%nat && o 2%nat then f X Y 2%nat else 0) + (if (Y =? 0)%nat && o 0%nat then f X Y 0%nat else 0)) n) n
    = (if o 2%nat then rsum (fun X => f X (n - 1)%nat 2%nat) n else 0) + (if o 0%nat then rsum (fun X => f X 0%nat 0%nat) n else 0)).
  { rewrite (rsum_ext _ (fun X => (if o 2%nat then f X (n - 1)%nat 2%nat else 0) + (if o 0%nat then f X 0%nat 0%nat else 0))).
    - rewrite rsum_plus. apply f_equal2; [destruct (o 2%nat)|destruct (o 0%nat)]; try reflexivity; apply rsum_zero; reflexivity.
    - intros X _. rewrite rsum_plus. rewrite (One (fun Y => f X Y 2%nat) (o 2%nat) (n - 1)%nat (fun Y => (S Y =? n)%nat)) by (lia || exact L1). rewrite (One (fun Y => f X Y 0%nat) (o 0%nat) 0%nat (fun Y => (Y =? 0)%nat)) by (lia || reflexivity). reflexivity. }
  rewrite E1, E2. cbn [rsum side_x side_y]. rewrite (rsum_rev (fun Y => f 0%nat Y 3%nat)), (rsum_rev (fun X => f X (n - 1)%nat 2%nat)). ring.
Qed.

(** ** pairing of the sides of the patches *)
Definition no_partner (verts : list (list nat)) (p i : nat) : Prop := ~ exists q j, (q < length verts)%nat /\ (j < 4)%nat /\ (q, j) <> (p, i) /\ glued verts p i q j.
Lemma glued_swap : forall verts p i q j, glued verts p i q j -> glued verts q j p i.
Proof. intros verts p i q j [[A B]|[A B]]; [left|right]; split; congruence. Qed.
Lemma pair_sides : forall verts (Phi : nat -> nat -> R) (o : nat -> nat -> bool), mesh_ok verts ->
  (forall p i, (p < length verts)%nat -> (i < 4)%nat -> (o p i = true <-> no_partner verts p i)) ->
  (forall p i q j, (p < length verts)%nat -> (i < 4)%nat -> (q < length verts)%nat -> (j < 4)%nat -> (q, j) <> (p, i) -> glued verts p i q j -> Phi q j = - Phi p i) ->
  rsum (fun p => rsum (Phi p) 4) (length verts) = rsum (fun p => rsum (fun i => if o p i then Phi p i else 0) 4) (length verts).
Proof.
  intros verts Phi o HM Ho Hp. set (N := length verts) in *.
  set (G := fun x y : nat => if glued_b verts (x / 4) (x mod 4) (y / 4) (y mod 4) && negb (x =? y)%nat then 1 else 0).
  set (F := fun x : nat => Phi (x / 4)%nat (x mod 4)%nat).
  assert (Dm : forall p i, (i < 4)%nat -> ((p * 4 + i) / 4 = p /\ (p * 4 + i) mod 4 = i)%nat) by (intros p i Hi; split; [rewrite Nat.add_comm, Nat.div_add, Nat.div_small by lia; lia|rewrite Nat.add_comm, Nat.mod_add, Nat.mod_small by lia; lia]).
  assert (Rng : forall x, (x < N * 4)%nat -> (x / 4 < N /\ x mod 4 < 4)%nat) by (intros x Hx; split; [apply Nat.div_lt_upper_bound; lia|apply Nat.mod_upper_bound; lia]).
  assert (Ne : forall x y, (x <> y)%nat -> ((y / 4, y mod 4) <> (x / 4, x mod 4))%nat).
  { intros x y H E. apply H. pose proof (f_equal fst E) as E1. pose proof (f_equal snd E) as E2. cbn [fst snd] in E1, E2. pose proof (Nat.div_mod x 4 ltac:(lia)) as Dx. pose proof (Nat.div_mod y 4 ltac:(lia)) as Dy. rewrite E1, E2 in Dy. rewrite Dx, Dy at 1. reflexivity. }
  assert (Flat : forall g : nat -> nat -> R, rsum (fun p => rsum (g p) 4) N = rsum (fun x => g (x / 4)%nat (x mod 4)%nat) (N * 4)).
  { intros g. rewrite rsum_flatten. apply rsum_ext. intros p _. apply rsum_ext. intros i Hi. destruct (Dm p i Hi) as [-> ->]. reflexivity. }
  rewrite (Flat Phi), (Flat (fun p i => if o p i then Phi p i else 0)). fold F.
  assert (Row : forall x, (x < N * 4)%nat -> rsum (fun y => G x y) (N * 4) = if o (x / 4)%nat (x mod 4)%nat then 0 else 1).
  { intros x Hx. destruct (Rng x Hx) as [R1 R2]. destruct (o (x / 4)%nat (x mod 4)%nat) eqn:Eo.
    - apply (Ho _ _ R1 R2) in Eo. apply rsum_zero. intros y Hy. unfold G. destruct (glued_b _ _ _ _ _) eqn:Eg; [|reflexivity]. destruct (Nat.eqb_spec x y) as [->|Nxy]; [reflexivity|]. exfalso. apply Eo.
      apply glued_b_iff in Eg. destruct (Rng y Hy). exists (y / 4)%nat, (y mod 4)%nat. repeat split; auto.
    - destruct (existsb (fun y => glued_b verts (x / 4) (x mod 4) (y / 4) (y mod 4) && negb (x =? y)%nat) (seq 0 (N * 4))) eqn:Ex.
      + apply existsb_exists in Ex. destruct Ex as [y [Iy Hy]]. apply in_seq in Iy. apply andb_prop in Hy. destruct Hy as [Hy1 Hy2]. apply negb_true_iff, Nat.eqb_neq in Hy2. pose proof (proj1 (glued_b_iff _ _ _ _ _) Hy1) as Gy. destruct (Rng y ltac:(lia)) as [R3 R4].
        rewrite (rsum_single _ (N * 4) y ltac:(lia)); [unfold G; rewrite Hy1; destruct (Nat.eqb_spec x y); [congruence|reflexivity]|]. intros z Hz Nz. unfold G. destruct (glued_b verts _ _ (z / 4) _) eqn:Eg; [|reflexivity]. destruct (Nat.eqb_spec x z) as [->|Nxz]; [reflexivity|].
        exfalso. apply glued_b_iff in Eg. destruct (Rng z Hz) as [R5 R6]. destruct (mo_two verts HM _ _ _ _ _ _ R1 R3 R5 R2 R4 R6 Gy Eg) as [E|[E|E]].
        * exact (Ne x y Hy2 (eq_sym E)). * exact (Ne x z Nxz (eq_sym E)). * exact (Ne z y Nz E).
      + exfalso. assert (Z : o (x / 4)%nat (x mod 4)%nat = true); [|congruence]. apply (Ho _ _ R1 R2). intros [q [j [Hq [Hj [Nq Gq]]]]]. rewrite <- not_true_iff_false in Ex. apply Ex. apply existsb_exists. exists (q * 4 + j)%nat.
        destruct (Dm q j Hj) as [D1 D2]. split; [apply in_seq; unfold N in *; lia|]. rewrite D1, D2. rewrite (proj2 (glued_b_iff _ _ _ _ _) Gq). cbn [andb]. apply negb_true_iff, Nat.eqb_neq. intros E. apply Nq. rewrite E, D1, D2. reflexivity. }
  assert (Sym : forall x y, G x y = G y x).
  { intros x y. unfold G. rewrite (Nat.eqb_sym y x). replace (glued_b verts (y / 4) (y mod 4) (x / 4) (x mod 4)) with (glued_b verts (x / 4) (x mod 4) (y / 4) (y mod 4)); [reflexivity|].
    apply eq_true_iff_eq. rewrite !glued_b_iff. split; apply glued_swap. }
  set (T := rsum (fun x => rsum (fun y => G x y * F x) (N * 4)) (N * 4)).
  assert (T0 : T = - T).
  { unfold T at 1. rewrite rsum_swap. unfold T. replace (- rsum (fun x => rsum (fun y => G x y * F x) (N * 4)) (N * 4)) with (-1 * rsum (fun x => rsum (fun y => G x y * F x) (N * 4)) (N * 4)) by ring. rewrite <- rsum_scal.
    apply rsum_ext. intros x Hx. rewrite <- rsum_scal. apply rsum_ext. intros y Hy. rewrite (Sym y x). unfold G. destruct (glued_b _ _ _ _ _) eqn:Eg; [|cbn [andb]; ring]. destruct (Nat.eqb_spec x y) as [->|Nxy]; [cbn [andb negb]; ring|]. cbn [andb negb].
    apply glued_b_iff in Eg. destruct (Rng x Hx) as [X1 X2], (Rng y Hy) as [Y1 Y2]. unfold F. rewrite (Hp _ _ _ _ X1 X2 Y1 Y2 (Ne x y Nxy) Eg). ring. }
  assert (T1 : T = rsum (fun x => (if o (x / 4)%nat (x mod 4)%nat then 0 else 1) * F x) (N * 4)) by (unfold T; apply rsum_ext; intros x Hx; rewrite rsum_scal_r, Row by exact Hx; reflexivity).
  rewrite (rsum_ext F (fun x => (if o (x / 4)%nat (x mod 4)%nat then Phi (x / 4)%nat (x mod 4)%nat else 0) + (if o (x / 4)%nat (x mod 4)%nat then 0 else 1) * F x)).
  - rewrite rsum_plus, <- T1. lra.
  - intros x _. unfold F. destruct (o _ _); ring.
Qed.

(** ** vocabulary *)
(** side i of the element e lies on side i of its patch *)
Definition touches (e : node) (i : nat) : Prop := forall tau, 0 <= tau <= 1 -> exists v, 0 <= v <= 1 /\ patch_point e (along i tau) = along i v.
(** ... and no other side of a patch is glued to it: side i of e is part of the boundary of the surface *)
Definition boundary_side (verts : list (list nat)) (e : node) (i : nat) : Prop := touches e i /\ no_partner verts (n_patch e) i.
(** every side of every patch is glued to another one *)
Definition closed_surface (verts : list (list nat)) : Prop := forall p i, (p < length verts)%nat -> (i < 4)%nat -> ~ no_partner verts p i.

Section Mesh.
Context {Pt : Type} (close : Pt -> Pt -> bool) (corners : list (list Pt)) (M : nat) (t : tree) (els : list node).
Hypothesis Hm : uniform_mesh close corners M t els.
Variables (ws : list R) (junk : mat) (j1 j2 : arr) (solve : nat -> mat -> arr -> arr).
Hypothesis Hw : (20 <= length ws)%nat.
Hypothesis Hs : good_solve solve.
Notation verts := (fst (patch_vertices close [] corners)).
Hypothesis HM : mesh_ok verts.
Hypothesis HO : oriented verts.
Notation n := (2 ^ M)%nat.
Notation P := (length corners).

Lemma touches_cell : forall e X Y i, at_cell n e X Y -> (i < 4)%nat ->
  (touches e i <-> (match i with 0 => Y =? 0 | 1 => S X =? n | 2 => S Y =? n | _ => X =? 0 end)%nat = true).
Proof.
  intros e X Y i C Hi. pose proof (n_pos M) as Hn. assert (Pn : 0 < INR n) by (apply lt_0_INR; exact Hn). assert (A := C). destruct A as [HX [HY _]].
  assert (LX : INR X + 1 <= INR n) by (rewrite <- S_INR; apply le_INR; lia). assert (LY : INR Y + 1 <= INR n) by (rewrite <- S_INR; apply le_INR; lia).
  pose proof (pos_INR X) as PX. pose proof (pos_INR Y) as PY.
  assert (Dn : forall a, (INR a + 1) / INR n = 1 -> S a = n). { intros a Ea. apply INR_eq. rewrite S_INR. apply (Rmult_eq_reg_r (/ INR n)); [rewrite Rinv_r by lra; exact Ea|apply Rinv_neq_0_compat; lra]. }
  assert (D0 : forall a, (INR a + 0) / INR n = 0 -> a = 0%nat). { intros a Ea. apply INR_eq. cbn [INR]. apply (Rmult_eq_reg_r (/ INR n)); [rewrite Rmult_0_l, <- Ea; unfold Rdiv; ring|apply Rinv_neq_0_compat; lra]. }
  assert (Rg : forall a tau, 0 <= a -> a + 1 <= INR n -> 0 <= tau <= 1 -> 0 <= (a + tau) / INR n <= 1).
  { intros a tau H1 H2 H3. split; [apply Rmult_le_pos; [lra|left; apply Rinv_0_lt_compat; exact Pn]|apply (Rmult_le_reg_r (INR n)); [exact Pn|]; unfold Rdiv; rewrite Rmult_assoc, Rinv_l by lra; lra]. }
  split.
  - intros T. destruct (T 0 ltac:(lra)) as [v [Hv E]]. rewrite (cell_patch_point M e X Y _ C) in E. pose proof (f_equal fst E) as E1. pose proof (f_equal snd E) as E2. clear E T.
    destruct i as [|[|[|[|i]]]]; [..|lia]; cbn [along fst snd] in E1, E2; apply Nat.eqb_eq; [apply D0|apply Dn|apply Dn|apply D0]; assumption.
  - intros E tau Ht. rewrite (cell_patch_point M e X Y _ C). destruct i as [|[|[|[|i]]]]; [..|lia]; apply Nat.eqb_eq in E; cbn [along fst snd].
    + exists ((INR X + tau) / INR n). split; [apply Rg; assumption|]. subst Y. cbn [INR]. f_equal. field. lra.
    + exists ((INR Y + tau) / INR n). split; [apply Rg; assumption|]. rewrite <- E, S_INR in *. f_equal. field. lra.
    + exists (1 - (INR X + (1 - tau)) / INR n). split; [pose proof (Rg (INR X) (1 - tau) PX LX ltac:(lra)); lra|]. f_equal; [ring|]. rewrite <- E, S_INR in *. field. lra.
    + exists (1 - (INR Y + (1 - tau)) / INR n). split; [pose proof (Rg (INR Y) (1 - tau) PY LY ltac:(lra)); lra|]. subst X. cbn [INR]. f_equal; [field; lra|ring].
Qed.

Lemma side_point : forall e i s tau, (i < 4)%nat -> (s < n)%nat -> at_cell n e (side_x n i s) (side_y n i s) -> patch_point e (along i tau) = along i ((INR s + tau) / INR n).
Proof.
  intros e i s tau Hi Hs' C. pose proof (n_pos M) as Hn. assert (Pn : 0 < INR n) by (apply lt_0_INR; exact Hn). rewrite (cell_patch_point M e _ _ _ C).
  assert (L1 : INR (n - 1) = INR n - 1) by (rewrite minus_INR by lia; reflexivity). assert (L2 : INR (n - 1 - s) = INR n - 1 - INR s) by (rewrite minus_INR by lia; rewrite L1; reflexivity).
  destruct i as [|[|[|[|i]]]]; [..|lia]; cbn [side_x side_y along fst snd]; rewrite ?L1, ?L2; cbn [INR]; f_equal; field; lra.
Qed.
Lemma side_cell : forall i s, (s < n)%nat -> (side_x n i s < n /\ side_y n i s < n)%nat.
Proof. intros i s H. destruct i as [|[|[|i]]]; cbn [side_x side_y]; lia. Qed.

Lemma flux_reverse : forall u i f, side_flux u i f -> is_RInt (fun tau => IZR (out_flux i) * u (if normal_comp i then 1%nat else 0%nat) (along i (1 - tau))) 0 1 f.
Proof. intros u i f H. exact (reverse01 _ _ H). Qed.
Lemma int_opp : forall (f g : R -> R) (a b : R), (forall s, 0 < s < 1 -> f s = - g s) -> is_RInt f 0 1 a -> is_RInt g 0 1 b -> a = - b.
Proof.
  intros f g a b H A B. pose proof (is_RInt_opp _ _ _ _ B) as B'. change (is_RInt (fun x : R => opp (g x)) 0 1 (- b)) in B'. eapply int_unique; [|exact A|exact B']. intros s Hs'. exact (H s Hs').
Qed.

Section Field.
Variables (p rep : nat) (A : ansatz) (w : arr).
Hypothesis Hr : (1 <= rep <= p)%nat.
Hypothesis Hp : (p <= 19)%nat.
Hypothesis ES : ansatz_div ws junk j1 j2 solve p M P rep t els = Some A.
(** the components of the discrete vector field on the element e *)
Notation u := (fun e c s => discrete_value p (P * 4 ^ M) (as_cols A) (as_T A) w c (n_id e) (n_h e) s).
Variable flux : node -> nat -> R.
Hypothesis Hf : forall e i, In e els -> (i < 4)%nat -> side_flux (u e) i (flux e i).

Lemma flux_inside : forall e e' X Y X' Y' i j, In e els -> In e' els -> n_patch e = n_patch e' -> at_cell n e X Y -> at_cell n e' X' Y' ->
  (i = 1 /\ j = 3 /\ X' = S X /\ Y' = Y \/ i = 2 /\ j = 0 /\ Y' = S Y /\ X' = X)%nat -> flux e' j = - flux e i.
Proof.
  intros e e' X Y X' Y' i j I I' Ep C C' D. pose proof (mesh_numbered close corners M t els Hm) as Nb. destruct (ProofForms.numbered_in _ _ e Nb I) as [_ Ek]. destruct (ProofForms.numbered_in _ _ e' Nb I') as [_ Ek'].
  pose proof (flux_reverse _ _ _ (Hf e' j I' ltac:(lia))) as F'. pose proof (Hf e i I ltac:(lia)) as F. unfold side_flux in F. cbv beta in F, F'.
  refine (int_opp _ _ _ _ _ F' F). intros s Hs'. cbv beta.
  assert (U : unit_square (along i s)) by (destruct D as [[-> _]|[-> _]]; unfold unit_square; cbn [along fst snd]; lra).
  assert (U' : unit_square (along j (1 - s))) by (destruct D as [[_ [-> _]]|[_ [-> _]]]; unfold unit_square; cbn [along fst snd]; lra).
  assert (EP : patch_point e (along i s) = patch_point e' (along j (1 - s))).
  { rewrite (cell_patch_point M e _ _ _ C), (cell_patch_point M e' _ _ _ C'). destruct D as [[-> [-> [-> ->]]]|[-> [-> [-> ->]]]]; cbn [along fst snd]; rewrite S_INR; f_equal; f_equal; ring. }
  destruct (C65_inside close corners M t els Hm ws junk j1 j2 solve Hw Hs p rep A w _ _ e e' _ _ Hr Hp ES Ek Ek' U U' Ep EP) as [V0 V1]. unfold n_h.
  destruct D as [[-> [-> _]]|[-> [-> _]]]; cbn [along fst snd out_flux normal_comp] in *; [rewrite V0 by lra|rewrite V1 by lra]; ring.
Qed.
Lemma flux_interface : forall e e' i j s, In e els -> In e' els -> (i < 4)%nat -> (j < 4)%nat -> (s < n)%nat -> opposed verts (n_patch e) i (n_patch e') j ->
  at_cell n e (side_x n i s) (side_y n i s) -> at_cell n e' (side_x n j (n - 1 - s)) (side_y n j (n - 1 - s)) -> flux e' j = - flux e i.
Proof.
  intros e e' i j s I I' Hi Hj Hs' Op C C'. pose proof (n_pos M) as Hn. assert (Pn : 0 < INR n) by (apply lt_0_INR; exact Hn).
  pose proof (mesh_numbered close corners M t els Hm) as Nb. destruct (ProofForms.numbered_in _ _ e Nb I) as [_ Ek]. destruct (ProofForms.numbered_in _ _ e' Nb I') as [_ Ek'].
  pose proof (flux_reverse _ _ _ (Hf e' j I' Hj)) as F'. pose proof (Hf e i I Hi) as F. unfold side_flux in F. cbv beta in F, F'.
  refine (int_opp _ _ _ _ _ F' F). intros r Hr'. cbv beta.
  assert (U : forall k v, 0 < v < 1 -> unit_square (along k v)) by (intros [|[|[|k]]] v Hv; unfold unit_square; cbn [along fst snd]; lra).
  assert (NC : ~ corner (along i r)) by (intros [K1 K2]; destruct i as [|[|[|i]]]; cbn [along fst snd] in K1, K2; lra).
  assert (LS : INR s + 1 <= INR n) by (rewrite <- S_INR; apply le_INR; lia). pose proof (pos_INR s) as PS.
  assert (OI : on_interface verts (n_patch e) (n_patch e') i j (patch_point e (along i r)) (patch_point e' (along j (1 - r)))).
  { split; [exact Hi|]. split; [exact Hj|]. split; [exact Op|]. exists ((INR s + r) / INR n). split; [split|].
    - apply Rmult_le_pos; [lra|left; apply Rinv_0_lt_compat; exact Pn].
    - apply (Rmult_le_reg_r (INR n)); [exact Pn|]; unfold Rdiv; rewrite Rmult_assoc, Rinv_l by lra; lra.
    - split; [apply side_point; assumption|]. rewrite (side_point e' j (n - 1 - s) (1 - r) Hj ltac:(lia) C'). f_equal. rewrite !minus_INR by lia. change (INR 1) with 1. field. lra. }
  pose proof (C65_interface close corners M t els Hm ws junk j1 j2 solve Hw Hs HM HO p rep A w _ _ e e' _ _ i j Hr Hp ES Ek Ek' (U i r ltac:(lra)) (U j (1 - r) ltac:(lra)) NC OI) as V. cbv beta zeta in V. unfold n_h. lra.
Qed.
(** the sum of the fluxes out of all elements is the flux out of the surface *)
Lemma flux_sum : forall b : node -> nat -> bool, (forall e i, In e els -> (i < 4)%nat -> (b e i = true <-> boundary_side verts e i)) ->
  rsum (fun k => match nth_error els k with Some e => n_h e * rsum (flux e) 4 | None => 0 end) (length els)
  = rsum (fun k => match nth_error els k with Some e => n_h e * rsum (fun i => if b e i then flux e i else 0) 4 | None => 0 end) (length els).
Proof.
  intros b Hb. destruct (cell_elements close corners M t els Hm) as [cell [Hc [_ Sum]]]. pose proof (n_pos M) as Hn. pose proof (verts_length close corners) as VL.
  rewrite (Sum (fun e => n_h e * rsum (flux e) 4)), (Sum (fun e => n_h e * rsum (fun i => if b e i then flux e i else 0) 4)).
  assert (Hh : forall q X Y, (q < P)%nat -> (X < n)%nat -> (Y < n)%nat -> n_h (cell q X Y) = / INR n) by (intros q X Y Hq HX HY; destruct (Hc q X Y Hq HX HY) as [_ [_ [_ [_ [_ [_ Eh]]]]]]; exact Eh).
  assert (Fac : forall g : node -> R, rsum (fun q => rsum (fun X => rsum (fun Y => n_h (cell q X Y) * g (cell q X Y)) n) n) P = / INR n * rsum (fun q => rsum (fun X => rsum (fun Y => g (cell q X Y)) n) n) P).
  { intros g. rewrite <- rsum_scal. apply rsum_ext. intros q Hq. rewrite <- rsum_scal. apply rsum_ext. intros X HX. rewrite <- rsum_scal. apply rsum_ext. intros Y HY. rewrite Hh by assumption. reflexivity. }
  rewrite (Fac (fun e => rsum (flux e) 4)), (Fac (fun e => rsum (fun i => if b e i then flux e i else 0) 4)). apply f_equal.
  (* the sides of the patches *)
  set (Phi := fun q i => rsum (fun s => flux (cell q (side_x n i s) (side_y n i s)) i) n).
  assert (Ho : exists o : nat -> nat -> bool, forall q i, (q < length verts)%nat -> (i < 4)%nat -> (o q i = true <-> no_partner verts q i)).
  { exists (fun q i => negb (existsb (fun z => glued_b verts q i (fst z) (snd z) && negb ((fst z =? q)%nat && (snd z =? i)%nat)) (list_prod (seq 0 (length verts)) (seq 0 4)))).
    intros q i Hq Hi. rewrite negb_true_iff, <- not_true_iff_false, existsb_exists. unfold no_partner. split; intros H K; apply H; clear H.
    - destruct K as [r [j [H1 [H2 [H3 H4]]]]]. exists (r, j). split; [apply in_prod; apply in_seq; lia|]. cbn [fst snd]. rewrite (proj2 (glued_b_iff _ _ _ _ _) H4). cbn [andb]. apply negb_true_iff, andb_false_iff.
      destruct (Nat.eqb_spec r q) as [->|]; [right|left; reflexivity]. apply Nat.eqb_neq. intros ->. apply H3. reflexivity.
    - destruct K as [[r j] [H1 H2]]. apply in_prod_iff in H1. rewrite !in_seq in H1. cbn [fst snd] in H2. apply andb_prop in H2. destruct H2 as [H2 H3]. exists r, j. split; [lia|]. split; [lia|]. split; [|apply glued_b_iff; exact H2].
      intros E. apply negb_true_iff in H3. pose proof (f_equal fst E) as E1. pose proof (f_equal snd E) as E2. cbn [fst snd] in E1, E2. subst. rewrite !Nat.eqb_refl in H3. discriminate. }
  destruct Ho as [o Ho].
  transitivity (rsum (fun q => rsum (Phi q) 4) P); [|transitivity (rsum (fun q => rsum (fun i => if o q i then Phi q i else 0) 4) P)].
  - apply rsum_ext. intros q Hq. apply (patch_gauss (fun X Y => flux (cell q X Y)) n Hn).
    + intros X Y HX HY. destruct (Hc q X Y Hq ltac:(lia) HY) as [I [Ep C]]. destruct (Hc q (S X) Y Hq HX HY) as [I' [Ep' C']]. apply (flux_inside _ _ X Y (S X) Y 1 3); auto; congruence.
    + intros X Y HX HY. destruct (Hc q X Y Hq HX ltac:(lia)) as [I [Ep C]]. destruct (Hc q X (S Y) Hq HX HY) as [I' [Ep' C']]. apply (flux_inside _ _ X Y X (S Y) 2 0); auto; congruence.
  - rewrite <- VL. apply (pair_sides verts Phi o HM Ho). rewrite VL. intros q i q' j Hq Hi Hq' Hj Ne G. pose proof (HO q i q' j ltac:(lia) ltac:(lia) Hi Hj (fun E => Ne (eq_sym E)) G) as Op.
    unfold Phi. rewrite rsum_rev. replace (- rsum (fun s => flux (cell q (side_x n i s) (side_y n i s)) i) n) with (-1 * rsum (fun s => flux (cell q (side_x n i s) (side_y n i s)) i) n) by ring. rewrite <- rsum_scal. apply rsum_ext. intros s Hs'.
    destruct (side_cell i s Hs') as [A1 A2]. destruct (side_cell j (n - 1 - s)%nat ltac:(lia)) as [B1 B2]. destruct (Hc q _ _ Hq A1 A2) as [I [Ep C]]. destruct (Hc q' _ _ Hq' B1 B2) as [I' [Ep' C']].
    rewrite (flux_interface _ _ i j s I I' Hi Hj Hs'); [ring| |exact C|exact C']. rewrite Ep, Ep'. exact Op.
  - apply rsum_ext. intros q Hq. symmetry. apply (patch_boundary (fun X Y => flux (cell q X Y)) (fun X Y => b (cell q X Y)) (o q) n Hn). intros X Y i HX HY Hi. destruct (Hc q X Y Hq HX HY) as [I [Ep C]].
    apply eq_true_iff_eq. rewrite andb_true_iff, (Hb _ i I Hi). unfold boundary_side. rewrite Ep, (touches_cell _ _ _ i C Hi), (Ho q i ltac:(lia) Hi). reflexivity.
Qed.
End Field.

(** the fluxes exist *)
Theorem C82_flux_exists : forall p N nd T w k h i, (i < 4)%nat -> exists f, side_flux (fun c => discrete_value p N nd T w c k h) i f.
Proof.
  intros p N nd T w k h i Hi. unfold side_flux.
  assert (G : forall (c : nat) (d : nat) (cf : nat -> R), (forall tau, discrete_value p N nd T w c k h (along i tau) = rsum (fun a => cf a * tau ^ a) d) \/ (forall tau, discrete_value p N nd T w c k h (along i tau) = rsum (fun a => cf a * (1 - tau) ^ a) d) ->
    exists f, is_RInt (fun tau => IZR (out_flux i) * discrete_value p N nd T w c k h (along i tau)) 0 1 f).
  { intros c d cf [E|E]; eexists; eapply is_RInt_ext; [|apply (is_RInt_scal _ 0 1 (IZR (out_flux i)) _ (int_poly d cf))| |apply (is_RInt_scal _ 0 1 (IZR (out_flux i)) _ (reverse01 _ _ (int_poly d cf)))]; intros s _; rewrite E; reflexivity. }
  destruct (itp_discrete p N nd T w 0 k h) as [c0 E0]. destruct (itp_discrete p N nd T w 1 k h) as [c1 E1].
  destruct i as [|[|[|[|i]]]]; [..|lia]; cbn [normal_comp along] in *.
  - apply (G 1%nat (p + 1)%nat (fun a => c1 a 0%nat)). left. intros tau. rewrite E1, on_bottom by lia. reflexivity.
  - apply (G 0%nat (p + 1)%nat (fun b => rsum (fun a => c0 a b) (p + 1))). left. intros tau. rewrite E0, on_right. reflexivity.
  - apply (G 1%nat (p + 1)%nat (fun a => rsum (fun b => c1 a b) (p + 1))). right. intros tau. rewrite E1, on_top. reflexivity.
  - apply (G 0%nat (p + 1)%nat (fun b => c0 0%nat b)). right. intros tau. rewrite E0, on_left by lia. reflexivity.
Qed.
(** the quadrature of the divergence over the surface is the flux through its boundary *)
Theorem C82_gauss : forall p rep A w X ss E d x wt (dv : node -> R * R -> R) (flux : node -> nat -> R) (b : node -> nat -> bool), (1 <= rep <= p)%nat -> (p <= 19)%nat ->
  ansatz_div ws junk j1 j2 solve p M P rep t els = Some A ->
  ss_p ss = p -> evaluator_of t X ss 2 (as_cols A) (as_T A) w E ->
  exact_rule d x wt -> (p < d)%nat ->
  (forall e s, In e els -> evaluate_div ss E e (surf_point X e s 1) = Some (dv e s)) ->
  (forall e i, In e els -> (i < 4)%nat -> side_flux (fun c => discrete_value p (P * 4 ^ M) (as_cols A) (as_T A) w c (n_id e) (n_h e)) i (flux e i)) ->
  (forall e i, In e els -> (i < 4)%nat -> (b e i = true <-> boundary_side verts e i)) ->
  surface_sum els (tensor_rule (x, wt)) dv
  = rsum (fun k => match nth_error els k with Some e => n_h e * rsum (fun i => if b e i then flux e i else 0) 4 | None => 0 end) (length els).
Proof.
  intros p rep A w X ss E d x wt dv flux b Hr Hp ES Ep HE Ex Hd Hdv Hf Hb. subst p.
  pose proof (mesh_numbered close corners M t els Hm) as Nb.
  assert (Nt : t_elements t = (P * 4 ^ M)%nat) by (destruct (mesh_grid close corners M t els Hm) as [_ [Le _]]; destruct Nb as [Ln _]; lia).
  rewrite <- (flux_sum (ss_p ss) rep A w Hr Hp ES flux Hf b Hb). unfold surface_sum. apply rsum_ext. intros k Hk.
  destruct (nth_error els k) as [e|] eqn:Ee; [|reflexivity]. assert (I : In e els) by (eapply nth_error_In; exact Ee). unfold n_h.
  apply (element_gauss d x wt (Q2R (get_h e)) (fun c => discrete_value (ss_p ss) (P * 4 ^ M) (as_cols A) (as_T A) w c (n_id e) (n_h e)) (dv e) (flux e)); try exact Ex.
  - lia.
  - pose proof (n_h_pos e) as H. unfold n_h in H. lra.
  - apply (itp_mono (ss_p ss + 1)); [lia|]. apply itp_discrete.
  - apply (itp_mono (ss_p ss + 1)); [lia|]. apply itp_discrete.
  - intros s. destruct (C61_divergence close corners M t els Hm X ss _ _ w E e (surf_point X e s 1) HE I) as [ax [ay [bx [byy [Ev [D0 D1]]]]]]. rewrite Hdv in Ev by exact I. apply some_inj in Ev. rewrite Nt in D0, D1.
    exists ax, ay, bx, byy. split; [exact (eq_sym Ev)|]. split; [exact D0|exact D1].
  - intros i Hi. exact (Hf e i I Hi).
Qed.
(** on a closed surface it vanishes *)
Theorem C82_closed : forall p rep A w X ss E d x wt (dv : node -> R * R -> R), (1 <= rep <= p)%nat -> (p <= 19)%nat ->
  ansatz_div ws junk j1 j2 solve p M P rep t els = Some A ->
  ss_p ss = p -> evaluator_of t X ss 2 (as_cols A) (as_T A) w E ->
  exact_rule d x wt -> (p < d)%nat ->
  (forall e s, In e els -> evaluate_div ss E e (surf_point X e s 1) = Some (dv e s)) ->
  closed_surface verts -> surface_sum els (tensor_rule (x, wt)) dv = 0.
Proof.
  intros p rep A w X ss E d x wt dv Hr Hp ES Ep HE Ex Hd Hdv Hcl.
  assert (Fl : exists flux : node -> nat -> R, forall e i, In e els -> (i < 4)%nat -> side_flux (fun c => discrete_value p (P * 4 ^ M) (as_cols A) (as_T A) w c (n_id e) (n_h e)) i (flux e i)).
  { exists (fun e i => RInt (fun tau => IZR (out_flux i) * discrete_value p (P * 4 ^ M) (as_cols A) (as_T A) w (if normal_comp i then 1%nat else 0%nat) (n_id e) (n_h e) (along i tau)) 0 1).
    intros e i _ Hi. destruct (C82_flux_exists p (P * 4 ^ M) (as_cols A) (as_T A) w (n_id e) (n_h e) i Hi) as [f Ef]. unfold side_flux in *. cbv beta in *. rewrite (is_RInt_unique _ _ _ _ Ef). exact Ef. }
  destruct Fl as [flux Hf].
  rewrite (C82_gauss p rep A w X ss E d x wt dv flux (fun _ _ => false) Hr Hp ES Ep HE Ex Hd Hdv Hf).
  - apply rsum_zero. intros k _. destruct (nth_error els k) as [e|]; [|reflexivity]. rewrite rsum_zero; [ring|reflexivity].
  - intros e i I Hi. split; [discriminate|]. intros [_ NP]. exfalso. destruct (mesh_cells close corners M t els Hm e I) as [_ Pe]. apply (Hcl (n_patch e) i); [rewrite (verts_length close corners); exact Pe|exact Hi|exact NP].
Qed.
(** ... and so does the integral of the divergence over the parameter domain, whatever function F on the patches the evaluator represents *)
Theorem C82_integral : forall p rep A w X ss E (dv : node -> R * R -> R) F, (1 <= rep <= p)%nat -> (p <= 19)%nat ->
  ansatz_div ws junk j1 j2 solve p M P rep t els = Some A ->
  ss_p ss = p -> evaluator_of t X ss 2 (as_cols A) (as_T A) w E ->
  (forall e s, In e els -> evaluate_div ss E e (surf_point X e s 1) = Some (dv e s)) ->
  closed_surface verts -> given_on_elements els dv F -> patches_integral P F 0.
Proof.
  intros p rep A w X ss E dv F Hr Hp ES Ep HE Hdv Hcl HF.
  destruct (rule_exists (p + 1)) as [x [wt Ex]]. subst p.
  rewrite <- (C82_closed (ss_p ss) rep A w X ss E (ss_p ss + 1) x wt dv Hr Hp ES eq_refl HE Ex ltac:(lia) Hdv Hcl).
  apply (surface_sum_exact close corners M t els x wt (ss_p ss + 1) dv F Hm Ex); [|exact HF]. intros e I.
  apply (divergence_poly _ (n_h e) (fun c => discrete_value (ss_p ss) (t_elements t) (as_cols A) (as_T A) w c (n_id e) (n_h e))); try apply itp_discrete.
  - pose proof (n_h_pos e). lra.
  - intros s. destruct (C61_divergence close corners M t els Hm X ss _ _ w E e (surf_point X e s 1) HE I) as [ax [ay [bx [byy [Ev [D0 D1]]]]]]. rewrite Hdv in Ev by exact I. apply some_inj in Ev.
    exists ax, ay, bx, byy. split; [exact (eq_sym Ev)|]. split; [exact D0|exact D1].
Qed.
End Mesh.

(** ** examples: the surface of a cube is closed; two squares next to each other have six sides on the boundary *)
Definition no_partner_b (verts : list (list nat)) (p i : nat) : bool :=
  negb (existsb (fun z => glued_b verts p i (fst z) (snd z) && negb ((fst z =? p)%nat && (snd z =? i)%nat)) (list_prod (seq 0 (length verts)) (seq 0 4))).
Lemma no_partner_b_iff : forall verts p i, no_partner_b verts p i = true <-> no_partner verts p i.
Proof.
  intros verts q i. unfold no_partner_b. rewrite negb_true_iff, <- not_true_iff_false, existsb_exists. unfold no_partner. split; intros H K; apply H; clear H.
  - destruct K as [r [j [H1 [H2 [H3 H4]]]]]. exists (r, j). split; [apply in_prod; apply in_seq; lia|]. cbn [fst snd]. rewrite (proj2 (glued_b_iff _ _ _ _ _) H4). cbn [andb]. apply negb_true_iff, andb_false_iff.
    destruct (Nat.eqb_spec r q) as [->|]; [right|left; reflexivity]. apply Nat.eqb_neq. intros ->. apply H3. reflexivity.
  - destruct K as [[r j] [H1 H2]]. apply in_prod_iff in H1. rewrite !in_seq in H1. cbn [fst snd] in H2. apply andb_prop in H2. destruct H2 as [H2 H3]. exists r, j. split; [lia|]. split; [lia|]. split; [|apply glued_b_iff; exact H2].
    intros E. apply negb_true_iff in H3. pose proof (f_equal fst E) as E1. pose proof (f_equal snd E) as E2. cbn [fst snd] in E1, E2. subst. rewrite !Nat.eqb_refl in H3. discriminate.
Qed.
Example C82_cube_closed : closed_surface (fst (patch_vertices Nat.eqb [] cube)).
Proof.
  rewrite cube_verts. intros p i Hp Hi NP. apply no_partner_b_iff in NP. change (length cube) with 6%nat in Hp.
  do 6 (destruct p as [|p]; [do 4 (destruct i as [|i]; [vm_compute in NP; discriminate|]); lia|]). lia.
Qed.
Example C82_example : exists t els solve A E dv, uniform_mesh Nat.eqb cube 1 t els /\ good_solve solve /\
  mesh_ok (fst (patch_vertices Nat.eqb [] cube)) /\ oriented (fst (patch_vertices Nat.eqb [] cube)) /\ closed_surface (fst (patch_vertices Nat.eqb [] cube)) /\
  ansatz_div (repeat 0 20) (fun _ _ => 0) (fun _ => 0) (fun _ => 0) solve 2 1 6 1 t els = Some A /\
  evaluator_of t (fun _ _ => ((0, 0, 0), (1, 0, 0), (0, 1, 0))) (mkSS 2 1 zero_arr zero_arr zero_arr zero_arr) 2 (as_cols A) (as_T A) (fun i => INR i) E /\
  (forall e s, In e els -> evaluate_div (mkSS 2 1 zero_arr zero_arr zero_arr zero_arr) E e (surf_point (fun _ _ => ((0, 0, 0), (1, 0, 0), (0, 1, 0))) e s 1) = Some (dv e s)) /\
  surface_sum els (tensor_rule (gauss3_x, gauss3_w)) dv = 0.
Proof.
  destruct (any_mesh cube 1 ltac:(discriminate) cube_four) as [t [els U]]. destruct C25_solver_exists as [solve Hs].
  assert (HM : mesh_ok (fst (patch_vertices Nat.eqb [] cube))) by (rewrite cube_verts; exact cube_mesh). assert (HO : oriented (fst (patch_vertices Nat.eqb [] cube))) by (rewrite cube_verts; exact cube_oriented).
  destruct (C65_defined Nat.eqb cube 1 t els U (repeat 0 20) (fun _ _ => 0) (fun _ => 0) (fun _ => 0) solve Hw1 Hs HM HO 2 1 ltac:(lia) ltac:(lia)) as [A [ES _]].
  set (X := fun (_ : nat) (_ : R * R) => (((0, 0, 0), (1, 0, 0), (0, 1, 0)) : vec3 * vec3 * vec3)). set (ss := mkSS 2 1 zero_arr zero_arr zero_arr zero_arr).
  destruct (C61_evaluator_exists Nat.eqb cube 1 t els U X ss 2 (as_cols A) (as_T A) (fun i => INR i)) as [E HE].
  set (dv := fun e s => match evaluate_div ss E e (surf_point X e s 1) with Some r => r | None => 0 end).
  assert (Hdv : forall e s, In e els -> evaluate_div ss E e (surf_point X e s 1) = Some (dv e s)).
  { intros e s I. unfold dv. destruct (C61_divergence Nat.eqb cube 1 t els U X ss _ _ _ E e (surf_point X e s 1) HE I) as [ax [ay [bx [byy [Ev _]]]]]. rewrite Ev. reflexivity. }
  exists t, els, solve, A, E, dv. split; [exact U|]. split; [exact Hs|]. split; [exact HM|]. split; [exact HO|]. split; [exact C82_cube_closed|]. split; [exact ES|]. split; [exact HE|]. split; [exact Hdv|].
  exact (C82_closed Nat.eqb cube 1 t els U (repeat 0 20) (fun _ _ => 0) (fun _ => 0) (fun _ => 0) solve Hw1 Hs HM HO 2 1 A (fun i => INR i) X ss E 6 gauss3_x gauss3_w dv ltac:(lia) ltac:(lia) ES eq_refl HE gauss3_exact ltac:(lia) Hdv C82_cube_closed).
Qed.
(** two squares: the common side is inside, the others are not *)
Example C82_boundary : ~ no_partner [[0; 1; 2; 3]; [1; 4; 5; 2]]%nat 0 1 /\ no_partner [[0; 1; 2; 3]; [1; 4; 5; 2]]%nat 0 0 /\ no_partner [[0; 1; 2; 3]; [1; 4; 5; 2]]%nat 1 2.
Proof. rewrite <- !no_partner_b_iff. split; [intros E; vm_compute in E; discriminate|split; reflexivity]. Qed.

(* BEGIN ASSUMPTIONS *)
Print Assumptions C82_flux_exists.
Print Assumptions C82_gauss.
Print Assumptions C82_closed.
Print Assumptions C82_integral.
