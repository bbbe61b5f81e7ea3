(** C75: surfaceL2error. *)
From Coq Require Import Reals Lra Lia Arith Bool List QArith Qreals.
From Coquelicot Require Import Coquelicot.
From Verif Require Import ModelBase RSum ModelBernstein SpecBernstein ProofBernstein ModelTree ModelBall ModelQuad ModelAssembly ModelDuffy ModelUtil
  ModelOperators ModelForms ModelL2 SpecTree SpecForms SpecConform SpecQuad SpecL2 ProofAssembly ProofForms ProofNearFar PropQuad PropAssembly PropTree PropOperators PropBlock PropNearFar PropForms PropUtil ProofPar SpecInterp ProofInterp ProofProjMesh ProofSurfInt.
Import ListNotations.
Local Close Scope Q_scope.
Local Open Scope R_scope.

(** ** the loops *)
Lemma l2_elem : forall value X Q g e u n r, (forall p, value e p = Some (u e p)) ->
  for_opt n (l2_point value X Q g e) r
  = Some (r + rsum (fun i => let p := surf_point X e (q_xi Q i) (q_w Q i) in n_h e * n_h e * (q_w Q i * (p_kappa p * (g (p_f p) - u e p) ^ 2))) n).
Proof.
  intros value X Q g e u n r Hv. induction n as [|n IH]; cbn [for_opt rsum]; [f_equal; ring|].
  rewrite IH. cbn [bind]. unfold l2_point. cbv zeta. rewrite Hv. cbn [bind]. f_equal. unfold p_kappa, p_n. cbv zeta. ring.
Qed.
Lemma l2_loop_sum : forall value X Q g u els r, (forall e p, In e els -> value e p = Some (u e p)) ->
  l2_loop value X Q g els r = Some (r + lsum (fun e => rsum (fun i => let p := surf_point X e (q_xi Q i) (q_w Q i) in
    n_h e * n_h e * (q_w Q i * (p_kappa p * (g (p_f p) - u e p) ^ 2))) (q_size Q)) els).
Proof.
  intros value X Q g u els. induction els as [|e els IH]; intros r Hv; cbn [l2_loop lsum]; [f_equal; ring|].
  rewrite (l2_elem value X Q g e u) by (intros p; apply Hv; left; reflexivity). cbn [bind].
  rewrite IH by (intros; apply Hv; right; assumption). f_equal. rewrite Rplus_assoc. reflexivity.
Qed.
Lemma lsum_surface : forall els Q (f : node -> R * R -> R), lsum (fun e => rsum (fun i => n_h e * n_h e * (q_w Q i * f e (q_xi Q i))) (q_size Q)) els = surface_sum els Q f.
Proof.
  intros els Q f. unfold surface_sum. induction els as [|e els IH]; [reflexivity|]. cbn [lsum length]. rewrite rsum_shift. cbn [nth_error].
  rewrite IH. rewrite rsum_scal. reflexivity.
Qed.

Lemma mesh_elements_code : forall t els, mesh_elements t els -> elements t = Some els.
Proof. intros t els [l [E1 E2]]. unfold elements. rewrite E1. cbn [bind]. exact E2. Qed.

(** ** positive sums *)
Lemma rsum_zero_terms : forall f n, (forall i, (i < n)%nat -> 0 <= f i) -> rsum f n = 0 -> forall i, (i < n)%nat -> f i = 0.
Proof.
  induction n as [|n IH]; intros Hf Hz i Hi; [lia|]. cbn [rsum] in Hz. assert (0 <= rsum f n) by (apply rsum_nonneg; intros; apply Hf; lia).
  pose proof (Hf n ltac:(lia)). destruct (Nat.eq_dec i n) as [->|]; [lra|]. apply IH; [intros; apply Hf; lia|lra|lia].
Qed.
Lemma surface_sum_linear : forall els Q f g a, surface_sum els Q (fun e s => f e s + a * g e s) = surface_sum els Q f + a * surface_sum els Q g.
Proof.
  intros. unfold surface_sum. rewrite <- rsum_scal, <- rsum_plus. apply rsum_ext. intros k Hk. destruct (nth_error els k) as [e|]; [|ring].
  rewrite (rsum_ext _ (fun q => q_w Q q * f e (q_xi Q q) + a * (q_w Q q * g e (q_xi Q q)))) by (intros; ring).
  rewrite rsum_plus, rsum_scal. ring.
Qed.
Lemma surface_sum_ext : forall els Q f g, (forall e q, In e els -> (q < q_size Q)%nat -> f e (q_xi Q q) = g e (q_xi Q q)) -> surface_sum els Q f = surface_sum els Q g.
Proof.
  intros els Q f g H. unfold surface_sum. apply rsum_ext. intros k Hk. destruct (nth_error els k) as [e|] eqn:Ek; [|reflexivity].
  f_equal. apply rsum_ext. intros q Hq. rewrite H; [reflexivity| |exact Hq]. eapply nth_error_In; eauto.
Qed.
Lemma surface_sum_pos : forall els Q f, (forall q, (q < q_size Q)%nat -> 0 <= q_w Q q) -> (forall e s, 0 <= f e s) -> 0 <= surface_sum els Q f.
Proof.
  intros els Q f Hw Hf. unfold surface_sum. apply rsum_nonneg. intros k Hk. destruct (nth_error els k) as [e|]; [|lra].
  apply Rmult_le_pos; [apply Rle_0_sqr|]. apply rsum_nonneg. intros q Hq. apply Rmult_le_pos; [apply Hw; exact Hq|apply Hf].
Qed.
Lemma surface_sum_zero : forall els Q f, (forall q, (q < q_size Q)%nat -> 0 < q_w Q q) -> (forall e s, 0 <= f e s) -> surface_sum els Q f = 0 ->
  forall e q, In e els -> (q < q_size Q)%nat -> f e (q_xi Q q) = 0.
Proof.
  intros els Q f Hw Hf Hz e q He Hq. apply In_nth_error in He. destruct He as [k Ek].
  assert (Hk : (k < length els)%nat) by (apply nth_error_Some; congruence).
  unfold surface_sum in Hz. pose proof (n_h_pos e) as Hh.
  assert (T : forall k, (k < length els)%nat -> 0 <= match nth_error els k with
    | Some e => Q2R (get_h e) * Q2R (get_h e) * rsum (fun q => q_w Q q * f e (q_xi Q q)) (q_size Q) | None => 0 end).
  { intros j Hj. destruct (nth_error els j) as [e'|]; [|lra]. apply Rmult_le_pos; [apply Rle_0_sqr|]. apply rsum_nonneg. intros i Hi.
    apply Rmult_le_pos; [apply Rlt_le, Hw; exact Hi|apply Hf]. }
  pose proof (rsum_zero_terms _ _ T Hz k Hk) as Z. cbv beta in Z. rewrite Ek in Z.
  assert (Z2 : rsum (fun q => q_w Q q * f e (q_xi Q q)) (q_size Q) = 0).
  { change (Q2R (get_h e)) with (n_h e) in Z. apply Rmult_integral in Z. destruct Z as [Z|Z]; [|exact Z]. apply Rmult_integral in Z. lra. }
  assert (T2 : forall i, (i < q_size Q)%nat -> 0 <= q_w Q i * f e (q_xi Q i)) by (intros i Hi; apply Rmult_le_pos; [apply Rlt_le, Hw; exact Hi|apply Hf]).
  pose proof (rsum_zero_terms _ _ T2 Z2 q Hq) as Z3. cbv beta in Z3. specialize (Hw q Hq). apply Rmult_integral in Z3. lra.
Qed.
Lemma quadratic_triangle : forall A B C, (forall y, 0 <= A + y * (2 * C) + y * y * B) -> sqrt (A + 2 * C + B) <= sqrt A + sqrt B.
Proof.
  intros A B C H. assert (HA : 0 <= A) by (pose proof (H 0); lra).
  assert (HB : 0 <= B).
  { apply Rnot_lt_le. intros Hb. destruct (Req_dec C 0) as [Ec|Ec].
    - pose proof (H (1 + (A - B) / - B)) as H1. subst C. set (k := (A - B) / - B) in *. assert (Hk : k * - B = A - B) by (unfold k; field; lra).
      assert (0 <= k) by (unfold k; apply Rmult_le_pos; [lra|apply Rlt_le, Rinv_0_lt_compat; lra]). nra.
    - pose proof (H 0). set (k := (A + 1 + C * C) / - B). assert (Hk : k * - B = A + 1 + C * C) by (unfold k; field; lra).
      assert (k0 : 0 <= k) by (unfold k; apply Rmult_le_pos; [nra|apply Rlt_le, Rinv_0_lt_compat; lra]).
      pose proof (H (1 + k)) as H1. pose proof (H (- (1 + k))) as H2.
      assert (0 <= A + (1 + k) * (1 + k) * B) by lra. nra. }
  assert (HC : C * C <= A * B).
  { destruct (Req_dec B 0) as [Eb|Eb].
    - subst B. destruct (Req_dec C 0) as [Ec|Ec]; [subst C; lra|]. pose proof (H (- (A + 1) / (2 * C))) as H1.
      replace (A + - (A + 1) / (2 * C) * (2 * C) + - (A + 1) / (2 * C) * (- (A + 1) / (2 * C)) * 0) with (-1) in H1 by (field; exact Ec). lra.
    - pose proof (H (- C / B)) as H1. assert (Bp : 0 < B) by lra. apply (Rmult_le_compat_l B) in H1; [|lra].
      replace (B * (A + - C / B * (2 * C) + - C / B * (- C / B) * B)) with (A * B - C * C) in H1 by (field; exact Eb). lra. }
  assert (HC' : C <= sqrt A * sqrt B).
  { rewrite <- sqrt_mult by assumption. destruct (Rle_dec C 0) as [Cn|Cp]; [eapply Rle_trans; [exact Cn|apply sqrt_pos]|].
    rewrite <- (sqrt_square C) by lra. apply sqrt_le_1; [nra|nra|exact HC]. }
  rewrite <- (sqrt_square (sqrt A + sqrt B)) by (apply Rplus_le_le_0_compat; apply sqrt_pos).
  apply sqrt_le_1.
  - pose proof (H 1). lra.
  - apply Rle_0_sqr.
  - pose proof (sqrt_sqrt A HA). pose proof (sqrt_sqrt B HB). nra.
Qed.

(** ** polynomials *)
Lemma itp_ext : forall d f g, (forall s, f s = g s) -> is_tensor_poly d f -> is_tensor_poly d g.
Proof. intros d f g H [c Hc]. exists c. intros s. rewrite <- H. apply Hc. Qed.
Lemma itp_plus : forall d f g, is_tensor_poly d f -> is_tensor_poly d g -> is_tensor_poly d (fun s => f s + g s).
Proof.
  intros d f g [c Hc] [b Hb]. exists (fun i j => c i j + b i j). intros s. rewrite Hc, Hb. unfold tensor_poly. rewrite <- rsum_plus. apply rsum_ext. intros i Hi.
  rewrite <- rsum_plus. apply rsum_ext. intros j Hj. ring.
Qed.
Lemma itp_scal : forall d a f, is_tensor_poly d f -> is_tensor_poly d (fun s => a * f s).
Proof.
  intros d a f [c Hc]. exists (fun i j => a * c i j). intros s. rewrite Hc. unfold tensor_poly. rewrite <- rsum_scal. apply rsum_ext. intros i Hi.
  rewrite <- rsum_scal. apply rsum_ext. intros j Hj. ring.
Qed.
Lemma itp_sum : forall d m (f : nat -> R * R -> R), (forall i, (i < m)%nat -> is_tensor_poly d (f i)) -> is_tensor_poly d (fun s => rsum (fun i => f i s) m).
Proof.
  intros d m f H. induction m as [|m IH]; cbn [rsum].
  - exists (fun _ _ => 0). intros s. unfold tensor_poly. symmetry. apply rsum_zero. intros. apply rsum_zero. intros. ring.
  - apply itp_plus; [apply IH; intros; apply H; lia|apply H; lia].
Qed.
Lemma itp_sep : forall d f g, polynomial d f -> polynomial d g -> is_tensor_poly d (fun s => f (fst s) * g (snd s)).
Proof.
  intros d f g [a Ha] [b Hb]. exists (fun i j => a i * b j). intros s. rewrite Ha, Hb. unfold tensor_poly. rewrite <- rsum_scal_r. apply rsum_ext. intros i Hi.
  rewrite <- rsum_scal. apply rsum_ext. intros j Hj. ring.
Qed.
Lemma poly_lin_pow : forall a b m, polynomial (S m) (fun x => (a * x + b) ^ m).
Proof.
  intros a b m. induction m as [|m IH]; [apply (poly_const 1 1); lia|]. apply (poly_ext _ (fun x => (a * x + b) * (a * x + b) ^ m)); [intros; reflexivity|].
  apply poly_lin_mul. exact IH.
Qed.
Lemma itp_monomial : forall d l1 l2 h a b, (a < d)%nat -> (b < d)%nat -> is_tensor_poly d (fun s => (l1 + h * fst s) ^ a * (l2 + h * snd s) ^ b).
Proof.
  intros d l1 l2 h a b Ha Hb. apply itp_sep with (f := fun x => (l1 + h * x) ^ a) (g := fun x => (l2 + h * x) ^ b).
  - apply (poly_mono (S a)); [lia|]. apply (poly_ext _ (fun x => (h * x + l1) ^ a)); [intros; f_equal; ring|]. apply poly_lin_pow.
  - apply (poly_mono (S b)); [lia|]. apply (poly_ext _ (fun x => (h * x + l2) ^ b)); [intros; f_equal; ring|]. apply poly_lin_pow.
Qed.
Lemma itp_mono : forall d d' f, (d <= d')%nat -> is_tensor_poly d f -> is_tensor_poly d' f.
Proof.
  intros d d' f Hd [c Hc]. apply (itp_ext _ (fun s => rsum (fun a => rsum (fun b => c a b * (fst s ^ a * snd s ^ b)) d) d)).
  - intros s. rewrite Hc. unfold tensor_poly. apply rsum_ext. intros. apply rsum_ext. intros. ring.
  - apply itp_sum. intros a Ha. apply itp_sum. intros b Hb. apply itp_scal. apply (itp_ext _ (fun s => (0 + 1 * fst s) ^ a * (0 + 1 * snd s) ^ b)).
    + intros s. f_equal; f_equal; ring.
    + apply itp_monomial; lia.
Qed.
Lemma itp_mult : forall d1 d2 d f g, (d1 + d2 <= S d)%nat -> is_tensor_poly d1 f -> is_tensor_poly d2 g -> is_tensor_poly d (fun s => f s * g s).
Proof.
  intros d1 d2 d f g Hd [c Hc] [b Hb].
  apply (itp_ext _ (fun s => rsum (fun a1 => rsum (fun b1 => rsum (fun a2 => rsum (fun b2 => c a1 b1 * b a2 b2 * (fst s ^ (a1 + a2) * snd s ^ (b1 + b2))) d2) d2) d1) d1)).
  - intros s. rewrite Hc, Hb. unfold tensor_poly. rewrite <- rsum_scal_r. apply rsum_ext. intros a1 _. rewrite <- rsum_scal_r. apply rsum_ext. intros b1 _.
    rewrite <- rsum_scal. apply rsum_ext. intros a2 _. rewrite <- rsum_scal. apply rsum_ext. intros b2 _. rewrite !pow_add. ring.
  - apply itp_sum. intros a1 H1. apply itp_sum. intros b1 H2. apply itp_sum. intros a2 H3. apply itp_sum. intros b2 H4. apply itp_scal.
    apply (itp_ext _ (fun s => (0 + 1 * fst s) ^ (a1 + a2) * (0 + 1 * snd s) ^ (b1 + b2))).
    + intros s. f_equal; f_equal; ring.
    + apply itp_monomial; lia.
Qed.
(** a polynomial on the patch is one on the element *)
Lemma itp_element : forall d f e, is_tensor_poly d f -> is_tensor_poly d (fun s => f (patch_point e s)).
Proof.
  intros d f e [c Hc].
  apply (itp_ext _ (fun s => rsum (fun a => rsum (fun b => c a b * ((Q2R (fst (n_llc e)) + Q2R (get_h e) * fst s) ^ a * (Q2R (snd (n_llc e)) + Q2R (get_h e) * snd s) ^ b)) d) d)).
  - intros s. rewrite Hc. unfold tensor_poly, patch_point. cbn [fst snd]. apply rsum_ext. intros. apply rsum_ext. intros. ring.
  - apply itp_sum. intros a Ha. apply itp_sum. intros b Hb. apply itp_scal. apply itp_monomial; assumption.
Qed.
Lemma poly_bern : forall p i, (i <= p)%nat -> polynomial (p + 1) (bern p i).
Proof.
  intros p i Hi. unfold bern. apply (poly_ext _ (fun x => Binomial.C p i * (x ^ i * (1 - x) ^ (p - i)))); [intros; ring|]. apply poly_scal.
  assert (G : forall m, polynomial (m + (p - i) + 1) (fun x => x ^ m * (1 - x) ^ (p - i))).
  { induction m as [|m IH].
    - apply (poly_ext _ (fun x => (-1 * x + 1) ^ (p - i))); [intros x; replace (-1 * x + 1) with (1 - x) by ring; simpl; ring|].
      replace (0 + (p - i) + 1)%nat with (S (p - i)) by lia. apply poly_lin_pow.
    - apply (poly_ext _ (fun x => x * (x ^ m * (1 - x) ^ (p - i)))); [intros; simpl; ring|].
      replace (S m + (p - i) + 1)%nat with (S (m + (p - i) + 1)) by lia. apply poly_id_mul. exact IH. }
  replace (p + 1)%nat with (i + (p - i) + 1)%nat by lia. apply G.
Qed.
Lemma itp_discrete : forall p N nd T v c k h, is_tensor_poly (p + 1) (discrete_value p N nd T v c k h).
Proof.
  intros p N nd T v c k h. unfold discrete_value.
  apply (itp_ext _ (fun s => / h * rsum (fun i => local_coefficient p N nd T v c k i * tensor_bernstein p i s) ((p + 1) * (p + 1)))); [intros s; unfold Rdiv; ring|].
  apply itp_scal. apply itp_sum. intros i Hi. apply itp_scal. unfold tensor_bernstein.
  assert (i mod (p + 1) < p + 1)%nat by (apply Nat.mod_upper_bound; lia). assert (i / (p + 1) < p + 1)%nat by (apply Nat.div_lt_upper_bound; lia).
  apply itp_sep; apply poly_bern; lia.
Qed.

Section Error.
Context {Pt : Type} (close : Pt -> Pt -> bool) (corners : list (list Pt)) (M : nat) (t : tree) (els : list node).
Hypothesis Hm : uniform_mesh close corners M t els.
Variables (qr : nat -> rule) (X : surface) (ss : sspace) (nd : nat) (T : mat) (deg : nat).
Hypothesis Hdeg : (deg <= 50)%nat.
Notation Q := (tensor_rule (qr (deg + 1)%nat)).
(** the discrete function with coefficients v on the element e *)
Notation dvalue v e s := (discrete_value (ss_p ss) (t_elements t) nd T v 0 (n_id e) (n_h e) s).

Lemma square_rule : gauss_square qr deg = Q.
Proof. unfold gauss_square. rewrite C38_lookup. destruct (Nat.leb_spec deg 50); [reflexivity|lia]. Qed.

(** the integrand: surface measure times squared difference *)
Definition l2_integrand (g : vec3 -> R) (v : arr) (e : node) (s : R * R) : R :=
  let p := surf_point X e s 1 in p_kappa p * (g (p_f p) - dvalue v e s) ^ 2.
Lemma error_sqrt : forall g v, surfaceL2error qr t X ss nd T v g deg = Some (sqrt (surface_sum els Q (l2_integrand g v))).
Proof.
  intros g v. unfold surfaceL2error.
  destruct (C61_evaluator_exists close corners M t els Hm X ss 1 nd T v) as [E HE]. unfold evaluator_of in HE. rewrite HE. cbn [bind].
  rewrite (mesh_elements_code t els) by apply Hm. cbn [bind]. rewrite square_rule.
  rewrite (l2_loop_sum _ X Q g (fun e p => dvalue v e (p_s p))) by (intros e p He; apply (C61_scalar close corners M t els Hm X ss nd T v E e p HE He)).
  cbn [bind]. f_equal. f_equal. rewrite Rplus_0_l. rewrite <- lsum_surface. apply lsum_ext. intros e He. apply rsum_ext. intros i Hi. reflexivity.
Qed.
Lemma integrand_pos : forall g v e s, 0 <= l2_integrand g v e s.
Proof. intros. unfold l2_integrand. cbv zeta. apply Rmult_le_pos; [unfold p_kappa, vnorm; apply sqrt_pos|]. rewrite <- Rsqr_pow2. apply Rle_0_sqr. Qed.

Hypothesis Hw : forall q, (q < q_size Q)%nat -> 0 < q_w Q q.
Lemma integrand_sum_pos : forall g v, 0 <= surface_sum els Q (l2_integrand g v).
Proof. intros. apply surface_sum_pos; [intros q Hq; apply Rlt_le, Hw; exact Hq|]. intros. apply integrand_pos. Qed.

(** it always returns a number, whose square is the quadrature formula applied to the squared difference times the surface measure *)
Theorem C75_value : forall g v, exists r, surfaceL2error qr t X ss nd T v g deg = Some r /\ 0 <= r /\
  r * r = surface_sum els Q (fun e s => let p := surf_point X e s 1 in p_kappa p * (g (p_f p) - dvalue v e s) ^ 2).
Proof.
  intros g v. eexists. split; [apply error_sqrt|]. split; [apply sqrt_pos|]. apply sqrt_sqrt. apply integrand_sum_pos.
Qed.
(** whenever the integrand is a polynomial on the elements (of degree less than d in each coordinate) and the rule is exact for these,
    the square is the integral over the surface of the squared difference; u is the discrete function on the patches *)
Theorem C75_exact : forall g v u d r, exact_rule d (fst (qr (deg + 1)%nat)) (snd (qr (deg + 1)%nat)) ->
  given_on_elements els (fun e s => dvalue v e s) u ->
  (forall e, In e els -> is_tensor_poly d (l2_integrand g v e)) ->
  surfaceL2error qr t X ss nd T v g deg = Some r ->
  patches_integral (length corners) (fun p z => let '(x, x_s, x_t) := X p z in vnorm (vcross x_s x_t) * (g x - u p z) ^ 2) (r * r).
Proof.
  intros g v u d r Ex Hu Hp E. rewrite error_sqrt in E. apply some_inj in E. subst r. rewrite sqrt_sqrt by apply integrand_sum_pos.
  replace Q with (tensor_rule (fst (qr (deg + 1)%nat), snd (qr (deg + 1)%nat))) by (rewrite <- surjective_pairing; reflexivity).
  apply (surface_sum_exact close corners M t els _ _ d (l2_integrand g v) _ Hm Ex Hp).
  intros e s He H1 H2. rewrite (Hu e s He H1 H2). unfold l2_integrand, surf_point, patch_point. cbv zeta.
  destruct (X (n_patch e) _) as [[x x_s] x_t]. reflexivity.
Qed.
(** flat patches (constant surface measure) and functions that are polynomials of degree at most k in the coordinates of the patches:
    with deg >= k and deg >= the polynomial degree of the space and the Gauss rule, the result is the L2 norm of the difference *)
Theorem C75_flat : forall g v u k r, exact_rule (2 * (deg + 1)) (fst (qr (deg + 1)%nat)) (snd (qr (deg + 1)%nat)) ->
  (ss_p ss <= deg)%nat -> (k <= deg)%nat ->
  (forall p, (p < length corners)%nat -> (exists a, forall z, vnorm (vcross (snd (fst (X p z))) (snd (X p z))) = a) /\ is_tensor_poly (k + 1) (fun z => g (fst (fst (X p z))))) ->
  given_on_elements els (fun e s => dvalue v e s) u ->
  surfaceL2error qr t X ss nd T v g deg = Some r ->
  patches_integral (length corners) (fun p z => let '(x, x_s, x_t) := X p z in vnorm (vcross x_s x_t) * (g x - u p z) ^ 2) (r * r).
Proof.
  intros g v u k r Ex Hp Hk Hflat Hu E. apply (C75_exact g v u (2 * (deg + 1)) r Ex Hu); [|exact E]. intros e He.
  destruct (mesh_cells close corners M t els Hm e He) as [_ Hpe]. destruct (Hflat (n_patch e) Hpe) as [[a Ha] Hg].
  apply (itp_ext _ (fun s => a * ((g (fst (fst (X (n_patch e) (patch_point e s)))) + -1 * dvalue v e s) * (g (fst (fst (X (n_patch e) (patch_point e s)))) + -1 * dvalue v e s)))).
  - intros s. unfold l2_integrand, surf_point. cbv zeta. unfold p_kappa, p_n. cbn [p_dx p_dy p_f]. change (Q2R (fst (n_llc e)) + Q2R (get_h e) * fst s, Q2R (snd (n_llc e)) + Q2R (get_h e) * snd s) with (patch_point e s). rewrite Ha. ring.
  - apply itp_scal.
    assert (D : is_tensor_poly (deg + 1) (fun s => g (fst (fst (X (n_patch e) (patch_point e s)))) + -1 * dvalue v e s)).
    { apply itp_plus.
      - apply (itp_mono (k + 1)); [lia|]. apply (itp_element _ (fun z => g (fst (fst (X (n_patch e) z))))). exact Hg.
      - apply itp_scal. apply (itp_mono (ss_p ss + 1)); [lia|]. apply itp_discrete. }
    apply (itp_mult (deg + 1) (deg + 1)); [lia|exact D|exact D].
Qed.
(** it is zero exactly if both functions agree at all quadrature points *)
Theorem C75_zero : forall g v, (forall e q, In e els -> (q < q_size Q)%nat -> p_kappa (surf_point X e (q_xi Q q) 1) <> 0) ->
  (surfaceL2error qr t X ss nd T v g deg = Some 0 <->
   forall e q, In e els -> (q < q_size Q)%nat -> g (p_f (surf_point X e (q_xi Q q) 1)) = dvalue v e (q_xi Q q)).
Proof.
  intros g v Hk. rewrite error_sqrt. split.
  - intros E e q He Hq. apply some_inj in E.
    assert (Z : surface_sum els Q (l2_integrand g v) = 0) by (apply sqrt_eq_0; [apply integrand_sum_pos|symmetry; exact E]).
    pose proof (surface_sum_zero els Q _ Hw (integrand_pos g v) Z e q He Hq) as Z1. unfold l2_integrand in Z1. cbv zeta in Z1.
    apply Rmult_integral in Z1. destruct Z1 as [Z1|Z1]; [exfalso; exact (Hk e q He Hq Z1)|].
    rewrite <- Rsqr_pow2 in Z1. apply Rsqr_0_uniq in Z1. lra.
  - intros H. f_equal. rewrite (surface_sum_ext els Q (l2_integrand g v) (fun e s => 0 + 0 * 0)).
    + rewrite (surface_sum_linear els Q (fun _ _ => 0) (fun _ _ => 0)).
      replace (surface_sum els Q (fun _ _ => 0)) with 0; [replace (0 + 0 * 0) with 0 by ring; apply sqrt_0|].
      symmetry. unfold surface_sum. apply rsum_zero. intros k Hk'. destruct (nth_error els k); [|reflexivity]. rewrite rsum_zero; [ring|]. intros; ring.
    + intros e q He Hq. unfold l2_integrand. cbv zeta. rewrite (H e q He Hq). ring.
Qed.
(** it is a seminorm of the pair: the errors of two pairs differ at most by the one of the difference, and multiples have multiples *)
Lemma dvalue_linear : forall v w a e s, dvalue (fun i => v i + a * w i) e s = dvalue v e s + a * dvalue w e s.
Proof.
  intros v w a e s. unfold discrete_value, Rdiv. rewrite <- Rmult_assoc, <- rsum_scal, <- Rmult_plus_distr_r, <- rsum_plus. f_equal. apply rsum_ext. intros i Hi.
  unfold local_coefficient. rewrite <- Rmult_assoc, <- rsum_scal, <- Rmult_plus_distr_r, <- rsum_plus. f_equal. apply rsum_ext. intros j Hj. ring.
Qed.
Lemma error_triangle : forall g h v w, sqrt (surface_sum els Q (l2_integrand (fun x => g x + h x) (fun i => v i + 1 * w i)))
  <= sqrt (surface_sum els Q (l2_integrand g v)) + sqrt (surface_sum els Q (l2_integrand h w)).
Proof.
  intros g h v w.
  set (cross := fun e s => let p := surf_point X e s 1 in p_kappa p * ((g (p_f p) - dvalue v e s) * (h (p_f p) - dvalue w e s))).
  assert (Exp : forall y, surface_sum els Q (l2_integrand (fun x => g x + y * h x) (fun i => v i + y * w i))
    = surface_sum els Q (l2_integrand g v) + y * (2 * surface_sum els Q cross) + y * y * surface_sum els Q (l2_integrand h w)).
  { intros y. replace (y * (2 * surface_sum els Q cross)) with ((2 * y) * surface_sum els Q cross) by ring.
    rewrite <- surface_sum_linear. rewrite <- (surface_sum_linear els Q (fun e s => l2_integrand g v e s + 2 * y * cross e s)).
    apply surface_sum_ext. intros e q He Hq. unfold l2_integrand, cross. cbv zeta. rewrite dvalue_linear. ring. }
  rewrite (surface_sum_ext els Q (l2_integrand (fun x => g x + h x) _) (l2_integrand (fun x => g x + 1 * h x) (fun i => v i + 1 * w i))).
  - rewrite Exp. replace (1 * (2 * surface_sum els Q cross)) with (2 * surface_sum els Q cross) by ring.
    replace (1 * 1 * surface_sum els Q (l2_integrand h w)) with (surface_sum els Q (l2_integrand h w)) by ring.
    apply quadratic_triangle. intros y. rewrite <- Exp. apply integrand_sum_pos.
  - intros e q He Hq. unfold l2_integrand. cbv zeta. ring.
Qed.
Lemma error_ext : forall g h v w, (forall x, g x = h x) -> (forall i, v i = w i) -> surface_sum els Q (l2_integrand g v) = surface_sum els Q (l2_integrand h w).
Proof.
  intros g h v w Hg Hv. apply surface_sum_ext. intros e q He Hq. unfold l2_integrand. cbv zeta. rewrite Hg. f_equal. f_equal. f_equal.
  unfold discrete_value. f_equal. apply rsum_ext. intros i Hi. f_equal. unfold local_coefficient. apply rsum_ext. intros j Hj. rewrite Hv. reflexivity.
Qed.
Theorem C75_norm : forall g h v w r1 r2 r, surfaceL2error qr t X ss nd T v g deg = Some r1 -> surfaceL2error qr t X ss nd T w h deg = Some r2 ->
  surfaceL2error qr t X ss nd T (fun i => v i - w i) (fun x => g x - h x) deg = Some r -> Rabs (r1 - r2) <= r.
Proof.
  intros g h v w r1 r2 r E1 E2 E. rewrite error_sqrt in E1, E2, E. apply some_inj in E1, E2, E. subst r1 r2 r.
  pose proof (error_triangle (fun x => g x - h x) h (fun i => v i - w i) w) as T1.
  rewrite (error_ext _ g _ v) in T1 by (intros; ring).
  pose proof (error_triangle (fun x => h x - g x) g (fun i => w i - v i) v) as T2.
  rewrite (error_ext _ h _ w) in T2 by (intros; ring).
  replace (surface_sum els Q (l2_integrand (fun x => h x - g x) (fun i => w i - v i)))
    with (surface_sum els Q (l2_integrand (fun x => g x - h x) (fun i => v i - w i))) in T2.
  - apply Rabs_le. lra.
  - apply surface_sum_ext. intros e q He Hq. unfold l2_integrand. cbv zeta.
    replace (dvalue (fun i => v i - w i) e (q_xi Q q)) with (- dvalue (fun i => w i - v i) e (q_xi Q q)); [ring|].
    assert (Z : dvalue (fun i => (w i - v i) + (-1) * (w i - v i)) e (q_xi Q q) = 0) by (rewrite dvalue_linear; ring).
    assert (L : dvalue (fun i => v i - w i) e (q_xi Q q) = dvalue (fun i => ((w i - v i) + (-1) * (w i - v i)) + (-1) * (w i - v i)) e (q_xi Q q)).
    { unfold discrete_value. f_equal. apply rsum_ext. intros i Hi. f_equal. unfold local_coefficient. apply rsum_ext. intros j Hj. ring. }
    rewrite L, (dvalue_linear (fun i => (w i - v i) + (-1) * (w i - v i))), Z. ring.
Qed.
Theorem C75_scaled : forall g v a r ra, surfaceL2error qr t X ss nd T v g deg = Some r ->
  surfaceL2error qr t X ss nd T (fun i => a * v i) (fun x => a * g x) deg = Some ra -> ra = Rabs a * r.
Proof.
  intros g v a r ra E1 E2. rewrite error_sqrt in E1, E2. apply some_inj in E1, E2. subst r ra.
  rewrite <- (sqrt_Rsqr_abs a), <- sqrt_mult by (apply Rle_0_sqr || apply integrand_sum_pos). f_equal.
  unfold surface_sum. rewrite <- rsum_scal. apply rsum_ext. intros k Hk. destruct (nth_error els k) as [e|]; [|ring].
  rewrite (rsum_ext _ (fun q => a² * (q_w Q q * l2_integrand g v e (q_xi Q q)))).
  - rewrite rsum_scal. ring.
  - intros q Hq. unfold l2_integrand. cbv zeta.
    replace (dvalue (fun i => a * v i) e (q_xi Q q)) with (a * dvalue v e (q_xi Q q)); [unfold Rsqr; ring|].
    unfold discrete_value, Rdiv. rewrite <- Rmult_assoc, <- rsum_scal. f_equal. apply rsum_ext. intros i Hi.
    unfold local_coefficient. rewrite <- Rmult_assoc, <- rsum_scal. f_equal. apply rsum_ext. intros j Hj. ring.
Qed.
(** div-conforming functions: only the first component of the values is looked at *)
Theorem C75_div_first_component : forall g v, exists r, surfaceL2error_div qr t X ss nd T v g deg = Some r /\ 0 <= r /\
  r * r = surface_sum els Q (fun e s => let p := surf_point X e s 1 in
    p_kappa p * (g (p_f p) - vx (vadd (vscal (dvalue v e s) (p_dx p))
      (vscal (discrete_value (ss_p ss) (t_elements t) nd T v 1 (n_id e) (n_h e) s) (p_dy p)))) ^ 2).
Proof.
  intros g v. unfold surfaceL2error_div.
  destruct (C61_evaluator_exists close corners M t els Hm X ss 2 nd T v) as [E HE]. unfold evaluator_of in HE. rewrite HE. cbn [bind].
  rewrite (mesh_elements_code t els) by apply Hm. cbn [bind]. rewrite square_rule.
  rewrite (l2_loop_sum _ X Q g (fun e p => vx (vadd (vscal (dvalue v e (p_s p)) (p_dx p))
    (vscal (discrete_value (ss_p ss) (t_elements t) nd T v 1 (n_id e) (n_h e) (p_s p)) (p_dy p))))).
  2: { intros e p He. rewrite (C61_vector close corners M t els Hm X ss nd T v E e p HE He). reflexivity. }
  cbn [bind]. eexists. split; [reflexivity|]. split; [apply sqrt_pos|]. rewrite Rplus_0_l.
  match goal with |- sqrt ?a * _ = surface_sum _ _ ?f => replace a with (surface_sum els Q f); [apply sqrt_sqrt|] end.
  - apply surface_sum_pos; [intros q Hq; apply Rlt_le, Hw; exact Hq|]. intros e s. cbv zeta.
    apply Rmult_le_pos; [unfold p_kappa, vnorm; apply sqrt_pos|]. rewrite <- Rsqr_pow2. apply Rle_0_sqr.
  - rewrite <- lsum_surface. apply lsum_ext. intros e He. apply rsum_ext. intros i Hi. reflexivity.
Qed.
End Error.
(** orders above 50: the one-point rule, whatever the order *)
Theorem C75_order_refuted : forall qr t X ss nd T v g deg, (50 < deg)%nat ->
  surfaceL2error qr t X ss nd T v g deg = surfaceL2error qr t X ss nd T v g 0.
Proof.
  intros qr t X ss nd T v g deg Hd. unfold surfaceL2error, gauss_square. rewrite !C38_lookup.
  destruct (Nat.leb_spec deg 50); [lia|]. reflexivity.
Qed.
(** ** linear forms and mass matrices on flat surfaces are exact integrals *)
Section Exact.
Context {Pt : Type} (close : Pt -> Pt -> bool) (corners : list (list Pt)) (M : nat) (t : tree) (els : list node).
Hypothesis Hm : uniform_mesh close corners M t els.
Variables (X : surface) (ss : sspace) (nd : nat) (T : mat) (x w : list R) (d : nat).
Hypothesis Hr : exact_rule d x w.
Hypothesis Hflat : forall p, (p < length corners)%nat -> exists a, forall z, vnorm (vcross (snd (fst (X p z))) (snd (X p z))) = a.
Notation dvalue v e s := (discrete_value (ss_p ss) (t_elements t) nd T v 0 (n_id e) (n_h e) s).
Theorem C62_dirichlet_exact : forall g k v u b, (k + ss_p ss < d)%nat ->
  (forall p, (p < length corners)%nat -> is_tensor_poly (k + 1) (fun z => g (fst (fst (X p z))))) ->
  given_on_elements els (fun e s => dvalue v e s) u ->
  linear_form (dirichlet_trace g) ss X (tensor_rule (x, w)) 1 (t_elements t) T els = Some b ->
  patches_integral (length corners) (fun p z => let '(y, y_s, y_t) := X p z in g y * u p z * vnorm (vcross y_s y_t)) (dotp nd v b).
Proof.
  intros g k v u b Hd Hg Hu Eb. destruct (C61_evaluator_exists close corners M t els Hm X ss 1 nd T v) as [E HE].
  assert (Hv : forall e p, In e els -> evaluate_scalar ss E e p = Some (dvalue v e (p_s p))) by (intros e p He; apply (C61_scalar close corners M t els Hm X ss nd T v E e p HE He)).
  rewrite (C62_dirichlet close corners M t els Hm g ss X _ nd T v E _ b HE Hv Eb).
  apply (surface_sum_exact close corners M t els x w d _ _ Hm Hr).
  - intros e He. destruct (mesh_cells close corners M t els Hm e He) as [_ Hpe]. destruct (Hflat (n_patch e) Hpe) as [a Ha].
    apply (itp_ext _ (fun s => a * (g (fst (fst (X (n_patch e) (patch_point e s)))) * dvalue v e s))).
    + intros s. cbv zeta. unfold surf_point, p_kappa, p_n. cbn [p_dx p_dy p_f p_s].
      change (Q2R (fst (n_llc e)) + Q2R (get_h e) * fst s, Q2R (snd (n_llc e)) + Q2R (get_h e) * snd s) with (patch_point e s). rewrite Ha. ring.
    + apply itp_scal. apply (itp_mult (k + 1) (ss_p ss + 1)); [lia| |apply itp_discrete].
      apply (itp_element _ (fun z => g (fst (fst (X (n_patch e) z))))). apply Hg. exact Hpe.
  - intros e s He H1 H2. cbv zeta. unfold surf_point, p_kappa, p_n. cbn [p_dx p_dy p_f p_s]. rewrite (Hu e s He H1 H2).
    change (Q2R (fst (n_llc e)) + Q2R (get_h e) * fst s, Q2R (snd (n_llc e)) + Q2R (get_h e) * snd s) with (patch_point e s).
    destruct (X (n_patch e) (patch_point e s)) as [[y y_s] y_t]. cbn [fst snd]. ring.
Qed.
Theorem C62_mass_exact : forall v1 v2 u1 u2, (2 * ss_p ss < d)%nat ->
  given_on_elements els (fun e s => dvalue v1 e s) u1 -> given_on_elements els (fun e s => dvalue v2 e s) u2 ->
  patches_integral (length corners) (fun p z => let '(y, y_s, y_t) := X p z in u1 p z * u2 p z * vnorm (vcross y_s y_t))
    (dotp nd v1 (times nd (local_operator identity_integrand ss X (tensor_rule (x, w)) 1 (t_elements t) T els) v2)).
Proof.
  intros v1 v2 u1 u2 Hd Hu1 Hu2. destruct (C61_evaluator_exists close corners M t els Hm X ss 1 nd T v1) as [E HE].
  destruct (C61_evaluator_exists close corners M t els Hm X ss 1 nd T v2) as [E' HE'].
  assert (Hv : forall e p, In e els -> evaluate_scalar ss E e p = Some (dvalue v1 e (p_s p))) by (intros e p He; apply (C61_scalar close corners M t els Hm X ss nd T v1 E e p HE He)).
  assert (Hv' : forall e p, In e els -> evaluate_scalar ss E' e p = Some (dvalue v2 e (p_s p))) by (intros e p He; apply (C61_scalar close corners M t els Hm X ss nd T v2 E' e p HE' He)).
  rewrite (C62_mass close corners M t els Hm ss X _ nd T v1 v2 E E' _ _ HE HE' Hv Hv').
  apply (surface_sum_exact close corners M t els x w d _ _ Hm Hr).
  - intros e He. destruct (mesh_cells close corners M t els Hm e He) as [_ Hpe]. destruct (Hflat (n_patch e) Hpe) as [a Ha].
    apply (itp_ext _ (fun s => a * (dvalue v1 e s * dvalue v2 e s))).
    + intros s. cbv zeta. unfold surf_point, p_kappa, p_n. cbn [p_dx p_dy p_f p_s]. rewrite Ha. ring.
    + apply itp_scal. apply (itp_mult (ss_p ss + 1) (ss_p ss + 1)); [lia| |]; apply itp_discrete.
  - intros e s He H1 H2. cbv zeta. unfold surf_point, p_kappa, p_n. cbn [p_dx p_dy p_f p_s]. rewrite (Hu1 e s He H1 H2), (Hu2 e s He H1 H2).
    change (Q2R (fst (n_llc e)) + Q2R (get_h e) * fst s, Q2R (snd (n_llc e)) + Q2R (get_h e) * snd s) with (patch_point e s).
    destruct (X (n_patch e) (patch_point e s)) as [[y y_s] y_t]. cbn [fst snd]. ring.
Qed.
End Exact.

(** div-conforming functions on a surface in a plane x = const: the result for the right-hand side 0 is 0, whatever the function *)
Definition wall : surface := fun q st => ((10 * INR q, fst st, snd st), (0, 1, 0), (0, 0, 1)).
Theorem C75_div_refuted : forall (Pt : Type) (close : Pt -> Pt -> bool) corners M t els qr ss nd T v deg, uniform_mesh close corners M t els -> (deg <= 50)%nat ->
  (forall q, (q < q_size (tensor_rule (qr (deg + 1)%nat)))%nat -> 0 < q_w (tensor_rule (qr (deg + 1)%nat)) q) ->
  surfaceL2error_div qr t wall ss nd T v (fun _ => 0) deg = Some 0 /\
  exists E, evaluator_of t wall ss 2 nd T v E /\ forall e s, In e els -> evaluate_vector ss E e (surf_point wall e s 1) =
    Some (0, discrete_value (ss_p ss) (t_elements t) nd T v 0 (n_id e) (n_h e) s, discrete_value (ss_p ss) (t_elements t) nd T v 1 (n_id e) (n_h e) s).
Proof.
  intros Pt close corners M t els qr ss nd T v deg Hm Hd Hw. split.
  - destruct (C75_div_first_component close corners M t els Hm qr wall ss nd T deg Hd Hw (fun _ => 0) v) as [r [E [Hr E2]]]. rewrite E. f_equal.
    apply Rsqr_0_uniq. unfold Rsqr. rewrite E2. unfold surface_sum. apply rsum_zero. intros k Hk. destruct (nth_error els k) as [e|]; [|reflexivity].
    rewrite rsum_zero; [ring|]. intros q Hq. cbv zeta. unfold surf_point, wall. cbn [p_dx p_dy p_f fst snd]. unfold vadd, vscal, vx. cbn [fst snd]. ring.
  - destruct (C61_evaluator_exists close corners M t els Hm wall ss 2 nd T v) as [E HE]. exists E. split; [exact HE|]. intros e s He.
    rewrite (C61_vector close corners M t els Hm wall ss nd T v E e _ HE He). f_equal. unfold surf_point, wall. cbn [p_dx p_dy p_s fst snd].
    unfold vadd, vscal, vx, vy, vz. cbn [fst snd]. f_equal; [f_equal|]; ring.
Qed.

(** ** the hypotheses are met: bilinear functions on the strip of three squares refined once, the Gauss rule with two points *)
Definition rule2 (n : nat) : rule := eigen_rule 2 (fun i => if i =? 0 then (- / sqrt 3)%R else (/ sqrt 3)%R)
  (fun r i => if (r =? 1) && (i =? 0) then (- / sqrt 2)%R else (/ sqrt 2)%R)%bool.
Lemma rule2_weights : forall n q, (q < q_size (tensor_rule (rule2 n)))%nat -> 0 < q_w (tensor_rule (rule2 n)) q.
Proof.
  intros n q Hq. cbn in Hq. assert (P : 0 < / sqrt 2) by (apply Rinv_0_lt_compat, sqrt_lt_R0; lra).
  do 4 (destruct q as [|q]; [cbn; repeat apply Rmult_lt_0_compat; exact P|]). lia.
Qed.
Example C75_example : exists t els u r, uniform_mesh Nat.eqb strip 1 t els /\ length els = 12%nat /\
  surfaceL2error rule2 t sheets ss1 48 (fun r c => if Nat.eqb r c then 1 else 0) (fun i => INR i) vx 1 = Some r /\
  given_on_elements els (fun e s => discrete_value 1 (t_elements t) 48 (fun r c => if Nat.eqb r c then 1 else 0) (fun i => INR i) 0 (n_id e) (n_h e) s) u /\
  patches_integral 3 (fun p z => (fst z - u p z) ^ 2) (r * r).
Proof.
  destruct assembly_example as [t [els [E [Me L]]]].
  assert (U : uniform_mesh Nat.eqb strip 1 t els) by (split; [discriminate|]; split; [exact (proj2 strip_ok)|]; split; assumption).
  destruct (function_on_patches Nat.eqb strip 1 t els (fun e s => discrete_value 1 (t_elements t) 48 (fun r c => if Nat.eqb r c then 1 else 0) (fun i => INR i) 0 (n_id e) (n_h e) s) U) as [u Hu].
  destruct (C75_value Nat.eqb strip 1 t els U rule2 sheets ss1 48 (fun r c => if Nat.eqb r c then 1 else 0) 1 ltac:(lia) (rule2_weights _) vx (fun i => INR i)) as [r [Er _]].
  exists t, els, u, r. split; [exact U|]. split; [exact L|]. split; [exact Er|]. split; [exact Hu|].
  assert (Ex : exact_rule (2 * (1 + 1)) (fst (rule2 2)) (snd (rule2 2))).
  { destruct (C55_exact 2 _ _ (fst (rule2 2)) (snd (rule2 2)) ltac:(lia) eigen_example) as [_ [_ Ex]]; [unfold rule2; rewrite <- surjective_pairing; reflexivity|]. exact Ex. }
  pose proof (C75_flat Nat.eqb strip 1 t els U rule2 sheets ss1 48 (fun r c => if Nat.eqb r c then 1 else 0) 1 ltac:(lia) (rule2_weights _) vx (fun i => INR i) u 1 r Ex) as F.
  cbn [ss1 ss_p] in F. specialize (F ltac:(lia) ltac:(lia)).
  assert (G : patches_integral (length strip) (fun p z => let '(x, x_s, x_t) := sheets p z in vnorm (vcross x_s x_t) * (vx x - u p z) ^ 2) (r * r)).
  { apply F; [|exact Hu|exact Er]. intros p Hp. split.
    - exists 1. intros z. unfold sheets, vnorm, vdot, vcross, vx, vy, vz. cbn [fst snd]. match goal with |- sqrt ?z = _ => replace z with 1 by ring end. apply sqrt_1.
    - unfold sheets, vx. cbn [fst snd]. apply (itp_ext _ (fun s => (0 + 1 * fst s) ^ 1 * (0 + 1 * snd s) ^ 0)); [intros; ring|]. apply itp_monomial; lia. }
  destruct G as [vs [Hv Er2]]. exists vs. split; [|exact Er2]. intros p Hp. destruct (Hv p Hp) as [inner [I1 I2]]. exists inner. split; [|exact I2].
  intros x Hx. specialize (I1 x Hx). eapply is_RInt_ext; [|exact I1]. intros y _. cbv beta. unfold sheets, vnorm, vdot, vcross, vx, vy, vz. cbn [fst snd].
  match goal with |- sqrt ?z * _ = _ => replace z with 1 by ring end. rewrite sqrt_1. apply Rmult_1_l.
Qed.

(* BEGIN ASSUMPTIONS *)
Print Assumptions C75_value.
Print Assumptions C75_exact.
Print Assumptions C75_flat.
Print Assumptions C75_zero.
Print Assumptions C75_norm.
Print Assumptions C75_scaled.
Print Assumptions C75_div_first_component.
Print Assumptions C75_order_refuted.
Print Assumptions C62_dirichlet_exact.
Print Assumptions C62_mass_exact.
Print Assumptions C75_div_refuted.
