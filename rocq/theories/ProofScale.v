(** Lemmas about changing the unit of length. *)
From Coq Require Import Reals Lra Lia Arith Bool List ZArith QArith Qreals FunctionalExtensionality.
From Coquelicot Require Import Complex.
From Verif Require Import RSum ModelBase ModelBernstein ModelTree ModelBall ModelBlock ModelH2 ModelH2Init ModelQuad ModelDuffy ModelAssembly ModelOperators ModelForms ModelPipeline SpecOperators SpecScale ProofMotion ProofNearFar ProofOperators PropOperators PropNearFar.
Import ListNotations.
Local Close Scope Q_scope.
Local Open Scope R_scope.

Section Scale.
Variable l : R.
Hypothesis Hl : 0 < l.

Lemma Hll : 0 < l * l.
Proof. apply Rmult_lt_0_compat; exact Hl. Qed.
Lemma scal_sub : forall a b, vsub (vscal l a) (vscal l b) = vscal l (vsub a b).
Proof. intros. apply vec_eq; unfold vsub, vscal, vx, vy, vz; cbn [fst snd]; ring. Qed.
Lemma scal_dot : forall c d a b, vdot (vscal c a) (vscal d b) = c * d * vdot a b.
Proof. intros. unfold vdot, vscal, vx, vy, vz; cbn [fst snd]; ring. Qed.
Lemma scal_cross : forall a b, vcross (vscal l a) (vscal l b) = vscal (l * l) (vcross a b).
Proof. intros. apply vec_eq; unfold vcross, vscal, vx, vy, vz; cbn [fst snd]; ring. Qed.
Lemma scal_norm : forall c a, 0 <= c -> vnorm (vscal c a) = c * vnorm a.
Proof. intros c a Hc. unfold vnorm. rewrite scal_dot, sqrt_mult_alt by nra. rewrite sqrt_square by exact Hc. reflexivity. Qed.
Lemma scal_dist : forall a b, vnorm (vsub (vscal l a) (vscal l b)) = l * vnorm (vsub a b).
Proof. intros. rewrite scal_sub, scal_norm by lra. reflexivity. Qed.
Lemma scal_scal : forall c d a, vscal c (vscal d a) = vscal (c * d) a.
Proof. intros. apply vec_eq; unfold vscal, vx, vy, vz; cbn [fst snd]; ring. Qed.
Lemma scal_normalized : forall c a, 0 < c -> vnormalized (vscal c a) = vnormalized a.
Proof.
  intros c a Hc. unfold vnormalized. rewrite scal_dot, (scal_norm c) by lra. pose proof (Rmult_lt_0_compat c c Hc Hc) as Hcc.
  destruct (Rlt_dec 0 (vdot a a)) as [L|L], (Rlt_dec 0 (c * c * vdot a a)) as [L'|L'].
  - assert (N : 0 < vnorm a) by (apply sqrt_lt_R0; exact L). unfold vscal, vx, vy, vz. cbn [fst snd]. f_equal; [f_equal|]; field; split; lra.
  - exfalso. apply L', Rmult_lt_0_compat; assumption.
  - exfalso. apply L. apply Rmult_lt_reg_l with (c * c); [exact Hcc|]. rewrite Rmult_0_r. exact L'.
  - destruct a as [[a1 a2] a3]. unfold vdot, vx, vy, vz in L. cbn [fst snd] in L.
    assert (a1 = 0) by (clear L'; nra). assert (a2 = 0) by (clear L'; nra). assert (a3 = 0) by (clear L'; nra). subst. unfold vscal, vx, vy, vz. cbn [fst snd]. rewrite !Rmult_0_r. reflexivity.
Qed.
(** ** points *)
Definition scaled_point (p : spoint) : spoint := mkSP (p_s p) (p_w p) (vscal l (p_f p)) (vscal l (p_dx p)) (vscal l (p_dy p)).
Lemma scaled_surf : forall X e s w, surf_point (scaled l X) e s w = scaled_point (surf_point X e s w).
Proof. reflexivity. Qed.
Lemma scaled_n : forall p, p_n (scaled_point p) = vscal (l * l) (p_n p).
Proof. intros. apply scal_cross. Qed.
Lemma scaled_kappa : forall p, p_kappa (scaled_point p) = l * l * p_kappa p.
Proof. intros. unfold p_kappa. rewrite scaled_n, scal_norm by apply Rlt_le, Hll. reflexivity. Qed.
Lemma scaled_curl : forall ss p i, surface_curl ss (scaled_point p) i = vscal (/ l) (surface_curl ss p i).
Proof.
  intros. unfold surface_curl. rewrite scaled_kappa. cbn [p_s p_dx p_dy scaled_point]. unfold Rdiv. rewrite !Rinv_mult. rewrite scal_scal.
  generalize (/ p_kappa p). intros q. apply vec_eq; unfold vadd, vscal, vx, vy, vz; cbn [fst snd]; field; lra.
Qed.
(** ** kernels *)
Lemma scaled_kernel : forall x y, laplace_kernel (vscal l x) (vscal l y) = / l * laplace_kernel x y.
Proof. intros. unfold laplace_kernel. rewrite scal_dist. unfold Rdiv. rewrite !Rinv_mult. ring. Qed.
Lemma scaled_dl_kernel : forall x y v, laplace_dl_kernel (vscal l x) (vscal l y) v = / l * / l * laplace_dl_kernel x y v.
Proof.
  intros. unfold laplace_dl_kernel. cbv zeta. rewrite scal_sub, scal_norm by lra. replace (vdot (vscal l (vsub x y)) v) with (l * vdot (vsub x y) v) by (unfold vdot, vscal, vx, vy, vz; cbn [fst snd]; ring).
  unfold Rdiv. rewrite !Rinv_mult. generalize (/ vnorm (vsub x y)). intros q. field. repeat split; first [exact PI_neq0|lra].
Qed.
Lemma scaled_adl_kernel : forall x y v, laplace_adl_kernel (vscal l x) v (vscal l y) = / l * / l * laplace_adl_kernel x v y.
Proof.
  intros. unfold laplace_adl_kernel. cbv zeta. rewrite scal_sub, scal_norm by lra. replace (vdot (vscal (-1) (vscal l (vsub x y))) v) with (l * vdot (vscal (-1) (vsub x y)) v) by (unfold vdot, vscal, vx, vy, vz; cbn [fst snd]; ring).
  unfold Rdiv. rewrite !Rinv_mult. generalize (/ vnorm (vsub x y)). intros q. field. repeat split; first [exact PI_neq0|lra].
Qed.
Lemma dl_scal : forall c x y v, laplace_dl_kernel x y (vscal c v) = c * laplace_dl_kernel x y v.
Proof. intros. unfold laplace_dl_kernel. cbv zeta. replace (vdot (vsub x y) (vscal c v)) with (c * vdot (vsub x y) v) by (unfold vdot, vscal, vx, vy, vz; cbn [fst snd]; ring). unfold Rdiv. ring. Qed.
Lemma adl_scal : forall c x y v, laplace_adl_kernel x (vscal c v) y = c * laplace_adl_kernel x v y.
Proof. intros. unfold laplace_adl_kernel. cbv zeta. replace (vdot (vscal (-1) (vsub x y)) (vscal c v)) with (c * vdot (vscal (-1) (vsub x y)) v) by (unfold vdot, vscal, vx, vy, vz; cbn [fst snd]; ring). unfold Rdiv. ring. Qed.
(** complex numbers *)
Lemma Cinv_real : forall r, (/ RtoC r = RtoC (/ r))%C.
Proof.
  intros r. destruct (Req_dec r 0) as [ -> |N].
  - unfold Cinv, RtoC. cbn [fst snd]. rewrite Rinv_0. f_equal; unfold Rdiv; ring.
  - unfold Cinv, RtoC. cbn [fst snd]. f_equal; field; [exact N|nra].
Qed.
Lemma Cinv_scal : forall r z, r <> 0 -> (/ (RtoC r * z) = RtoC (/ r) * / z)%C.
Proof.
  intros r [a b] N. unfold Cinv, Cmult, RtoC. cbn [fst snd].
  replace ((r * a - 0 * b) ^ 2 + (r * b + 0 * a) ^ 2) with (r * r * (a ^ 2 + b ^ 2)) by ring. unfold Rdiv. rewrite !Rinv_mult. generalize (/ (a ^ 2 + b ^ 2)). intros q. f_equal; field; exact N.
Qed.
Lemma scaled_exponent : forall k r, (- Ci * k * RtoC (l * r) = - Ci * (RtoC l * k) * RtoC r)%C.
Proof. intros. rewrite RtoC_mult. ring. Qed.
Lemma scaled_h_kernel : forall k x y, helmholtz_kernel k (vscal l x) (vscal l y) = (RtoC (/ l) * helmholtz_kernel (RtoC l * k) x y)%C.
Proof.
  intros. unfold helmholtz_kernel. cbv zeta. rewrite scal_dist, scaled_exponent. unfold Cdiv. rewrite !Cinv_real, Rinv_mult, !RtoC_mult. ring.
Qed.
Lemma scaled_hdl_kernel : forall k x y v, helmholtz_dl_kernel k (vscal l x) (vscal l y) v = (RtoC (/ l * / l) * helmholtz_dl_kernel (RtoC l * k) x y v)%C.
Proof.
  intros. unfold helmholtz_dl_kernel. cbv zeta. rewrite scal_sub, scal_norm by lra. replace (vdot (vscal l (vsub x y)) v) with (l * vdot (vsub x y) v) by (unfold vdot, vscal, vx, vy, vz; cbn [fst snd]; ring).
  replace (RtoC 1 + Ci * k * RtoC (l * vnorm (vsub x y)))%C with (RtoC 1 + Ci * (RtoC l * k) * RtoC (vnorm (vsub x y)))%C by (rewrite RtoC_mult; ring).
  rewrite scaled_exponent. unfold Cdiv. rewrite !Cinv_real.
  replace (l * vdot (vsub x y) v) with (l * vdot (vsub x y) v) by reflexivity. set (r := vnorm (vsub x y)). 
  replace (/ (l * r * (l * r) * (l * r))) with (/ l * / l * / l * / (r * r * r)) by (rewrite !Rinv_mult; ring). rewrite !RtoC_mult.
  assert (E : (RtoC l * RtoC (/ l))%C = RtoC 1) by (rewrite <- RtoC_mult; f_equal; field; lra).
  match goal with |- (?a * ?v * ?f * ?g * ?q * ?p * (?b * ?b * ?b * ?s))%C = _ => transitivity ((a * b) * (b * b * (v * f * g * q * p * s)))%C; [ring|rewrite E; ring] end.
Qed.
Lemma scaled_hadl_kernel : forall k x y v, helmholtz_adl_kernel k (vscal l x) v (vscal l y) = (RtoC (/ l * / l) * helmholtz_adl_kernel (RtoC l * k) x v y)%C.
Proof. intros. rewrite !C59_adjoint_kernel. apply scaled_hdl_kernel. Qed.
Lemma hdl_scal : forall k c x y v, helmholtz_dl_kernel k x y (vscal c v) = (RtoC c * helmholtz_dl_kernel k x y v)%C.
Proof.
  intros. unfold helmholtz_dl_kernel. cbv zeta. replace (vdot (vsub x y) (vscal c v)) with (c * vdot (vsub x y) v) by (unfold vdot, vscal, vx, vy, vz; cbn [fst snd]; ring). rewrite RtoC_mult. unfold Cdiv. ring.
Qed.
Lemma hadl_scal : forall k c x y v, helmholtz_adl_kernel k x (vscal c v) y = (RtoC c * helmholtz_adl_kernel k x v y)%C.
Proof. intros. rewrite !C59_adjoint_kernel. apply hdl_scal. Qed.
(** ** operators *)
Lemma real_integrand : forall op' op e ss p q a b, In (op', op, e) scaled_real -> (a < op_vd op * ss_n2 ss)%nat -> (b < op_vd op * ss_n2 ss)%nat ->
  op_integrand op' ss (scaled_point p) (scaled_point q) no_matrix a b = l ^ e * op_integrand op ss p q no_matrix a b.
Proof.
  intros op' op e ss p q a b HP Ha Hb. unfold scaled_real in HP. cbn [In] in HP.
  destruct HP as [HP|[HP|[HP|[HP|[]]]]]; injection HP as <- <- <-; cbn [op_vd op_integrand laplace_sl laplace_dl laplace_adl laplace_hs] in *; rewrite Nat.mul_1_l in Ha, Hb.
  - unfold laplace_sl_integrand. rewrite !interaction_value by assumption. rewrite !scaled_kappa. cbn [p_f p_s p_w scaled_point]. rewrite scaled_kernel. unfold no_matrix. field. lra.
  - unfold laplace_dl_integrand. cbv zeta. rewrite !interaction_value by assumption. rewrite !scaled_kappa, scaled_n, (scal_normalized (l * l)) by exact Hll. cbn [p_f p_s p_w scaled_point]. rewrite scaled_dl_kernel. unfold no_matrix. field. lra.
  - unfold laplace_adl_integrand. rewrite !interaction_value by assumption. rewrite !scaled_kappa, scaled_n, adl_scal. cbn [p_f p_s p_w scaled_point]. rewrite scaled_adl_kernel. unfold no_matrix. field. lra.
  - unfold laplace_hs_integrand. cbv zeta. rewrite !curl_value by assumption. rewrite !scaled_kappa, !scaled_curl, scal_dot. cbn [p_f p_s p_w scaled_point]. rewrite scaled_kernel. unfold no_matrix, Rdiv. generalize (/ ss_h ss). intros h. field. lra.
Qed.
Lemma real_fmm : forall op' op e p q i j, In (op', op, e) scaled_real -> op_fmm op' (scaled_point p) (scaled_point q) i j = l ^ e * op_fmm op p q i j.
Proof.
  intros op' op e p q i j HP. unfold scaled_real in HP. cbn [In] in HP.
  destruct HP as [HP|[HP|[HP|[HP|[]]]]]; injection HP as <- <- <-; cbn [op_fmm laplace_sl laplace_dl laplace_adl laplace_hs].
  - unfold laplace_sl_fmm. rewrite !scaled_kappa. cbn [p_f scaled_point]. rewrite scaled_kernel. field. lra.
  - unfold laplace_dl_fmm. rewrite !scaled_kappa, scaled_n, dl_scal. cbn [p_f scaled_point]. rewrite scaled_dl_kernel. field. lra.
  - unfold laplace_adl_fmm. rewrite !scaled_kappa, scaled_n, adl_scal. cbn [p_f scaled_point]. rewrite scaled_adl_kernel. field. lra.
  - unfold laplace_hs_fmm. cbv zeta. unfold updm. cbn [p_f p_dx p_dy scaled_point]. rewrite scaled_kernel, !scal_dot.
    repeat match goal with |- context [if ?c then _ else _] => destruct c end; field; lra.
Qed.
Lemma Cdiv_scal : forall c z, (c / (RtoC l * z) = RtoC (/ l) * (c / z))%C.
Proof. intros. unfold Cdiv. rewrite Cinv_scal by lra. ring. Qed.
(** moves the factors out: l / l = 1 *)
Lemma cancel : (RtoC l * RtoC (/ l))%C = RtoC 1.
Proof. rewrite <- RtoC_mult. f_equal. field. lra. Qed.
Lemma square_wave : forall k z, (z / (k * k) = RtoC l * RtoC l * (z / (RtoC l * k * (RtoC l * k))))%C.
Proof.
  intros. replace (RtoC l * k * (RtoC l * k))%C with (RtoC l * (RtoC l * (k * k)))%C by ring. rewrite !Cdiv_scal.
  transitivity ((RtoC l * RtoC (/ l)) * (RtoC l * RtoC (/ l)) * (z / (k * k)))%C; [rewrite cancel; ring|ring].
Qed.
Lemma complex_integrand : forall k op' op e ss p q rc cc i j, In (op', op, e) (scaled_complex l k) -> (rc < op_vd op)%nat -> (cc < op_vd op)%nat -> (i < ss_n2 ss)%nat -> (j < ss_n2 ss)%nat ->
  op_integrand op' ss (scaled_point p) (scaled_point q) no_cmatrix (rc * ss_n2 ss + i)%nat (cc * ss_n2 ss + j)%nat =
  (RtoC (l ^ e) * op_integrand op ss p q no_cmatrix (rc * ss_n2 ss + i)%nat (cc * ss_n2 ss + j)%nat)%C.
Proof.
  intros k op' op e ss p q rc cc i j HP Hrc Hcc Hi Hj. unfold scaled_complex in HP. cbv zeta in HP. cbn [In] in HP.
  destruct HP as [HP|[HP|[HP|[HP|[HP|[]]]]]]; injection HP as <- <- <-.
  1-4: cbn [op_vd helmholtz_sl helmholtz_dl helmholtz_adl helmholtz_hs] in Hrc, Hcc; assert (rc = 0%nat) by lia; assert (cc = 0%nat) by lia; subst rc cc; rewrite !Nat.mul_0_l, !Nat.add_0_l;
    cbn [op_integrand helmholtz_sl helmholtz_dl helmholtz_adl helmholtz_hs].
  - unfold helmholtz_sl_integrand. rewrite !cinteraction by assumption. rewrite !scaled_kappa. cbn [p_f p_s p_w scaled_point]. rewrite scaled_h_kernel. unfold no_cmatrix. cbn [pow]. rewrite !RtoC_mult.
    match goal with |- _ = ?z => transitivity ((RtoC l * RtoC (/ l)) * z)%C; [ring|rewrite cancel; ring] end.
  - unfold helmholtz_dl_integrand. rewrite !cinteraction by assumption. rewrite !scaled_kappa, scaled_n, hdl_scal. cbn [p_f p_s p_w scaled_point]. rewrite scaled_hdl_kernel. unfold no_cmatrix. cbn [pow]. rewrite !RtoC_mult.
    match goal with |- _ = ?z => transitivity ((RtoC l * RtoC (/ l)) * ((RtoC l * RtoC (/ l)) * z))%C; [ring|rewrite cancel; ring] end.
  - unfold helmholtz_adl_integrand. rewrite !cinteraction by assumption. rewrite !scaled_kappa, scaled_n, hadl_scal. cbn [p_f p_s p_w scaled_point]. rewrite scaled_hadl_kernel. unfold no_cmatrix. cbn [pow]. rewrite !RtoC_mult.
    match goal with |- _ = ?z => transitivity ((RtoC l * RtoC (/ l)) * ((RtoC l * RtoC (/ l)) * z))%C; [ring|rewrite cancel; ring] end.
  - unfold helmholtz_hs_integrand. cbv zeta. rewrite !ccurl, !cinteraction by assumption. rewrite !scaled_kappa, !scaled_n, !scaled_curl, !scal_dot. cbn [p_f p_s p_w scaled_point]. rewrite scaled_h_kernel. unfold no_cmatrix, Cdiv. cbn [pow]. rewrite !RtoC_mult.
    set (K := helmholtz_kernel _ _ _). set (N := RtoC (vdot (p_n p) (p_n q))). set (U := RtoC (vdot (surface_curl _ _ _) _)). set (hh := (/ RtoC (ss_h ss))%C). set (A := RtoC (p_kappa p)). set (B := RtoC (p_kappa q)). set (L := RtoC l). set (L' := RtoC (/ l)).
    assert (CC : (L * L')%C = RtoC 1) by exact cancel. clearbody K N U hh A B L L'. set (s1 := RtoC (shape _ _ _)). set (s2 := RtoC (shape _ _ _)). set (w1 := RtoC (p_w p)). set (w2 := RtoC (p_w q)). clearbody s1 s2 w1 w2.
    transitivity ((L * L') * (- K * (L * L * L * N) * (k * k) * w1 * w2 * (s1 * s2)) + (L * L') * ((L * L') * ((L * L') * (L * (K * A * B * w1 * w2 * hh * hh * U)))))%C; [ring|]. rewrite CC. ring.
  - cbn [op_vd maxwell_sl] in Hrc, Hcc. cbn [op_integrand maxwell_sl]. unfold maxwell_sl_integrand. cbv zeta. rewrite !cdiv_value, !cvector by assumption. cbn [p_f p_s p_w p_dx p_dy scaled_point]. rewrite scaled_h_kernel.
    replace (match rc with O => vscal l (p_dx p) | _ => vscal l (p_dy p) end) with (vscal l (match rc with O => p_dx p | _ => p_dy p end)) by (destruct rc; reflexivity).
    replace (match cc with O => vscal l (p_dx q) | _ => vscal l (p_dy q) end) with (vscal l (match cc with O => p_dx q | _ => p_dy q end)) by (destruct cc; reflexivity).
    rewrite scal_dot. set (D := vdot _ _). set (K := helmholtz_kernel _ _ _). rewrite (square_wave k). set (kk := (RtoC l * k * (RtoC l * k))%C). clearbody kk. unfold no_cmatrix. cbn [pow]. rewrite !RtoC_mult. unfold Cdiv.
    set (ik := (/ kk)%C). set (hh := (/ RtoC (ss_h ss))%C). set (L := RtoC l). set (L' := RtoC (/ l)). assert (CC : (L * L')%C = RtoC 1) by exact cancel. clearbody K D ik hh L L'.
    set (s1 := RtoC (shape _ _ _)). set (s2 := RtoC (shape _ _ _)). set (w1 := RtoC (p_w p)). set (w2 := RtoC (p_w q)). set (g1 := RtoC (grad_shape _ _ _ _)). set (g2 := RtoC (grad_shape _ _ _ _)). clearbody s1 s2 w1 w2 g1 g2.
    transitivity ((L * L') * (L * (K * w1 * w2 * (RtoC D * (s1 * s2)))) + (L * L') * (L * (- (K * w1 * w2) * ik * hh * hh * (g1 * g2))))%C; [ring|]. rewrite CC. ring.
Qed.
Lemma complex_fmm : forall k op' op e p q i j, In (op', op, e) (scaled_complex l k) -> op_fmm op' (scaled_point p) (scaled_point q) i j = (RtoC (l ^ e) * op_fmm op p q i j)%C.
Proof.
  intros k op' op e p q i j HP. unfold scaled_complex in HP. cbv zeta in HP. cbn [In] in HP.
  assert (CC : (RtoC l * RtoC (/ l))%C = RtoC 1) by exact cancel.
  destruct HP as [HP|[HP|[HP|[HP|[HP|[]]]]]]; injection HP as <- <- <-; cbn [op_fmm helmholtz_sl helmholtz_dl helmholtz_adl helmholtz_hs maxwell_sl].
  - unfold helmholtz_sl_fmm. rewrite !scaled_kappa. cbn [p_f scaled_point]. rewrite scaled_h_kernel. cbn [pow]. rewrite !RtoC_mult.
    match goal with |- _ = ?z => transitivity ((RtoC l * RtoC (/ l)) * z)%C; [ring|rewrite CC; ring] end.
  - unfold helmholtz_dl_fmm. rewrite !scaled_kappa, scaled_n, hdl_scal. cbn [p_f scaled_point]. rewrite scaled_hdl_kernel. cbn [pow]. rewrite !RtoC_mult.
    match goal with |- _ = ?z => transitivity ((RtoC l * RtoC (/ l)) * ((RtoC l * RtoC (/ l)) * z))%C; [ring|rewrite CC; ring] end.
  - unfold helmholtz_adl_fmm. rewrite !scaled_kappa, scaled_n, hadl_scal. cbn [p_f scaled_point]. rewrite scaled_hadl_kernel. cbn [pow]. rewrite !RtoC_mult.
    match goal with |- _ = ?z => transitivity ((RtoC l * RtoC (/ l)) * ((RtoC l * RtoC (/ l)) * z))%C; [ring|rewrite CC; ring] end.
  - unfold helmholtz_hs_fmm. cbv zeta. unfold updc. rewrite !scaled_n. cbn [p_f p_dx p_dy scaled_point]. rewrite scaled_h_kernel, !scal_dot. cbn [pow]. rewrite !RtoC_mult.
    repeat match goal with |- context [if ?c then _ else _] => destruct c end;
    match goal with |- _ = ?z => transitivity ((RtoC l * RtoC (/ l)) * z)%C; [ring|rewrite CC; ring] end.
  - unfold maxwell_sl_fmm. cbv zeta. unfold updc. cbn [p_f p_dx p_dy scaled_point]. rewrite scaled_h_kernel, !scal_dot, (square_wave k). set (kk := (RtoC l * k * (RtoC l * k))%C). unfold Cdiv. generalize (/ kk)%C. intros ik. cbn [pow]. rewrite !RtoC_mult.
    repeat match goal with |- context [if ?c then _ else _] => destruct c end;
    match goal with |- _ = ?z => transitivity ((RtoC l * RtoC (/ l)) * z)%C; [ring|rewrite CC; ring] end.
Qed.
Lemma scaled_cases : forall k op' op e, In (op', op, e) (scaled_operators l k) -> In (op', op, e) scaled_real \/
  exists cop' cop, In (cop', cop, e) (scaled_complex l k) /\ (op' = part_of fst cop' /\ op = part_of fst cop \/ op' = part_of snd cop' /\ op = part_of snd cop).
Proof.
  intros k op' op e HP. unfold scaled_operators in HP. apply in_app_or in HP. destruct HP as [HP|HP]; [left; exact HP|right]. apply in_flat_map in HP. destruct HP as [[[cop' cop] e'] [Hc [HP|[HP|[]]]]];
    cbn [fst snd] in HP; injection HP as <- <- <-; exists cop', cop; auto.
Qed.
Lemma scaled_vd : forall k op' op e, In (op', op, e) (scaled_operators l k) -> op_vd op' = op_vd op /\ op_nF op' = op_nF op /\ op_kinds op' = op_kinds op.
Proof.
  intros k op' op e HP. destruct (scaled_cases k op' op e HP) as [Hr|[cop' [cop [Hc W0]]]].
  - unfold scaled_real in Hr. cbn [In] in Hr. destruct Hr as [E|[E|[E|[E|[]]]]]; injection E as <- <- <-; auto.
  - unfold scaled_complex in Hc. cbv zeta in Hc. cbn [In] in Hc. destruct Hc as [E|[E|[E|[E|[E|[]]]]]]; injection E as <- <- <-; destruct W0 as [[-> ->]|[-> ->]]; cbn [part_of op_vd op_nF op_kinds]; auto.
Qed.
Lemma Cscal_fst : forall r z, fst (RtoC r * z)%C = r * fst z.
Proof. intros r [a b]. unfold Cmult, RtoC. cbn [fst snd]. ring. Qed.
Lemma Cscal_snd : forall r z, snd (RtoC r * z)%C = r * snd z.
Proof. intros r [a b]. unfold Cmult, RtoC. cbn [fst snd]. ring. Qed.
Lemma scaled_op_kern : forall k op' op e ss X (e1 e2 : element) s t a b, In (op', op, e) (scaled_operators l k) -> (a < op_vd op * ss_n2 ss)%nat -> (b < op_vd op * ss_n2 ss)%nat ->
  op_kern op' ss (scaled l X) (scaled_element l e1) s (scaled_element l e2) t a b = l ^ e * op_kern op ss X e1 s e2 t a b.
Proof.
  intros k op' op e ss X e1 e2 s t a b HP Ha Hb. unfold op_kern. cbn [scaled_element e_node]. rewrite !scaled_surf.
  destruct (scaled_cases k op' op e HP) as [Hr|[cop' [cop [Hc W0]]]]; [apply real_integrand; assumption|].
  assert (Kp : ss_n2 ss <> 0%nat) by (unfold ss_n2; lia).
  pose proof (Nat.div_mod a (ss_n2 ss) Kp) as Ea. pose proof (Nat.div_mod b (ss_n2 ss) Kp) as Eb. pose proof (Nat.mod_upper_bound a _ Kp) as Ma. pose proof (Nat.mod_upper_bound b _ Kp) as Mb.
  assert (Da : (a / ss_n2 ss < op_vd op)%nat) by (apply Nat.div_lt_upper_bound; lia). assert (Db : (b / ss_n2 ss < op_vd op)%nat) by (apply Nat.div_lt_upper_bound; lia).
  rewrite (Nat.mul_comm (ss_n2 ss)) in Ea, Eb. rewrite Ea, Eb. clear Ea Eb Ha Hb. set (ra := (a / ss_n2 ss)%nat) in *. set (rb := (b / ss_n2 ss)%nat) in *. set (ca := (a mod ss_n2 ss)%nat) in *. set (cb := (b mod ss_n2 ss)%nat) in *. clearbody ra rb ca cb.
  destruct W0 as [[-> ->]|[-> ->]]; cbn [part_of op_integrand op_vd] in *; change zero_cmatrix with no_cmatrix; rewrite (complex_integrand k cop' cop e ss _ _ ra rb ca cb Hc) by assumption; unfold zero_matrix; rewrite ?Cscal_fst, ?Cscal_snd; ring.
Qed.
Lemma scaled_op_fmm : forall k op' op e p q i j, In (op', op, e) (scaled_operators l k) -> op_fmm op' (scaled_point p) (scaled_point q) i j = l ^ e * op_fmm op p q i j.
Proof.
  intros k op' op e p q i j HP. destruct (scaled_cases k op' op e HP) as [Hr|[cop' [cop [Hc W0]]]]; [apply real_fmm; exact Hr|].
  destruct W0 as [[-> ->]|[-> ->]]; cbn [part_of op_fmm]; rewrite (complex_fmm k cop' cop e p q i j Hc), ?Cscal_fst, ?Cscal_snd; reflexivity.
Qed.
(** ** mesh *)
Lemma scaled_corners : forall X P, corners_of (scaled l X) P = map (map (vscal l)) (corners_of X P).
Proof. intros. unfold corners_of. rewrite map_map. apply map_ext. intros p. rewrite map_map. reflexivity. Qed.
Lemma scaled_tree : forall X P M, same_corners l X P -> init_tree close_points (corners_of (scaled l X) P) M = init_tree close_points (corners_of X P) M.
Proof.
  intros X P M HS. rewrite scaled_corners. apply (init_tree_map close_points close_points (vscal l) (fun x => In x (concat (corners_of X P)))); [exact HS|].
  apply Forall_forall. intros c Ic. apply Forall_forall. intros x Ix. apply in_concat. exists c. auto.
Qed.
Lemma scaled_write_element : forall X n pts, write_element (fun p x y => fst (fst (scaled l X p (x, y)))) n (map (option_map (vscal l)) pts) =
  option_map (map (option_map (vscal l))) (write_element (fun p x y => fst (fst (X p (x, y)))) n pts).
Proof.
  intros X n pts. unfold write_element. cbv zeta.
  assert (V : forall k z q, write_vertex n k (vscal l z) (map (option_map (vscal l)) q) = option_map (map (option_map (vscal l))) (write_vertex n k z q)).
  { intros k z q. unfold write_vertex. destruct (get (n_verts n) k); [|reflexivity]. cbn [bind]. apply (set_map (option_map (vscal l)) q n0 (Some z)). }
  unfold scaled. cbn [fst snd]. do 3 (rewrite V; match goal with |- bind (option_map _ ?z) _ = _ => destruct z; [|reflexivity] end; cbn [bind option_map]). apply V.
Qed.
Lemma scaled_point_list : forall X t, point_list (fun p x y => fst (fst (scaled l X p (x, y)))) t = option_map (map (option_map (vscal l))) (point_list (fun p x y => fst (fst (X p (x, y)))) t).
Proof.
  intros X t. unfold point_list. destruct (traverse t) as [q|]; [|reflexivity]. cbn [bind].
  assert (G : forall q pts, write_elements (fun p x y => fst (fst (scaled l X p (x, y)))) (t_store t) q (map (option_map (vscal l)) pts) = option_map (map (option_map (vscal l))) (write_elements (fun p x y => fst (fst (X p (x, y)))) (t_store t) q pts)).
  { clear q. induction q as [|a q IH]; intros pts; [reflexivity|]. cbn [write_elements]. destruct (t_store t a) as [n|]; [|reflexivity]. cbn [bind]. rewrite scaled_write_element.
    destruct (write_element _ n pts) as [pts'|]; [|reflexivity]. cbn [bind option_map]. apply IH. }
  rewrite <- G. f_equal. generalize (t_points t). intros k. induction k as [|k IH]; [reflexivity|]. cbn [repeat map option_map]. rewrite <- IH. reflexivity.
Qed.
Lemma scaled_le : forall a b, l * a <= l * b <-> a <= b.
Proof. intros. split; [apply Rmult_le_reg_l; exact Hl|apply Rmult_le_compat_l; lra]. Qed.
Lemma scaled_enclosing : forall x y, enclosing_ball (scaled_ball l x) (scaled_ball l y) = option_map (scaled_ball l) (enclosing_ball x y).
Proof.
  intros [m1 r1] [m2 r2]. unfold enclosing_ball, scaled_ball. cbn [fst snd]. rewrite scal_dist. set (d := vnorm (vsub m1 m2)).
  destruct (Rle_dec (l * d + l * r2) (l * r1)) as [A|A], (Rle_dec (d + r2) r1) as [A'|A']; [reflexivity|exfalso; apply A'; apply scaled_le; lra|exfalso; apply A; apply scaled_le in A'; lra|].
  destruct (Rle_dec (l * d + l * r1) (l * r2)) as [B|B], (Rle_dec (d + r1) r2) as [B'|B']; [reflexivity|exfalso; apply B'; apply scaled_le; lra|exfalso; apply B; apply scaled_le in B'; lra|].
  destruct (Req_EM_T (l * d) 0) as [Z|Z], (Req_EM_T d 0) as [Z'|Z'].
  - reflexivity.
  - exfalso. apply Rmult_integral in Z. destruct Z; lra.
  - exfalso. apply Z. rewrite Z'. ring.
  - cbn [option_map fst snd]. rewrite scal_sub. f_equal. apply pair_equal_spec. split; [|ring].
    replace ((l * r1 - l * r2) / (l * d)) with ((r1 - r2) / d) by (field; split; lra). generalize ((r1 - r2) / d). intros c. apply vec_eq; unfold vadd, vsub, vscal, vx, vy, vz; cbn [fst snd]; field.
Qed.
Lemma scaled_ball4 : forall a b c d, ball4 (scaled_ball l a) (scaled_ball l b) (scaled_ball l c) (scaled_ball l d) = option_map (scaled_ball l) (ball4 a b c d).
Proof.
  intros. unfold ball4. rewrite !scaled_enclosing. destruct (enclosing_ball a c) as [p|]; [|reflexivity]. destruct (enclosing_ball b d) as [q|]; [|reflexivity]. cbn [bind option_map]. apply scaled_enclosing.
Qed.
Lemma scaled_bset : forall b a x, bset (scaled_balls l b) a (scaled_ball l x) = scaled_balls l (bset b a x).
Proof. intros. apply functional_extensionality. intros c. unfold bset, scaled_balls. destruct (addr_eqb c a); reflexivity. Qed.
Lemma scaled_col : forall P v, col (map (option_map (vscal l)) P) v = option_map (vscal l) (col P v).
Proof. intros. unfold col, get. rewrite nth_error_map. destruct (nth_error P v); reflexivity. Qed.
Lemma scaled_enclose_rec : forall f t P a b, enclose_rec f t (map (option_map (vscal l)) P) a (scaled_balls l b) = option_map (scaled_balls l) (enclose_rec f t P a b).
Proof.
  induction f as [|f IH]; intros t P a b; [reflexivity|]. cbn [enclose_rec]. destruct (t_store t a) as [n|]; [|reflexivity]. cbn [bind]. destruct (n_ref n).
  - do 4 (rewrite IH; match goal with |- bind (option_map _ ?z) _ = _ => destruct z; [|reflexivity] end; cbn [bind option_map]).
    unfold scaled_balls at 1 2 3 4. destruct (b3 (0%nat :: a)) as [x0|]; [|reflexivity]. destruct (b3 (1%nat :: a)) as [x1|]; [|reflexivity]. destruct (b3 (2%nat :: a)) as [x2|]; [|reflexivity]. destruct (b3 (3%nat :: a)) as [x3|]; [|reflexivity].
    cbn [bind option_map]. rewrite scaled_ball4. destruct (ball4 x0 x1 x2 x3) as [x|]; [|reflexivity]. cbn [bind option_map]. rewrite scaled_bset. reflexivity.
  - destruct (get (n_verts n) 0) as [v0|]; [|reflexivity]. destruct (get (n_verts n) 1) as [v1|]; [|reflexivity]. destruct (get (n_verts n) 2) as [v2|]; [|reflexivity]. destruct (get (n_verts n) 3) as [v3|]; [|reflexivity].
    cbn [bind]. rewrite !scaled_col. destruct (col P v0) as [p0|]; [|reflexivity]. destruct (col P v1) as [p1|]; [|reflexivity]. destruct (col P v2) as [p2|]; [|reflexivity]. destruct (col P v3) as [p3|]; [|reflexivity].
    cbn [bind option_map]. pose proof (scaled_ball4 (p0, 0) (p1, 0) (p2, 0) (p3, 0)) as B. unfold scaled_ball at 1 2 3 4 in B. cbn [fst snd] in B. rewrite !Rmult_0_r in B. rewrite B. clear B.
    destruct (ball4 (p0, 0) (p1, 0) (p2, 0) (p3, 0)) as [x|]; [|reflexivity]. cbn [bind option_map]. rewrite scaled_bset. reflexivity.
Qed.
Lemma scaled_enclosings : forall t P, enclosings t (map (option_map (vscal l)) P) = option_map (scaled_balls l) (enclosings t P).
Proof.
  intros t P. unfold enclosings. generalize (t_patches t). intros k. induction k as [|k IH]; [reflexivity|]. cbn [for_opt]. rewrite IH.
  match goal with |- bind (option_map _ ?z) _ = _ => destruct z as [b|]; [|reflexivity] end. cbn [bind option_map]. apply scaled_enclose_rec.
Qed.
Lemma scaled_elements : forall t b q, map_opt (element_of t (scaled_balls l b)) q = option_map (map (scaled_element l)) (map_opt (element_of t b) q).
Proof.
  intros t b q. induction q as [|a q IH]; [reflexivity|]. cbn [map_opt]. unfold element_of at 1 3. destruct (t_store t a) as [n|]; [|reflexivity]. cbn [bind]. unfold scaled_balls at 1. destruct (b a) as [x|]; [|reflexivity]. cbn [bind option_map]. rewrite IH.
  destruct (map_opt (element_of t b) q); reflexivity.
Qed.
Lemma scaled_init_mesh : forall X P M, same_corners l X P -> init_mesh (scaled l X) P M = option_map (scaled_mesh l) (init_mesh X P M).
Proof.
  intros X P M HS. unfold init_mesh. rewrite scaled_tree by exact HS. destruct (init_tree _ _ M) as [t|]; [|reflexivity]. cbn [bind]. rewrite scaled_point_list. destruct (point_list _ t) as [pts|]; [|reflexivity]. cbn [bind option_map].
  rewrite scaled_enclosings. destruct (enclosings t pts) as [b|]; [|reflexivity]. cbn [bind option_map]. destruct (traverse t) as [q|]; [|reflexivity]. cbn [bind]. rewrite scaled_elements. destruct (map_opt _ q); reflexivity.
Qed.
Lemma scaled_near : forall b eta a c, near_of (mid_of (scaled_balls l b)) (rad_of (scaled_balls l b)) eta a c = near_of (mid_of b) (rad_of b) eta a c.
Proof.
  intros. unfold near_of, rad_of, mid_of, scaled_balls. destruct (b a) as [[xa ra]|]; cbn [option_map]; [|reflexivity]. destruct (b c) as [[xc rc]|]; cbn [option_map]; [|reflexivity]. unfold scaled_ball. cbn [fst snd].
  assert (N : forall x y, norm3 x y = vnorm (vsub x y)) by (intros [[x1 x2] x3] [[y1 y2] y3]; unfold norm3, vnorm, vdot, vsub, vx, vy, vz; reflexivity). rewrite !N, scal_dist. cbv zeta.
  replace (l * vnorm (vsub xa xc) - l * ra - l * rc) with (l * (vnorm (vsub xa xc) - ra - rc)) by ring. set (d := vnorm (vsub xa xc) - ra - rc).
  assert (D : (if Rlt_dec 0 (l * d) then l * d else 0) = l * (if Rlt_dec 0 d then d else 0)).
  { destruct (Rlt_dec 0 (l * d)) as [A|A], (Rlt_dec 0 d) as [B|B]; [reflexivity| | |ring].
    - exfalso. apply B. apply Rmult_lt_reg_l with l; [exact Hl|]. rewrite Rmult_0_r. exact A.
    - exfalso. apply A, Rmult_lt_0_compat; assumption. }
  assert (W0 : (if Rlt_dec (l * rc) (l * ra) then l * ra else l * rc) = l * (if Rlt_dec rc ra then ra else rc)).
  { destruct (Rlt_dec (l * rc) (l * ra)) as [A|A], (Rlt_dec rc ra) as [B|B]; try reflexivity.
    - exfalso. apply B. apply Rmult_lt_reg_l with l; assumption.
    - exfalso. apply A, Rmult_lt_compat_l; assumption. }
  rewrite D, W0. set (y := if Rlt_dec rc ra then ra else rc). set (z := if Rlt_dec 0 d then d else 0). replace (eta * (l * z)) with (l * (eta * z)) by ring.
  destruct (Rle_dec (l * (eta * z)) (l * y)) as [A|A], (Rle_dec (eta * z) y) as [B|B]; try reflexivity.
  - exfalso. apply B, scaled_le, A.
  - exfalso. apply A, scaled_le, B.
Qed.
(** ** pairs of elements *)
Lemma scaled_distance : forall e1 e2, element_distance (scaled_element l e1) (scaled_element l e2) = l * element_distance e1 e2.
Proof.
  intros. unfold element_distance. cbv zeta. cbn [scaled_element e_mid e_rad]. rewrite scal_dist. set (d := vnorm _ - e_rad e1 - e_rad e2). replace (l * _ - l * e_rad e1 - l * e_rad e2) with (l * d) by (unfold d; ring).
  destruct (Rle_dec 0 (l * d)) as [A|A], (Rle_dec 0 d) as [B|B]; [reflexivity| | |ring].
  - exfalso. apply B. apply scaled_le. rewrite Rmult_0_r. exact A.
  - exfalso. apply A. apply Rmult_le_pos; [lra|exact B].
Qed.
(** elements with a common vertex have distance 0, so that the threshold of the comparison does not matter *)
Lemma scaled_compare : forall e1 e2, (forall k m, (k < 4)%nat -> (m < 4)%nat -> e_addr e1 <> e_addr e2 -> e_vert e1 k = e_vert e2 m -> element_distance e1 e2 = 0) ->
  compare_elements (scaled_element l e1) (scaled_element l e2) = (fst (compare_elements e1 e2), l * snd (compare_elements e1 e2)).
Proof.
  intros e1 e2 HV. unfold compare_elements. rewrite scaled_distance. cbn [scaled_element e_addr].
  destruct (addr_eqb (e_addr e1) (e_addr e2)) eqn:Ea; [cbn [fst snd]; rewrite Rmult_0_r; reflexivity|]. cbv zeta.
  change (e_level (scaled_element l e1)) with (e_level e1). change (e_vert (scaled_element l e1)) with (e_vert e1). change (e_vert (scaled_element l e2)) with (e_vert e2).
  assert (Na : e_addr e1 <> e_addr e2) by (intros E; rewrite E in Ea; rewrite (proj2 (ProofTree.addr_eqb_eq _ _) eq_refl) in Ea; discriminate).
  assert (Cs : compare_vertices (e_vert e1) (e_vert e2) = (4, 4, 0)%nat \/ element_distance e1 e2 = 0).
  { destruct (find (fun r => (e_vert e1 (fst r) =? e_vert e2 (snd r))%nat) (list_prod (seq 0 4) (seq 0 4))) as [[r1 r2]|] eqn:F.
    - right. apply find_some in F. destruct F as [I0 E]. cbn [fst snd] in E. apply Nat.eqb_eq in E. apply in_prod_iff in I0. destruct I0 as [I1 I2]. apply in_seq in I1. apply in_seq in I2. apply (HV r1 r2); lia || assumption.
    - left. unfold compare_vertices. rewrite F. reflexivity. }
  assert (Thr : 0 <= 1 / 2 / 2 ^ e_level e1) by (apply Rmult_le_pos; [lra|]; apply Rlt_le, Rinv_0_lt_compat, pow_lt; lra).
  destruct Cs as [Cs|Cs].
  - rewrite Cs. destruct (Rlt_dec _ (l * _)), (Rlt_dec _ (element_distance e1 e2)); reflexivity.
  - rewrite Cs, Rmult_0_r. destruct (Rlt_dec _ 0) as [L|L]; [exfalso; lra|]. cbn [fst snd]. rewrite Rmult_0_r. reflexivity.
Qed.
(** the entries of a local matrix *)
Section Entry.
Variables (K K' : kern) (c : R) (a b : nat).
Hypothesis HK : forall e1 s e2 t, K' (scaled_element l e1) s (scaled_element l e2) t a b = c * K e1 s e2 t a b.
Definition scaled_sp (q : surface_point) : surface_point := (scaled_element l (sp_elem q), sp_xi q, sp_w q).
Definition scaled_rel (m' m : mat) : Prop := m' a b = c * m a b.
Lemma scaled_loop : forall n (f g : nat -> mat -> mat) s s', (forall i z z', scaled_rel z z' -> scaled_rel (f i z) (g i z')) -> scaled_rel s s' -> scaled_rel (for_loop n f s) (for_loop n g s').
Proof. intros n f g s s' E E0. induction n as [|n IH]; cbn [for_loop]; auto. Qed.
Lemma scaled_zero : scaled_rel zero_mat zero_mat.
Proof. unfold scaled_rel, zero_mat. ring. Qed.
Lemma scaled_evaluate : forall p q z' z, scaled_rel z' z -> scaled_rel (evaluate_integrand K' (scaled_sp p) (scaled_sp q) z') (evaluate_integrand K p q z).
Proof. intros p q z' z E. unfold scaled_rel, evaluate_integrand, scaled_sp, sp_elem, sp_xi, sp_w in *. cbn [fst snd]. rewrite E, HK. ring. Qed.
Lemma scaled_map : forall e s w, map2surface (scaled_element l e) s w = scaled_sp (map2surface e s w).
Proof. reflexivity. Qed.
Lemma scaled_integrate1 : forall e1 e2 Q, integrate1 K' (scaled_element l e1) (scaled_element l e2) Q a b = c * integrate1 K e1 e2 Q a b.
Proof. intros. unfold integrate1. cbv zeta. apply scaled_loop; [|exact scaled_zero]. intros i z z' Ez. apply scaled_loop; [|exact Ez]. intros j y y' Ey. rewrite !scaled_map. apply scaled_evaluate, Ey. Qed.
Lemma scaled_integrate2 : forall e1 Q, integrate2 K' (scaled_element l e1) Q a b = c * integrate2 K e1 Q a b.
Proof.
  intros. unfold integrate2. cbv zeta. apply scaled_loop; [|exact scaled_zero]. intros i z z' Ez. apply scaled_loop; [|exact Ez]. intros j y y' Ey. apply scaled_loop; [|exact Ey]. intros k x x' Ex. rewrite !scaled_map. do 2 apply scaled_evaluate. exact Ex.
Qed.
Lemma scaled_integrate3 : forall e1 r1 e2 r2 Q, integrate3 K' (scaled_element l e1) r1 (scaled_element l e2) r2 Q a b = c * integrate3 K e1 r1 e2 r2 Q a b.
Proof.
  intros. unfold integrate3. cbv zeta. apply scaled_loop; [|exact scaled_zero]. intros i z z' Ez. apply scaled_loop; [|exact Ez]. intros j y y' Ey. rewrite !scaled_map. do 6 apply scaled_evaluate. exact Ey.
Qed.
Lemma scaled_integrate4 : forall e1 r1 e2 r2 Q, integrate4 K' (scaled_element l e1) r1 (scaled_element l e2) r2 Q a b = c * integrate4 K e1 r1 e2 r2 Q a b.
Proof.
  intros. unfold integrate4. cbv zeta. apply scaled_loop; [|exact scaled_zero]. intros i z z' Ez. apply scaled_loop; [|exact Ez]. intros j y y' Ey. rewrite !scaled_map. do 4 apply scaled_evaluate. exact Ey.
Qed.
End Entry.
End Scale.
