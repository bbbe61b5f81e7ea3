(** Lemmas about the wave number zero and conjugate waves. *)
From Coq Require Import Reals Lra Lia Arith Bool List ZArith QArith Qreals FunctionalExtensionality.
From Coquelicot Require Import Complex.
From Verif Require Import RSum ModelBase ModelBernstein ModelTree ModelBall ModelBlock ModelH2 ModelH2Init ModelQuad ModelDuffy ModelAssembly ModelOperators ModelForms ModelPipeline SpecOperators SpecH2 ProofNearFar ProofOperators PropOperators PropNearFar ProofMotion.
From Verif Require Import ProofScale SpecWave.
Import ListNotations.
Local Close Scope Q_scope.
Local Open Scope R_scope.

(** ** conjugation *)
Lemma cj_mult : forall a b : Complex.C, Cconj (a * b)%C = (Cconj a * Cconj b)%C.
Proof. intros [a1 a2] [b1 b2]. unfold Cconj, Cmult. cbn [fst snd]. f_equal; ring. Qed.
Lemma cj_plus : forall a b : Complex.C, Cconj (a + b)%C = (Cconj a + Cconj b)%C.
Proof. intros [a1 a2] [b1 b2]. unfold Cconj, Cplus. cbn [fst snd]. f_equal; ring. Qed.
Lemma cj_opp : forall a : Complex.C, Cconj (- a)%C = (- Cconj a)%C.
Proof. intros [a1 a2]. reflexivity. Qed.
Lemma cj_real : forall r, Cconj (RtoC r) = RtoC r.
Proof. intros. unfold Cconj, RtoC. cbn [fst snd]. f_equal. ring. Qed.
Lemma cj_inv : forall a : Complex.C, Cconj (/ a)%C = (/ Cconj a)%C.
Proof. intros [a1 a2]. unfold Cconj, Cinv. cbn [fst snd]. replace ((- a2) ^ 2) with (a2 ^ 2) by ring. f_equal; unfold Rdiv; ring. Qed.
Ltac cj := repeat first [rewrite cj_plus|rewrite cj_mult|rewrite cj_opp|rewrite cj_inv|rewrite cj_real].
Lemma cj_wave : forall k, (conjugate_wave k * conjugate_wave k)%C = Cconj (k * k)%C.
Proof. intros [a b]. unfold conjugate_wave, Cconj, Cmult. cbn [fst snd]. f_equal; ring. Qed.
Lemma cj_exp : forall k r, cexp (- Ci * conjugate_wave k * RtoC r)%C = Cconj (cexp (- Ci * k * RtoC r)%C).
Proof.
  intros [a b] r. unfold cexp, conjugate_wave, Cconj, Cmult, Copp, Ci, RtoC. cbn [fst snd].
  match goal with |- (exp ?e * cos ?c, exp ?e' * sin ?c') = (exp ?e1 * cos ?c1, - (exp ?e2 * sin ?c2)) => replace e with e1 by ring; replace c with (- c1) by ring end. rewrite cos_neg, sin_neg. f_equal. ring.
Qed.
Lemma cj_factor : forall k r, (RtoC 1 + Ci * conjugate_wave k * RtoC r)%C = Cconj (RtoC 1 + Ci * k * RtoC r)%C.
Proof. intros [a b] r. unfold conjugate_wave, Cconj, Cmult, Cplus, Ci, RtoC. cbn [fst snd]. f_equal; ring. Qed.
Lemma cj_kernel : forall k x y, helmholtz_kernel (conjugate_wave k) x y = Cconj (helmholtz_kernel k x y).
Proof. intros. unfold helmholtz_kernel, Cdiv. cbv zeta. rewrite cj_exp, !cj_mult, !cj_inv, !cj_real. reflexivity. Qed.
Lemma cj_dl_kernel : forall k x y n, helmholtz_dl_kernel (conjugate_wave k) x y n = Cconj (helmholtz_dl_kernel k x y n).
Proof. intros. unfold helmholtz_dl_kernel, Cdiv. cbv zeta. rewrite cj_exp, cj_factor, !cj_mult, !cj_inv, !cj_real. reflexivity. Qed.
Lemma cj_adl_kernel : forall k x n y, helmholtz_adl_kernel (conjugate_wave k) x n y = Cconj (helmholtz_adl_kernel k x n y).
Proof. intros. rewrite !C59_adjoint_kernel. apply cj_dl_kernel. Qed.

(** ** the wave number zero *)
Lemma zero_exp : forall r, cexp (- Ci * RtoC 0 * RtoC r)%C = RtoC 1.
Proof. intros. replace (- Ci * RtoC 0 * RtoC r)%C with (RtoC 0) by ring. unfold cexp, RtoC. cbn [fst snd]. rewrite exp_0, cos_0, sin_0. f_equal; ring. Qed.
Lemma zero_kernel : forall x y, helmholtz_kernel (RtoC 0) x y = RtoC (laplace_kernel x y).
Proof. intros. unfold helmholtz_kernel, laplace_kernel, Cdiv. cbv zeta. rewrite zero_exp, !Cinv_real, <- !RtoC_mult. f_equal. Qed.
Lemma zero_dl_kernel : forall x y n, helmholtz_dl_kernel (RtoC 0) x y n = RtoC (laplace_dl_kernel x y n).
Proof.
  intros. unfold helmholtz_dl_kernel, laplace_dl_kernel, Cdiv. cbv zeta. rewrite zero_exp, !Cinv_real. replace (RtoC 1 + Ci * RtoC 0 * RtoC (vnorm (vsub x y)))%C with (RtoC 1) by ring. rewrite <- !RtoC_mult. f_equal. unfold Rdiv. ring.
Qed.
Lemma zero_adl_kernel : forall x n y, helmholtz_adl_kernel (RtoC 0) x n y = RtoC (laplace_adl_kernel x n y).
Proof.
  intros. unfold helmholtz_adl_kernel, laplace_adl_kernel, Cdiv. cbv zeta. rewrite zero_exp, !Cinv_real. replace (RtoC 1 + Ci * RtoC 0 * RtoC (vnorm (vsub x y)))%C with (RtoC 1) by ring. rewrite <- !RtoC_mult. f_equal. unfold Rdiv. ring.
Qed.
Lemma norm_normalized : forall n, vscal (vnorm n) (vnormalized n) = n.
Proof.
  intros n. unfold vnormalized. destruct (Rlt_dec 0 (vdot n n)) as [L|L].
  - assert (N : 0 < vnorm n) by (apply sqrt_lt_R0; exact L). apply vec_eq; unfold vscal, vx, vy, vz; cbn [fst snd]; field; lra.
  - destruct n as [[a b] c]. unfold vdot, vx, vy, vz in L. cbn [fst snd] in L. assert (a = 0) by nra. assert (b = 0) by nra. assert (c = 0) by nra. subst. apply vec_eq; unfold vscal, vx, vy, vz; cbn [fst snd]; ring.
Qed.
Lemma zero_normal : forall x y p, laplace_dl_kernel x y (vnormalized (p_n p)) * p_kappa p = laplace_dl_kernel x y (p_n p).
Proof. intros. rewrite <- (norm_normalized (p_n p)) at 2. rewrite dl_scal. unfold p_kappa. ring. Qed.

(** ** operators *)
Lemma cj_integrand : forall k c ss p q rc cc i j, (c < 5)%nat -> let op' := nth c (wave_operators (conjugate_wave k)) (helmholtz_sl k) in let op := nth c (wave_operators k) (helmholtz_sl k) in
  (rc < op_vd op)%nat -> (cc < op_vd op)%nat -> (i < ss_n2 ss)%nat -> (j < ss_n2 ss)%nat ->
  op_integrand op' ss p q no_cmatrix (rc * ss_n2 ss + i)%nat (cc * ss_n2 ss + j)%nat = Cconj (op_integrand op ss p q no_cmatrix (rc * ss_n2 ss + i)%nat (cc * ss_n2 ss + j)%nat).
Proof.
  intros k c ss p q rc cc i j Hc op' op Hrc Hcc Hi Hj. subst op' op. destruct c as [|[|[|[|[|c]]]]]; [..|lia]; cbn [nth wave_operators] in *.
  1-4: cbn [op_vd helmholtz_sl helmholtz_dl helmholtz_adl helmholtz_hs] in Hrc, Hcc; assert (rc = 0%nat) by lia; assert (cc = 0%nat) by lia; subst rc cc; rewrite !Nat.mul_0_l, !Nat.add_0_l;
    cbn [op_integrand helmholtz_sl helmholtz_dl helmholtz_adl helmholtz_hs].
  - unfold helmholtz_sl_integrand. rewrite !cinteraction by assumption. rewrite cj_kernel, !cj_plus, !cj_mult, !cj_real. unfold no_cmatrix. rewrite ?cj_real. reflexivity.
  - unfold helmholtz_dl_integrand. rewrite !cinteraction by assumption. rewrite cj_dl_kernel, !cj_plus, !cj_mult, !cj_real. unfold no_cmatrix. rewrite ?cj_real. reflexivity.
  - unfold helmholtz_adl_integrand. rewrite !cinteraction by assumption. rewrite cj_adl_kernel, !cj_plus, !cj_mult, !cj_real. unfold no_cmatrix. rewrite ?cj_real. reflexivity.
  - unfold helmholtz_hs_integrand. cbv zeta. rewrite !ccurl, !cinteraction by assumption. rewrite cj_wave, !cj_kernel. unfold Cdiv, no_cmatrix. cj. reflexivity.
  - cbn [op_vd maxwell_sl] in Hrc, Hcc. cbn [op_integrand maxwell_sl]. unfold maxwell_sl_integrand. cbv zeta. rewrite !cdiv_value, !cvector by assumption. rewrite cj_wave, !cj_kernel. unfold Cdiv, no_cmatrix. cj. reflexivity.
Qed.
Lemma cj_fmm : forall k c p q i j, (c < 5)%nat -> op_fmm (nth c (wave_operators (conjugate_wave k)) (helmholtz_sl k)) p q i j = Cconj (op_fmm (nth c (wave_operators k) (helmholtz_sl k)) p q i j).
Proof.
  intros k c p q i j Hc. destruct c as [|[|[|[|[|c]]]]]; [..|lia]; cbn [nth wave_operators op_fmm helmholtz_sl helmholtz_dl helmholtz_adl helmholtz_hs maxwell_sl].
  - unfold helmholtz_sl_fmm. rewrite cj_kernel, !cj_mult, !cj_real. reflexivity.
  - unfold helmholtz_dl_fmm. rewrite cj_dl_kernel, !cj_mult, !cj_real. reflexivity.
  - unfold helmholtz_adl_fmm. rewrite cj_adl_kernel, !cj_mult, !cj_real. reflexivity.
  - unfold helmholtz_hs_fmm, updc. cbv zeta. rewrite cj_wave, !cj_kernel. repeat match goal with |- context [if ?b then _ else _] => destruct b end; rewrite ?cj_mult, ?cj_opp, ?cj_mult, ?cj_real; reflexivity.
  - unfold maxwell_sl_fmm, updc, Cdiv. cbv zeta. rewrite cj_wave, !cj_kernel. repeat match goal with |- context [if ?b then _ else _] => destruct b end; rewrite ?cj_mult, ?cj_inv, ?cj_opp, ?cj_mult, ?cj_real; reflexivity.
Qed.
Definition zero_operators : list (operator cmat * operator mat) :=
  [(helmholtz_sl (RtoC 0), laplace_sl); (helmholtz_dl (RtoC 0), laplace_dl); (helmholtz_adl (RtoC 0), laplace_adl); (helmholtz_hs (RtoC 0), laplace_hs)].
Lemma zero_integrand : forall cop op ss p q i j, In (cop, op) zero_operators -> (i < ss_n2 ss)%nat -> (j < ss_n2 ss)%nat ->
  op_integrand cop ss p q no_cmatrix i j = RtoC (op_integrand op ss p q no_matrix i j).
Proof.
  intros cop op ss p q i j H Hi Hj. unfold zero_operators in H. cbn [In] in H. destruct H as [H|[H|[H|[H|[]]]]]; injection H as <- <-; cbn [op_integrand helmholtz_sl helmholtz_dl helmholtz_adl helmholtz_hs laplace_sl laplace_dl laplace_adl laplace_hs].
  - unfold helmholtz_sl_integrand, laplace_sl_integrand. rewrite cinteraction, interaction_value by assumption. rewrite zero_kernel. unfold no_cmatrix, no_matrix. rewrite <- !RtoC_mult, <- RtoC_plus. reflexivity.
  - unfold helmholtz_dl_integrand, laplace_dl_integrand. cbv zeta. rewrite cinteraction, interaction_value by assumption. rewrite zero_dl_kernel, zero_normal. unfold no_cmatrix, no_matrix. rewrite <- !RtoC_mult, <- RtoC_plus. reflexivity.
  - unfold helmholtz_adl_integrand, laplace_adl_integrand. rewrite cinteraction, interaction_value by assumption. rewrite zero_adl_kernel. unfold no_cmatrix, no_matrix. rewrite <- !RtoC_mult, <- RtoC_plus. reflexivity.
  - unfold helmholtz_hs_integrand, laplace_hs_integrand, Cdiv. cbv zeta. rewrite ccurl, cinteraction, curl_value by assumption. rewrite zero_kernel, !Cinv_real. unfold no_cmatrix, no_matrix. rewrite <- ?RtoC_opp, <- !RtoC_mult, <- !RtoC_plus. f_equal. unfold Rdiv. ring.
Qed.
Lemma zero_fmm : forall cop op p q i j, In (cop, op) [(helmholtz_sl (RtoC 0), laplace_sl); (helmholtz_dl (RtoC 0), laplace_dl); (helmholtz_adl (RtoC 0), laplace_adl)] -> op_fmm cop p q i j = RtoC (op_fmm op p q i j).
Proof.
  intros cop op p q i j H. cbn [In] in H. destruct H as [H|[H|[H|[]]]]; injection H as <- <-; cbn [op_fmm helmholtz_sl helmholtz_dl helmholtz_adl laplace_sl laplace_dl laplace_adl].
  - unfold helmholtz_sl_fmm, laplace_sl_fmm. rewrite zero_kernel, <- !RtoC_mult. reflexivity.
  - unfold helmholtz_dl_fmm, laplace_dl_fmm. rewrite zero_dl_kernel, <- !RtoC_mult. reflexivity.
  - unfold helmholtz_adl_fmm, laplace_adl_fmm. rewrite zero_adl_kernel, <- !RtoC_mult. reflexivity.
Qed.
(** the cases *)
Lemma wave_cases : forall k op' op s, In (op', op, s) (wave_pairs k) ->
  (exists cop, In (cop, op) zero_operators /\ (op' = part_of fst cop /\ s = 1 \/ op' = part_of snd cop /\ s = 0)) \/
  (exists c, (c < 5)%nat /\ let cop' := nth c (wave_operators (conjugate_wave k)) (helmholtz_sl k) in let cop := nth c (wave_operators k) (helmholtz_sl k) in
     (op' = part_of fst cop' /\ op = part_of fst cop /\ s = 1 \/ op' = part_of snd cop' /\ op = part_of snd cop /\ s = -1)).
Proof.
  intros k op' op s H. unfold wave_pairs, wave_same, wave_zero, wave_conjugate in H. cbn [combine wave_operators flat_map app In fst snd] in H.
  do 6 (destruct H as [H|H]; [left; injection H as <- <- <-; unfold zero_operators; cbn [In]; eexists; split; [|first [left; split; reflexivity|right; split; reflexivity]]; auto|]).
  do 2 (destruct H as [H|H]; [right; injection H as <- <- <-; exists 0%nat; split; [lia|]; cbn [nth]; auto|]). do 2 (destruct H as [H|H]; [right; injection H as <- <- <-; exists 1%nat; split; [lia|]; cbn [nth]; auto|]).
  do 2 (destruct H as [H|H]; [right; injection H as <- <- <-; exists 2%nat; split; [lia|]; cbn [nth]; auto|]). do 2 (destruct H as [H|H]; [right; injection H as <- <- <-; exists 3%nat; split; [lia|]; cbn [nth]; auto|]).
  do 2 (destruct H as [H|H]; [right; injection H as <- <- <-; exists 4%nat; split; [lia|]; cbn [nth]; auto|]).
  do 2 (destruct H as [H|H]; [left; injection H as <- <- <-; unfold zero_operators; cbn [In]; eexists; split; [|first [left; split; reflexivity|right; split; reflexivity]]; auto|]). destruct H.
Qed.
Lemma wave_vd : forall k op' op s, In (op', op, s) (wave_pairs k) -> op_vd op' = op_vd op.
Proof.
  intros k op' op s H. unfold wave_pairs, wave_same, wave_zero, wave_conjugate in H. cbn [combine wave_operators flat_map app In fst snd] in H.
  repeat (destruct H as [H|H]; [injection H as <- <- <-; reflexivity|]). destruct H.
Qed.
Lemma wave_sub : forall k x, In x (wave_same k) -> In x (wave_pairs k).
Proof. intros. unfold wave_pairs. apply in_or_app. left. assumption. Qed.
Lemma wave_nF : forall k op' op s, In (op', op, s) (wave_same k) -> op_nF op' = op_nF op /\ op_kinds op' = op_kinds op.
Proof.
  intros k op' op s H. unfold wave_same, wave_zero, wave_conjugate in H. cbn [combine wave_operators flat_map app In fst snd] in H.
  repeat (destruct H as [H|H]; [injection H as <- <- <-; split; reflexivity|]). destruct H.
Qed.
Lemma wave_library : forall k op' op s, In (op', op, s) (wave_pairs k) -> In op (library_operators k).
Proof.
  intros k op' op s H. unfold wave_pairs, wave_same, wave_zero, wave_conjugate, library_operators in *. cbn [combine wave_operators flat_map app In fst snd] in *.
  repeat (destruct H as [H|H]; [injection H as <- <- <-; auto 20|]). destruct H.
Qed.
Lemma wave_kern : forall k op' op s ss X (e1 e2 : element) x y a b, In (op', op, s) (wave_pairs k) -> (a < op_vd op * ss_n2 ss)%nat -> (b < op_vd op * ss_n2 ss)%nat ->
  op_kern op' ss X e1 x e2 y a b = s * op_kern op ss X e1 x e2 y a b.
Proof.
  intros k op' op s ss X e1 e2 x y a b H Ha Hb. unfold op_kern. set (p := surf_point X (e_node e1) x 1). set (q := surf_point X (e_node e2) y 1). clearbody p q.
  destruct (wave_cases k op' op s H) as [[cop [Hc W0]]|[c [Hc W0]]].
  - assert (Vd : op_vd op = 1%nat) by (unfold zero_operators in Hc; cbn [In] in Hc; destruct Hc as [Q|[Q|[Q|[Q|[]]]]]; injection Q as <- <-; reflexivity). rewrite Vd, Nat.mul_1_l in Ha, Hb.
    destruct W0 as [[-> ->]|[-> ->]]; cbn [part_of op_integrand]; change zero_cmatrix with no_cmatrix; rewrite (zero_integrand cop op ss p q a b Hc Ha Hb); change zero_matrix with no_matrix; unfold no_matrix at 1, RtoC; cbn [fst snd]; ring.
  - assert (Kp : ss_n2 ss <> 0%nat) by (unfold ss_n2; lia).
    pose proof (Nat.div_mod a (ss_n2 ss) Kp) as Ea. pose proof (Nat.div_mod b (ss_n2 ss) Kp) as Eb. pose proof (Nat.mod_upper_bound a _ Kp) as Ma. pose proof (Nat.mod_upper_bound b _ Kp) as Mb.
    assert (Da : (a / ss_n2 ss < op_vd op)%nat) by (apply Nat.div_lt_upper_bound; lia). assert (Db : (b / ss_n2 ss < op_vd op)%nat) by (apply Nat.div_lt_upper_bound; lia).
    rewrite (Nat.mul_comm (ss_n2 ss)) in Ea, Eb. rewrite Ea, Eb. clear Ea Eb Ha Hb. set (ra := (a / ss_n2 ss)%nat) in *. set (rb := (b / ss_n2 ss)%nat) in *. set (ca := (a mod ss_n2 ss)%nat) in *. set (cb := (b mod ss_n2 ss)%nat) in *. clearbody ra rb ca cb.
    cbv zeta in W0. destruct W0 as [[-> [-> ->]]|[-> [-> ->]]]; cbn [part_of op_integrand op_vd] in *; change zero_cmatrix with no_cmatrix; rewrite (cj_integrand k c ss p q ra rb ca cb Hc Da Db Ma Mb); unfold zero_matrix, Cconj; cbn [fst snd]; ring.
Qed.
Lemma wave_fmm : forall k op' op s p q i j, In (op', op, s) (wave_same k) -> op_fmm op' p q i j = s * op_fmm op p q i j.
Proof.
  intros k op' op s p q i j H. unfold wave_same in H. apply in_app_or in H. destruct H as [H|H].
  - unfold wave_zero in H. apply in_flat_map in H. destruct H as [[cop r] [Hc H]]. cbn [fst snd In] in H. destruct H as [H|[H|[]]]; injection H as <- <- <-; cbn [part_of op_fmm]; rewrite (zero_fmm cop r p q i j Hc); unfold RtoC; cbn [fst snd]; ring.
  - assert (G : In (op', op, s) (wave_pairs k)) by (apply wave_sub; unfold wave_same; apply in_or_app; right; exact H). unfold wave_conjugate in H. cbn [combine wave_operators flat_map app In fst snd] in H.
    do 2 (destruct H as [H|H]; [injection H as <- <- <-; cbn [part_of op_fmm]; pose proof (cj_fmm k 0 p q i j ltac:(lia)) as Q; cbn [nth wave_operators] in Q; rewrite Q; unfold Cconj; cbn [fst snd]; ring|]).
    do 2 (destruct H as [H|H]; [injection H as <- <- <-; cbn [part_of op_fmm]; pose proof (cj_fmm k 1 p q i j ltac:(lia)) as Q; cbn [nth wave_operators] in Q; rewrite Q; unfold Cconj; cbn [fst snd]; ring|]).
    do 2 (destruct H as [H|H]; [injection H as <- <- <-; cbn [part_of op_fmm]; pose proof (cj_fmm k 2 p q i j ltac:(lia)) as Q; cbn [nth wave_operators] in Q; rewrite Q; unfold Cconj; cbn [fst snd]; ring|]).
    do 2 (destruct H as [H|H]; [injection H as <- <- <-; cbn [part_of op_fmm]; pose proof (cj_fmm k 3 p q i j ltac:(lia)) as Q; cbn [nth wave_operators] in Q; rewrite Q; unfold Cconj; cbn [fst snd]; ring|]).
    do 2 (destruct H as [H|H]; [injection H as <- <- <-; cbn [part_of op_fmm]; pose proof (cj_fmm k 4 p q i j ltac:(lia)) as Q; cbn [nth wave_operators] in Q; rewrite Q; unfold Cconj; cbn [fst snd]; ring|]). destruct H.
Qed.

(** ** forms of pairs of elements *)
Section Entry.
Variables (K K' : kern) (c : R) (a b : nat).
Hypothesis HK : forall e1 s e2 t, K' e1 s e2 t a b = c * K e1 s e2 t a b.
Definition wave_rel (z' z : mat) : Prop := z' a b = c * z a b.
Lemma wave_loop : forall n (f g : nat -> mat -> mat) s s', (forall i z z', wave_rel z z' -> wave_rel (f i z) (g i z')) -> wave_rel s s' -> wave_rel (for_loop n f s) (for_loop n g s').
Proof. intros n f g s s' E E0. induction n as [|n IH]; cbn [for_loop]; auto. Qed.
Lemma wave_rel_zero : wave_rel zero_mat zero_mat.
Proof. unfold wave_rel, zero_mat. ring. Qed.
Lemma wave_evaluate : forall p q z' z, wave_rel z' z -> wave_rel (evaluate_integrand K' p q z') (evaluate_integrand K p q z).
Proof. intros p q z' z E. unfold wave_rel, evaluate_integrand, sp_elem, sp_xi, sp_w in *. cbn [fst snd]. rewrite E, HK. ring. Qed.
Lemma wave_form : forall p order GS e1 e2 f1 f2, 
  match evaluate_bilinear_form K' p order GS e1 e2 f1 f2, evaluate_bilinear_form K p order GS e1 e2 f1 f2 with
  | Some z', Some z => z' a b = c * z a b | None, None => True | _, _ => False end.
Proof.
  intros. unfold evaluate_bilinear_form. destruct (compare_elements e1 e2) as [[[r1 r2] cs] d]. cbn [fst snd].
  set (nf := if (farfield_degree p order <=? _)%Z then _ else _). destruct (nf <? max_quadrature_degree)%Z; [|exact I]. set (Q := GS nf).
  destruct cs as [|[|[|[|[|cs]]]]]; try exact I; [destruct (nf =? _)%Z| | |].
  - unfold integrate0. apply wave_loop; [|exact wave_rel_zero]. intros i z z' Ez. apply wave_loop; [|exact Ez]. intros j y y' Ey. apply wave_evaluate, Ey.
  - unfold integrate1. cbv zeta. apply wave_loop; [|exact wave_rel_zero]. intros i z z' Ez. apply wave_loop; [|exact Ez]. intros j y y' Ey. apply wave_evaluate, Ey.
  - unfold integrate2. cbv zeta. apply wave_loop; [|exact wave_rel_zero]. intros i z z' Ez. apply wave_loop; [|exact Ez]. intros j y y' Ey. apply wave_loop; [|exact Ey]. intros k x x' Ex. do 2 apply wave_evaluate. exact Ex.
  - unfold integrate3. cbv zeta. apply wave_loop; [|exact wave_rel_zero]. intros i z z' Ez. apply wave_loop; [|exact Ez]. intros j y y' Ey. do 6 apply wave_evaluate. exact Ey.
  - unfold integrate4. cbv zeta. apply wave_loop; [|exact wave_rel_zero]. intros i z z' Ez. apply wave_loop; [|exact Ez]. intros j y y' Ey. do 4 apply wave_evaluate. exact Ey.
Qed.
End Entry.
Lemma wave_op_form : forall k op' op s ss X order GS els e1 e2 a b, In (op', op, s) (wave_pairs k) -> (a < op_vd op * ss_n2 ss)%nat -> (b < op_vd op * ss_n2 ss)%nat ->
  op_form op' ss X order GS els e1 e2 a b = s * op_form op ss X order GS els e1 e2 a b.
Proof.
  intros k op' op s ss X order GS els e1 e2 a b Hop Ha Hb. unfold op_form. cbv zeta. destruct (compute_ffield_qnodes _ els) as [ff|]; [|cbn; unfold zero_mat; ring]. cbn [bind].
  destruct (get els (n_id e1)) as [E1|]; [|cbn; unfold zero_mat; ring]. destruct (get els (n_id e2)) as [E2|]; [|cbn; unfold zero_mat; ring].
  destruct (get ff (n_id e1)) as [f1|]; [|cbn; unfold zero_mat; ring]. destruct (get ff (n_id e2)) as [f2|]; [|cbn; unfold zero_mat; ring].
  cbn [bind]. destruct f1 as [f1|]; [|cbn; unfold zero_mat; ring]. destruct f2 as [f2|]; [|cbn; unfold zero_mat; ring]. cbn [bind].
  pose proof (wave_form (op_kern op ss X) (op_kern op' ss X) s a b (fun c1 x c2 y => wave_kern k op' op s ss X c1 c2 x y a b Hop Ha Hb)) as MF.
  match goal with |- context [evaluate_bilinear_form _ ?p order GS _ _ _ _] => specialize (MF p order GS E1 E2 f1 f2) end.
  destruct (evaluate_bilinear_form (op_kern op' ss X) _ _ _ _ _ _ _) as [z'|], (evaluate_bilinear_form (op_kern op ss X) _ _ _ _ _ _ _) as [z|]; try contradiction; [exact MF|unfold zero_mat; ring].
Qed.

(** ** the hypersingular operator for the wave number zero on a pair of clusters: its first component is zero, the others are those of the
    Laplace operator *)
Lemma wave_hs : forall k op' op s, In (op', op, s) (wave_pairs k) -> In (op', op, s) (wave_same k) \/
  (op_vd op = 1%nat /\ op_nF op' = 3%nat /\ op_nF op = 2%nat /\ (forall c f, op_kinds op' c (S f) = op_kinds op c f) /\
   (forall p q i j, i = 0%nat \/ j = 0%nat -> op_fmm op' p q i j = 0) /\ (forall p q i j, op_fmm op' p q (S i) (S j) = s * op_fmm op p q i j)).
Proof.
  intros k op' op s H. unfold wave_pairs in H. apply in_app_or in H. destruct H as [H|H]; [left; exact H|right]. cbn [In] in H.
  destruct H as [H|[H|[]]]; injection H as <- <- <-; (split; [reflexivity|]; split; [reflexivity|]; split; [reflexivity|]; split; [intros c [|f]; reflexivity|]); cbn [part_of op_fmm helmholtz_hs laplace_hs]; unfold helmholtz_hs_fmm, laplace_hs_fmm, updc, updm; cbv zeta;
    (split; [intros p q i j; rewrite zero_kernel; intros [->| ->]; [destruct j as [|j]|destruct i as [|i]]; cbn [Nat.eqb andb]; rewrite ?andb_false_r; cbn [andb]; unfold RtoC, Cmult, Copp; cbn [fst snd]; try ring
            |intros p q i j; rewrite zero_kernel; destruct i as [|[|[|i]]], j as [|[|[|j]]]; cbn [Nat.eqb andb]; unfold RtoC, Cmult, Copp; cbn [fst snd]; try ring]).
Qed.
Lemma wave_shift : forall np (a a' c c' : nat -> R) (F F' : mat) s, (forall r, a' (np + r)%nat = a r) -> (forall r, c' (np + r)%nat = c r) -> (forall u v, (u < np)%nat \/ (v < np)%nat -> F' u v = 0) ->
  (forall u v, F' (np + u)%nat (np + v)%nat = s * F u v) ->
  rsum (fun u => rsum (fun v => a' u * F' u v * c' v) (3 * np)) (3 * np) = s * rsum (fun u => rsum (fun v => a u * F u v * c v) (2 * np)) (2 * np).
Proof.
  intros np a a' c c' F F' s Ha Hc F0 FS. replace (3 * np)%nat with (np + 2 * np)%nat by lia. rewrite rsum_split.
  rewrite (rsum_zero (fun u => rsum (fun v => a' u * F' u v * c' v) (np + 2 * np)) np) by (intros u Hu; apply rsum_zero; intros v Hv; rewrite F0 by (left; exact Hu); ring).
  rewrite Rplus_0_l, <- rsum_scal. apply rsum_ext. intros u Hu. rewrite rsum_split. rewrite (rsum_zero (fun v => a' (np + u)%nat * F' (np + u)%nat v * c' v) np) by (intros v Hv; rewrite F0 by (right; exact Hv); ring).
  rewrite Rplus_0_l, <- rsum_scal. apply rsum_ext. intros v Hv. rewrite Ha, Hc, FS. ring.
Qed.
Lemma wave_div : forall np r, (0 < np)%nat -> ((np + r) / np = S (r / np) /\ (np + r) mod np = r mod np)%nat.
Proof.
  intros np r Hp. replace (np + r)%nat with (r + 1 * np)%nat by lia. rewrite Nat.div_add, Nat.mod_add by lia. split; [lia|reflexivity].
Qed.
Lemma wave_basis : forall np mc (mom mom' T : mat), (0 < np)%nat -> (forall r d, mom' (np + r)%nat d = mom r d) -> forall f row d, SpecH2.basis np mc mom' T f (np + row)%nat d = SpecH2.basis np mc mom T f row d.
Proof.
  intros np mc mom mom' T Hp HM f. induction f as [|f IH]; intros row d; cbn [SpecH2.basis]; [apply HM|].
  apply rsum_ext. intros u Hu. destruct (wave_div np row Hp) as [-> ->]. replace (S (row / np) * np + u)%nat with (np + (row / np * np + u))%nat by lia. rewrite IH. reflexivity.
Qed.
Lemma wave_library' : forall k op' op s, In (op', op, s) (wave_pairs k) -> exists k', In op' (library_operators k').
Proof.
  intros k op' op s H. unfold wave_pairs, wave_same, wave_zero, wave_conjugate in *. cbn [combine wave_operators flat_map app In fst snd] in *.
  do 6 (destruct H as [H|H]; [injection H as <- <- <-; exists (RtoC 0); unfold library_operators; cbn [flat_map app In]; auto 20|]).
  do 10 (destruct H as [H|H]; [injection H as <- <- <-; exists (conjugate_wave k); unfold library_operators; cbn [flat_map app In]; auto 20|]).
  do 2 (destruct H as [H|H]; [injection H as <- <- <-; exists (RtoC 0); unfold library_operators; cbn [flat_map app In]; auto 20|]). destruct H.
Qed.
