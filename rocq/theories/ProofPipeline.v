(** Lemmas about the computations as a whole: entries of local matrices, operators with exchanged points. *)
From Coq Require Import Reals Lra Lia Arith Bool List ZArith QArith Qreals.
From Coquelicot Require Import Complex.
From Verif Require Import RSum ModelBase ModelBernstein ModelTree ModelBall ModelQuad ModelAssembly ModelDuffy ModelOperators ModelPipeline.
From Verif Require Import SpecTree ProofTree ProofTreeWF ProofTreeGeo SpecBernstein SpecOperators ProofNearFar ProofOperators PropOperators PropNearFar.
Import ListNotations.
Local Close Scope Q_scope.
Local Open Scope R_scope.

(** ** an entry of a local matrix depends on the same entry of the integrand only *)
Section Entry.
Variables (K K' : kern) (a b a' b' : nat).
Hypothesis HK : forall x s y t, K x s y t a b = K' x s y t a' b'.
Definition entry_rel (m m' : mat) : Prop := m a b = m' a' b'.
Lemma loop_rel : forall n (f g : nat -> mat -> mat) s s', (forall i z z', entry_rel z z' -> entry_rel (f i z) (g i z')) -> entry_rel s s' -> entry_rel (for_loop n f s) (for_loop n g s').
Proof. intros n f g s s' E E0. induction n as [|n IH]; cbn [for_loop]; auto. Qed.
Lemma entry_integrand : forall p q z z', entry_rel z z' -> entry_rel (evaluate_integrand K p q z) (evaluate_integrand K' p q z').
Proof. intros p q z z' E. unfold entry_rel, evaluate_integrand in *. rewrite E, HK. reflexivity. Qed.
Lemma entry_form : forall p order GS e1 e2 f1 f2 m m', evaluate_bilinear_form K p order GS e1 e2 f1 f2 = Some m -> evaluate_bilinear_form K' p order GS e1 e2 f1 f2 = Some m' -> m a b = m' a' b'.
Proof.
  intros p order GS e1 e2 f1 f2 m m'. unfold evaluate_bilinear_form. destruct (compare_elements e1 e2) as [[[r1 r2] c] d]. cbn [fst snd].
  set (nf := if (farfield_degree p order <=? _)%Z then _ else _). destruct (nf <? max_quadrature_degree)%Z; [|discriminate]. set (Q := GS nf). clearbody Q.
  destruct c as [|[|[|[|[|c]]]]]; try discriminate; [destruct (nf =? _)%Z| | |]; intros E1 E2; injection E1 as <-; injection E2 as <-.
  - unfold integrate0. apply loop_rel; [|reflexivity]. intros i z z' Ez. apply loop_rel; [|exact Ez]. intros j y y' Ey. apply entry_integrand, Ey.
  - unfold integrate1. cbv zeta. apply loop_rel; [|reflexivity]. intros i z z' Ez. apply loop_rel; [|exact Ez]. intros j y y' Ey. apply entry_integrand, Ey.
  - unfold integrate2. cbv zeta. apply loop_rel; [|reflexivity]. intros i z z' Ez. apply loop_rel; [|exact Ez]. intros j y y' Ey. apply loop_rel; [|exact Ey]. intros k x x' Ex. do 2 apply entry_integrand. exact Ex.
  - unfold integrate3. cbv zeta. apply loop_rel; [|reflexivity]. intros i z z' Ez. apply loop_rel; [|exact Ez]. intros j y y' Ey. do 6 apply entry_integrand. exact Ey.
  - unfold integrate4. cbv zeta. apply loop_rel; [|reflexivity]. intros i z z' Ez. apply loop_rel; [|exact Ez]. intros j y y' Ey. do 4 apply entry_integrand. exact Ey.
Qed.
End Entry.
Lemma form_defined : forall K K' p order GS e1 e2 f1 f2 m, evaluate_bilinear_form K p order GS e1 e2 f1 f2 = Some m -> exists m', evaluate_bilinear_form K' p order GS e1 e2 f1 f2 = Some m'.
Proof.
  intros K K' p order GS e1 e2 f1 f2 m. unfold evaluate_bilinear_form. destruct (compare_elements e1 e2) as [[[r1 r2] c] d]. cbn [fst snd].
  set (nf := if (farfield_degree p order <=? _)%Z then _ else _). destruct (nf <? max_quadrature_degree)%Z; [|discriminate].
  destruct c as [|[|[|[|[|c]]]]]; try discriminate; [destruct (nf =? _)%Z| | |]; eauto.
Qed.

(** ** operators with exchanged points *)
Lemma vdot_sym : forall a b, vdot a b = vdot b a.
Proof. intros. unfold vdot. ring. Qed.
Definition complex_partners (k : Complex.C) : list (operator cmat * operator cmat) :=
  [(helmholtz_sl k, helmholtz_sl k); (helmholtz_dl k, helmholtz_adl k); (helmholtz_adl k, helmholtz_dl k); (helmholtz_hs k, helmholtz_hs k); (maxwell_sl k, maxwell_sl k)].
Definition real_partners : list (operator mat * operator mat) := [(laplace_sl, laplace_sl); (laplace_dl, laplace_adl); (laplace_adl, laplace_dl); (laplace_hs, laplace_hs)].
Lemma complex_exchange : forall k op op' ss p q rc cc i j, In (op, op') (complex_partners k) ->
  (rc < op_vd op)%nat -> (cc < op_vd op)%nat -> (i < ss_n2 ss)%nat -> (j < ss_n2 ss)%nat ->
  op_integrand op ss p q no_cmatrix (rc * ss_n2 ss + i)%nat (cc * ss_n2 ss + j)%nat = op_integrand op' ss q p no_cmatrix (cc * ss_n2 ss + j)%nat (rc * ss_n2 ss + i)%nat.
Proof.
  intros k op op' ss p q rc cc i j HP Hrc Hcc Hi Hj.
  destruct HP as [HP|[HP|[HP|[HP|[HP|[]]]]]]; injection HP as <- <-.
  1-4: cbn [op_vd helmholtz_sl helmholtz_dl helmholtz_adl helmholtz_hs] in Hrc, Hcc; assert (rc = 0%nat) by lia; assert (cc = 0%nat) by lia; subst rc cc; rewrite !Nat.mul_0_l, !Nat.add_0_l;
    cbn [op_integrand helmholtz_sl helmholtz_dl helmholtz_adl helmholtz_hs].
  - apply C59_single_layer_integrand; assumption.
  - symmetry. apply C59_adjoint; assumption.
  - apply C59_adjoint; assumption.
  - unfold helmholtz_hs_integrand. cbv zeta. rewrite !ccurl, !cinteraction by assumption.
    rewrite (C59_single_layer_symmetric k (p_f q) (p_f p)), (vdot_sym (p_n q) (p_n p)), (vdot_sym (surface_curl ss q j) (surface_curl ss p i)).
    unfold no_cmatrix. rewrite !RtoC_mult. unfold Cdiv. ring.
  - cbn [op_vd maxwell_sl] in Hrc, Hcc. cbn [op_integrand maxwell_sl]. unfold maxwell_sl_integrand. cbv zeta. rewrite !cdiv_value, !cvector by assumption.
    rewrite (C59_single_layer_symmetric k (p_f q) (p_f p)). unfold no_cmatrix.
    rewrite (vdot_sym (match cc with O => p_dx q | _ => p_dy q end) (match rc with O => p_dx p | _ => p_dy p end)).
    rewrite !RtoC_mult. unfold Cdiv. ring.
Qed.
Lemma real_exchange : forall op op' ss p q rc cc i j, In (op, op') real_partners ->
  (rc < op_vd op)%nat -> (cc < op_vd op)%nat -> (i < ss_n2 ss)%nat -> (j < ss_n2 ss)%nat ->
  op_integrand op ss p q no_matrix (rc * ss_n2 ss + i)%nat (cc * ss_n2 ss + j)%nat = op_integrand op' ss q p no_matrix (cc * ss_n2 ss + j)%nat (rc * ss_n2 ss + i)%nat.
Proof.
  intros op op' ss p q rc cc i j HP Hrc Hcc Hi Hj.
  destruct HP as [HP|[HP|[HP|[HP|[]]]]]; injection HP as <- <-;
    cbn [op_vd laplace_sl laplace_dl laplace_adl laplace_hs] in Hrc, Hcc; assert (rc = 0%nat) by lia; assert (cc = 0%nat) by lia; subst rc cc; rewrite !Nat.mul_0_l, !Nat.add_0_l;
    cbn [op_integrand laplace_sl laplace_dl laplace_adl laplace_hs].
  - apply C49_single_layer_integrand; assumption.
  - symmetry. apply C49_adjoint; assumption.
  - apply C49_adjoint; assumption.
  - unfold laplace_hs_integrand. cbv zeta. rewrite !curl_value by assumption.
    rewrite (C49_single_layer_symmetric (p_f q) (p_f p)), (vdot_sym (surface_curl ss q j) (surface_curl ss p i)). unfold no_matrix, Rdiv. ring.
Qed.
(** operators with exchanged points: single layer and hypersingular operators and the Maxwell operator are their own partners, the
    adjoint double layer operator is the partner of the double layer operator *)
Definition partners (k : Complex.C) : list (operator mat * operator mat) :=
  real_partners ++ flat_map (fun x => [(part_of fst (fst x), part_of fst (snd x)); (part_of snd (fst x), part_of snd (snd x))]) (complex_partners k).
Lemma complex_vd : forall k op op', In (op, op') (complex_partners k) -> op_vd op' = op_vd op.
Proof. intros k op op' HP. destruct HP as [HP|[HP|[HP|[HP|[HP|[]]]]]]; injection HP as <- <-; reflexivity. Qed.
Lemma real_vd : forall op op', In (op, op') real_partners -> op_vd op' = op_vd op.
Proof. intros op op' HP. destruct HP as [HP|[HP|[HP|[HP|[]]]]]; injection HP as <- <-; reflexivity. Qed.
Lemma partners_cases : forall k op op', In (op, op') (partners k) -> In (op, op') real_partners \/
  exists cop cop', In (cop, cop') (complex_partners k) /\ (op = part_of fst cop /\ op' = part_of fst cop' \/ op = part_of snd cop /\ op' = part_of snd cop').
Proof.
  intros k op op' HP. unfold partners in HP. apply in_app_or in HP. destruct HP as [HP|HP]; [left; exact HP|right]. apply in_flat_map in HP. destruct HP as [[cop cop'] [Hc [HP|[HP|[]]]]];
    cbn [fst snd] in HP; apply pair_equal_spec in HP; destruct HP as [<- <-]; exists cop, cop'; auto.
Qed.
Lemma partners_vd : forall k op op', In (op, op') (partners k) -> op_vd op' = op_vd op.
Proof.
  intros k op op' HP. destruct (partners_cases k op op' HP) as [Hr|[cop [cop' [Hc [[-> ->]|[-> ->]]]]]]; [apply real_vd; exact Hr| |]; cbn [part_of op_vd]; apply (complex_vd k); exact Hc.
Qed.
Lemma partners_exchange : forall k op op' ss X e1 s e2 t a b, In (op, op') (partners k) -> (a < op_vd op * ss_n2 ss)%nat -> (b < op_vd op * ss_n2 ss)%nat ->
  op_kern op ss X e1 s e2 t a b = op_kern op' ss X e2 t e1 s b a.
Proof.
  intros k op op' ss X e1 s e2 t a b HP Ha Hb. unfold op_kern.
  assert (Kp : ss_n2 ss <> 0%nat) by (unfold ss_n2; lia).
  pose proof (Nat.div_mod a (ss_n2 ss) Kp) as Ea. pose proof (Nat.div_mod b (ss_n2 ss) Kp) as Eb. pose proof (Nat.mod_upper_bound a _ Kp) as Ma. pose proof (Nat.mod_upper_bound b _ Kp) as Mb.
  assert (Da : (a / ss_n2 ss < op_vd op)%nat) by (apply Nat.div_lt_upper_bound; lia). assert (Db : (b / ss_n2 ss < op_vd op)%nat) by (apply Nat.div_lt_upper_bound; lia).
  rewrite (Nat.mul_comm (ss_n2 ss)) in Ea, Eb. rewrite Ea, Eb. clear Ea Eb Ha Hb. set (ra := (a / ss_n2 ss)%nat) in *. set (rb := (b / ss_n2 ss)%nat) in *. set (ca := (a mod ss_n2 ss)%nat) in *. set (cb := (b mod ss_n2 ss)%nat) in *. clearbody ra rb ca cb.
  destruct (partners_cases k op op' HP) as [Hr|[cop [cop' [Hc [[-> ->]|[-> ->]]]]]].
  - apply real_exchange; assumption.
  - cbn [part_of op_integrand op_vd] in *. change zero_cmatrix with no_cmatrix. rewrite (complex_exchange k cop cop' ss _ _ ra rb ca cb Hc) by assumption. reflexivity.
  - cbn [part_of op_integrand op_vd] in *. change zero_cmatrix with no_cmatrix. rewrite (complex_exchange k cop cop' ss _ _ ra rb ca cb Hc) by assumption. reflexivity.
Qed.
(** a symmetric kernel with two given entries *)
Definition pair_kernel (K K' : kern) (a b : nat) : kern := fun e1 s e2 t i j =>
  match i, j with O, 1%nat => K e1 s e2 t a b | 1%nat, O => K' e1 s e2 t b a | _, _ => 0 end.
(** the routine has a result exactly if the degree is below the maximum *)
Lemma form_degree : forall K p order GS e1 e2 f1 f2 m, evaluate_bilinear_form K p order GS e1 e2 f1 f2 = Some m ->
  (farfield_degree p order < 50)%Z /\ (nearfield_degree p order (snd (compare_elements e1 e2)) (e_level e1) < 50)%Z.
Proof.
  intros K p order GS e1 e2 f1 f2 m. unfold evaluate_bilinear_form. destruct (compare_elements e1 e2) as [cp d]. cbn [fst snd].
  destruct (Z.leb_spec (farfield_degree p order) (nearfield_degree p order d (e_level e1))); (destruct (Z.ltb_spec (if (farfield_degree p order <=? nearfield_degree p order d (e_level e1))%Z then nearfield_degree p order d (e_level e1) else farfield_degree p order) max_quadrature_degree) as [L|L]; [|]);
  unfold max_quadrature_degree in *;
  destruct (Z.leb_spec (farfield_degree p order) (nearfield_degree p order d (e_level e1))) as [A|A]; try lia; intros E; try (split; lia).
  all: match type of E with context [if (?x <? 50)%Z then _ else _] => destruct (Z.ltb_spec x 50); [lia|discriminate] end.
Qed.
Lemma addr_eqb_sym : forall a b, addr_eqb a b = addr_eqb b a.
Proof. intros a b. destruct (addr_eqb a b) eqn:E1, (addr_eqb b a) eqn:E2; try reflexivity; [apply addr_eqb_eq in E1; subst; rewrite (proj2 (addr_eqb_eq b b) eq_refl) in E2; discriminate|apply addr_eqb_eq in E2; subst; rewrite (proj2 (addr_eqb_eq a a) eq_refl) in E1; discriminate]. Qed.
Lemma compare_distance : forall e1 e2, snd (compare_elements e1 e2) = snd (compare_elements e2 e1).
Proof.
  intros e1 e2. unfold compare_elements. rewrite (addr_eqb_sym (e_addr e2)). destruct (addr_eqb (e_addr e1) (e_addr e2)); [reflexivity|]. cbv zeta.
  assert (D : element_distance e1 e2 = element_distance e2 e1).
  { unfold element_distance. cbv zeta. rewrite (vnorm_sym (e_mid e2)). replace (vnorm (vsub (e_mid e1) (e_mid e2)) - e_rad e2 - e_rad e1) with (vnorm (vsub (e_mid e1) (e_mid e2)) - e_rad e1 - e_rad e2) by ring. reflexivity. }
  rewrite <- D. destruct Rlt_dec, Rlt_dec; reflexivity.
Qed.
