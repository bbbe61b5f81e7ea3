(** Properties C01-C04: Bernstein shape functions.
    [rsum f n] = f 0 + ... + f (n-1);  [bern p i x] = C(p,i) x^i (1-x)^(p-i) (SpecBernstein). *)
From Coq Require Import Reals Lra Lia Arith List.
From Verif Require Import RSum ModelBernstein SpecBernstein ProofBernstein.
Local Open Scope R_scope.

(** C01: values written by the run-time dispatched basis evaluation (p <= MaxP = 20)
    and by the templates (all p); cells beyond p are left alone. *)
Theorem C01_partition_of_unity : forall p buffer x,
  rsum (EvalBernsteinBasis p buffer x) (p + 1) = 1
  /\ (0 <= x <= 1 -> forall i, (i <= p)%nat -> 0 <= EvalBernsteinBasis p buffer x i <= 1)
  /\ (forall i, (i <= p)%nat -> EvalBernsteinBasis p buffer x i = bern p i x)
  /\ (forall i, (p < i)%nat -> EvalBernsteinBasis p buffer x i = buffer i).
Proof.
  intros p buffer x.
  assert (Hin : forall i, (i <= p)%nat -> EvalBernsteinBasis p buffer x i = bern p i x).
  { intros i Hi. rewrite EvalBernsteinBasis_spec. destruct (Nat.leb_spec i p); [reflexivity|lia]. }
  split; [|split; [|split]].
  - rewrite (rsum_ext _ (fun i => bern p i x)) by (intros; apply Hin; lia). apply bern_sum.
  - intros Hx i Hi. rewrite Hin by assumption. split; [apply bern_nonneg|apply bern_le_1]; assumption.
  - exact Hin.
  - intros i Hi. rewrite EvalBernsteinBasis_spec. destruct (Nat.leb_spec i p); [lia|reflexivity].
Qed.

Theorem C01_handler_partition_of_unity : forall p buffer x, (p <= MaxP)%nat ->
  rsum (evalBasis p buffer x) (p + 1) = 1
  /\ (0 <= x <= 1 -> forall i, (i <= p)%nat -> 0 <= evalBasis p buffer x i <= 1)
  /\ (forall i, (i <= p)%nat -> evalBasis p buffer x i = bern p i x)
  /\ (forall i, (p < i)%nat -> evalBasis p buffer x i = buffer i).
Proof.
  intros p buffer x Hp. unfold evalBasis. rewrite dispatch_le by assumption.
  apply C01_partition_of_unity.
Qed.

(** The accumulating variant adds exactly these values. *)
Theorem C01_plus_equals_variant : forall p buffer x i,
  EvalBernsteinBasisPEQ p buffer x i
  = buffer i + (if (i <=? p)%nat then bern p i x else 0).
Proof.
  intros. rewrite EvalBernsteinBasisPEQ_spec. destruct (i <=? p)%nat; [reflexivity|ring].
Qed.

(** Above MaxP the dispatch silently uses degree 0: only cell 0 is written, so the
    unrestricted claim is false for the run-time handler. *)
Theorem C01_handler_above_MaxP : forall p buffer x, (MaxP < p)%nat ->
  forall i, evalBasis p buffer x i = if (i =? 0)%nat then 1 else buffer i.
Proof.
  intros p buffer x Hp i. unfold evalBasis. rewrite dispatch_gt by assumption.
  rewrite EvalBernsteinBasis_spec. destruct i as [|i]; simpl; [|reflexivity].
  unfold bern. rewrite C_0. simpl. ring.
Qed.

Theorem C01_handler_every_degree_refuted :
  exists p buffer x, 0 <= x <= 1 /\ rsum (evalBasis p buffer x) (p + 1) <> 1.
Proof.
  exists (S MaxP), (fun _ => 1), (1/2). split; [lra|].
  rewrite (rsum_ext _ (fun _ => 1)).
  - rewrite rsum_const. rewrite Rmult_1_r. intros H. change 1 with (INR 1) in H.
    apply INR_eq in H. unfold MaxP in H. lia.
  - intros i _. rewrite C01_handler_above_MaxP by lia. destruct (i =? 0)%nat; reflexivity.
Qed.

(** C02 *)
Theorem C02_coefficients_vs_basis : forall p a buffer x,
  EvalBernstein p a x = rsum (fun i => a i * EvalBernsteinBasis p buffer x i) (p + 1)
  /\ EvalBernsteinDer p a x = rsum (fun i => a i * EvalBernsteinDerBasis p buffer x i) (p + 1)
  /\ (forall i, (p < i)%nat -> EvalBernsteinDerBasis p buffer x i = buffer i).
Proof.
  intros p a buffer x. split; [|split].
  - rewrite EvalBernstein_spec. unfold bernstein_form. apply rsum_ext. intros i Hi.
    rewrite EvalBernsteinBasis_spec. destruct (Nat.leb_spec i p); [reflexivity|lia].
  - rewrite EvalBernsteinDer_dbern. apply rsum_ext. intros i Hi.
    rewrite EvalBernsteinDerBasis_spec. destruct (Nat.leb_spec i p); [reflexivity|lia].
  - intros i Hi. rewrite EvalBernsteinDerBasis_spec. destruct (Nat.leb_spec i p); [lia|reflexivity].
Qed.

Theorem C02_handler_coefficients_vs_basis : forall p a buffer x, (p <= MaxP)%nat ->
  evalCoef p a x = rsum (fun i => a i * evalBasis p buffer x i) (p + 1)
  /\ evalDerCoef p a x = rsum (fun i => a i * evalDerBasis p buffer x i) (p + 1)
  /\ evalCoef p a x = rsum (fun i => a i * bern p i x) (p + 1)
  /\ (forall i, (p < i)%nat -> evalDerBasis p buffer x i = buffer i).
Proof.
  intros p a buffer x Hp. unfold evalCoef, evalBasis, evalDerCoef, evalDerBasis.
  rewrite !dispatch_le by assumption. destruct (C02_coefficients_vs_basis p a buffer x) as [H1 [H2 H3]].
  split; [exact H1|split; [exact H2|split; [exact (EvalBernstein_spec p a x)|exact H3]]].
Qed.

(** The derivative basis functions are the derivatives of the basis functions,
    and the accumulating variant adds them. *)
Theorem C02_derivative_basis : forall p buffer x i, (i <= p)%nat ->
  derivable_pt_lim (bern p i) x (EvalBernsteinDerBasis p buffer x i)
  /\ EvalBernsteinDerBasisPEQ p buffer x i = buffer i + EvalBernsteinDerBasis p buffer x i.
Proof.
  intros p buffer x i Hi. rewrite EvalBernsteinDerBasis_spec, EvalBernsteinDerBasisPEQ_spec.
  destruct (Nat.leb_spec i p); [|lia]. split; [apply bern_derivable; assumption|reflexivity].
Qed.

(** Tensor-product accumulation used by the super spaces: entry iy*(P+1)+ix. *)
Theorem C02_tensor_product_layout : forall j1 j2 P c w x y iy ix,
  (iy <= P)%nat -> (ix <= P)%nat ->
  phiphi j1 j2 P c w x y (iy * (P + 1) + ix)%nat
    = c (iy * (P + 1) + ix)%nat + w * (bern P ix x * bern P iy y)
  /\ (forall k, ((P + 1) * (P + 1) <= k)%nat -> phiphi j1 j2 P c w x y k = c k).
Proof.
  intros. split; [rewrite phiphi_spec by assumption; ring|].
  intros k Hk. unfold phiphi. apply tp_accumulate_frame; lia.
Qed.

Theorem C02_tensor_product_derivatives : forall j1 j2 P w x y iy ix,
  (iy <= P)%nat -> (ix <= P)%nat ->
  let k := (iy * (P + 1) + ix)%nat in
  derivable_pt_lim (fun t => phiphi j1 j2 P zero_arr w t y k) x (phiphi_dx j1 j2 P zero_arr w x y k)
  /\ derivable_pt_lim (fun t => phiphi j1 j2 P zero_arr w x t k) y (phiphi_dy j1 j2 P zero_arr w x y k).
Proof.
  intros j1 j2 P w x y iy ix H1 H2 k. unfold k.
  rewrite phiphi_dx_spec, phiphi_dy_spec by assumption. split.
  - apply (derivable_pt_lim_ext (fun t => (w * bern P iy y) * bern P ix t)).
    + intros t. rewrite phiphi_spec by assumption. unfold zero_arr. ring.
    + replace (zero_arr (iy * (P + 1) + ix)%nat + w * dbern P ix x * bern P iy y)
        with ((w * bern P iy y) * dbern P ix x) by (unfold zero_arr; ring).
      apply (derivable_pt_lim_scal (bern P ix)). apply bern_derivable; assumption.
  - apply (derivable_pt_lim_ext (fun t => (w * bern P ix x) * bern P iy t)).
    + intros t. rewrite phiphi_spec by assumption. unfold zero_arr. ring.
    + replace (zero_arr (iy * (P + 1) + ix)%nat + w * bern P ix x * dbern P iy y)
        with ((w * bern P ix x) * dbern P iy y) by (unfold zero_arr; ring).
      apply (derivable_pt_lim_scal (bern P iy)). apply bern_derivable; assumption.
Qed.

(** Outer products of two tensor-product bases (mass-type and divergence-type blocks). *)
Theorem C02_outer_product_layout : forall j1 j2 ja jb P c w x1 y1 x2 y2 iy ix jy jx,
  (iy <= P)%nat -> (ix <= P)%nat -> (jy <= P)%nat -> (jx <= P)%nat ->
  Phi_times_Phi j1 j2 ja jb P c w x1 y1 x2 y2 (iy * (P + 1) + ix)%nat (jy * (P + 1) + jx)%nat
  = c (iy * (P + 1) + ix)%nat (jy * (P + 1) + jx)%nat
    + w * (bern P ix x1 * bern P iy y1) * (bern P jx x2 * bern P jy y2).
Proof. exact Phi_times_Phi_spec. Qed.

Theorem C02_divergence_outer_product : forall j1 j2 P c w x1 y1 x2 y2 iy ix jy jx (di dj : bool),
  (iy <= P)%nat -> (ix <= P)%nat -> (jy <= P)%nat -> (jx <= P)%nat ->
  let I2 := ((P + 1) * (P + 1))%nat in
  let k := ((if di then I2 else 0) + (iy * (P + 1) + ix))%nat in
  let l := ((if dj then I2 else 0) + (jy * (P + 1) + jx))%nat in
  exists d1 d2,
    Div_Phi_times_Div_Phi j1 j2 P c w x1 y1 x2 y2 k l = c k l + w * d1 * d2
    /\ (if di then derivable_pt_lim (fun t => bern P ix x1 * bern P iy t) y1 d1
              else derivable_pt_lim (fun t => bern P ix t * bern P iy y1) x1 d1)
    /\ (if dj then derivable_pt_lim (fun t => bern P jx x2 * bern P jy t) y2 d2
              else derivable_pt_lim (fun t => bern P jx t * bern P jy y2) x2 d2).
Proof.
  intros j1 j2 P c w x1 y1 x2 y2 iy ix jy jx di dj H1 H2 H3 H4 I2 k l.
  exists (if di then bern P ix x1 * dbern P iy y1 else dbern P ix x1 * bern P iy y1).
  exists (if dj then bern P jx x2 * dbern P jy y2 else dbern P jx x2 * bern P jy y2).
  split; [apply Div_Phi_times_Div_Phi_spec; assumption|].
  assert (Dy : forall a i t, (i <= P)%nat ->
     derivable_pt_lim (fun t => a * bern P i t) t (a * dbern P i t)).
  { intros. apply (derivable_pt_lim_scal (bern P i)). apply bern_derivable; assumption. }
  assert (Dx : forall a i t, (i <= P)%nat ->
     derivable_pt_lim (fun t => bern P i t * a) t (dbern P i t * a)).
  { intros a i t Hi. apply (derivable_pt_lim_ext (fun t => a * bern P i t)); [intros; ring|].
    rewrite Rmult_comm. apply Dy; assumption. }
  destruct di, dj; split; auto.
Qed.

(** C03 *)
Theorem C03_derivative : forall p a x,
  derivable_pt_lim (fun t => EvalBernstein p a t) x (EvalBernsteinDer p a x)
  /\ EvalBernsteinDer 0 a x = 0.
Proof.
  intros. split; [apply EvalBernsteinDer_derivable|simpl; ring].
Qed.

(** Also for the run-time handler, even above MaxP (where both are of degree 0). *)
Theorem C03_handler_derivative : forall p a x,
  derivable_pt_lim (fun t => evalCoef p a t) x (evalDerCoef p a x).
Proof.
  intros p a x. unfold evalCoef, evalDerCoef. destruct (Nat.le_gt_cases p MaxP).
  - rewrite dispatch_le by assumption.
    apply (derivable_pt_lim_ext (EvalBernstein p a)).
    + intros. rewrite dispatch_le by assumption. reflexivity.
    + apply EvalBernsteinDer_derivable.
  - rewrite dispatch_gt by assumption.
    apply (derivable_pt_lim_ext (EvalBernstein 0 a)).
    + intros. rewrite dispatch_gt by assumption. reflexivity.
    + apply EvalBernsteinDer_derivable.
Qed.

(** C04 *)
Theorem C04_endpoints_and_convex_hull : forall p a,
  EvalBernstein p a 0 = a 0%nat
  /\ EvalBernstein p a 1 = a p
  /\ (forall x lo hi, 0 <= x <= 1 -> (forall i, (i <= p)%nat -> lo <= a i <= hi) ->
        lo <= EvalBernstein p a x <= hi).
Proof.
  intros p a. rewrite !EvalBernstein_spec. split; [apply bernstein_form_0|].
  split; [apply bernstein_form_1|]. intros. rewrite EvalBernstein_spec.
  apply bernstein_form_bounds; assumption.
Qed.

Theorem C04_handler_endpoints_and_convex_hull : forall p a, (p <= MaxP)%nat ->
  evalCoef p a 0 = a 0%nat
  /\ evalCoef p a 1 = a p
  /\ (forall x lo hi, 0 <= x <= 1 -> (forall i, (i <= p)%nat -> lo <= a i <= hi) ->
        lo <= evalCoef p a x <= hi).
Proof.
  intros p a Hp. unfold evalCoef. rewrite !dispatch_le by assumption.
  destruct (C04_endpoints_and_convex_hull p a) as [H1 [H2 H3]].
  split; [exact H1|split; [exact H2|]]. intros. rewrite dispatch_le by assumption.
  apply H3; assumption.
Qed.

(** Non-vacuity: degree 2 at x = 1/4. *)
Example C01_example : forall b,
  EvalBernsteinBasis 2 b (1/4) 1%nat = 3/8 /\ EvalBernsteinBasis 2 b (1/4) 7%nat = b 7%nat
  /\ EvalBernsteinDer 2 (fun i => INR (i * i)) (1/4) = 3.
Proof.
  intros b. split; [|split].
  - rewrite EvalBernsteinBasis_spec. unfold bern, C. simpl. field.
  - simpl. unfold upd. reflexivity.
  - cbn -[INR]. unfold Bernstein. cbn -[INR]. rewrite !INR_IZR_INZ. cbn. field.
Qed.
Example MaxP_nontrivial : (3 <= MaxP)%nat.
Proof. unfold MaxP; lia. Qed.

(* BEGIN ASSUMPTIONS *)
Print Assumptions C01_partition_of_unity.
Print Assumptions C01_handler_partition_of_unity.
Print Assumptions C01_plus_equals_variant.
Print Assumptions C01_handler_above_MaxP.
Print Assumptions C01_handler_every_degree_refuted.
Print Assumptions C02_coefficients_vs_basis.
Print Assumptions C02_handler_coefficients_vs_basis.
Print Assumptions C02_derivative_basis.
Print Assumptions C02_tensor_product_layout.
Print Assumptions C02_tensor_product_derivatives.
Print Assumptions C02_outer_product_layout.
Print Assumptions C02_divergence_outer_product.
Print Assumptions C03_derivative.
Print Assumptions C03_handler_derivative.
Print Assumptions C04_endpoints_and_convex_hull.
Print Assumptions C04_handler_endpoints_and_convex_hull.
