(** Solid harmonics as polynomials in z and |x|^2; their derivatives. *)
From Coq Require Import Reals Arith Bool List Lia Lra ZArith.
From Coquelicot Require Import Coquelicot.
From Verif Require Import ModelBase RSum ModelBall SpecOperators ProofOperators ProofPotential ModelSpherical SpecSpherical.
Import ListNotations.
Local Open Scope R_scope.

(** H n m z s: the homogeneous form of the m-th derivative of P_n, of degree n - m in (z, sqrt s); second component: H (n-1) *)
Fixpoint Hp (n : nat) (z s : R) : (nat -> R) * (nat -> R) :=
  match n with
  | O => (fun m => if (m =? 0)%nat then 1 else 0, fun _ => 0)
  | S k => let ab := Hp k z s in
      (fun m => if (m <=? k)%nat then ((2 * INR k + 1) * z * fst ab m - (INR k + INR m) * s * snd ab m) / (INR k + 1 - INR m)
                else if (m =? S k)%nat then (2 * INR k + 1) * fst ab k else 0, fst ab)
  end.
Definition H (n m : nat) (z s : R) : R := fst (Hp n z s) m.
Definition H1 (n m : nat) (z s : R) : R := snd (Hp n z s) m.

Lemma H1_S : forall n m z s, H1 (S n) m z s = H n m z s.
Proof. reflexivity. Qed.
Lemma H1_O : forall m z s, H1 0 m z s = 0.
Proof. reflexivity. Qed.
Lemma H_O : forall m z s, H 0 m z s = if (m =? 0)%nat then 1 else 0.
Proof. reflexivity. Qed.
Lemma H_low : forall n m z s, (m <= n)%nat -> (INR n + 1 - INR m) * H (S n) m z s = (2 * INR n + 1) * z * H n m z s - (INR n + INR m) * s * H1 n m z s.
Proof.
  intros n m z s Hm. unfold H, H1. cbn [Hp fst snd]. replace (m <=? n)%nat with true by (symmetry; apply Nat.leb_le; lia).
  field. apply le_INR in Hm. lra.
Qed.
Lemma H_diag : forall n z s, H (S n) (S n) z s = (2 * INR n + 1) * H n n z s.
Proof. intros. unfold H. cbn [Hp fst snd]. replace (S n <=? n)%nat with false by (symmetry; apply Nat.leb_gt; lia). rewrite Nat.eqb_refl. reflexivity. Qed.
Lemma H_high : forall n m z s, (n < m)%nat -> H n m z s = 0.
Proof.
  intros [|n] m z s Hm; unfold H; cbn [Hp fst snd].
  - destruct (Nat.eqb_spec m 0); [lia|reflexivity].
  - destruct (Nat.leb_spec m n); [lia|]. destruct (Nat.eqb_spec m (S n)); [lia|reflexivity].
Qed.
Lemma H1_high : forall n m z s, (n <= m)%nat -> H1 n m z s = 0.
Proof. intros [|n] m z s Hm; [reflexivity|]. rewrite H1_S. apply H_high. lia. Qed.

(** the three contiguity relations *)
Lemma relations : forall n z s,
  (forall m, z * H n (S m) z s - s * H1 n (S m) z s = (INR n - INR m) * H n m z s) /\
  (forall m, H n (S m) z s - z * H1 n (S m) z s = (INR n + INR m) * H1 n m z s).
Proof.
  induction n as [|n IH]; intros z s.
  - split; intros m; rewrite ?H_O, ?H1_O; cbn [Nat.eqb INR].
    + destruct m; cbn [Nat.eqb INR]; ring.
    + ring.
  - destruct (IH z s) as [F G].
    assert (E : forall m, H (S n) (S m) z s = (2 * INR n + 1) * H n m z s + s * H1 n (S m) z s).
    { intros m. destruct (Nat.lt_trichotomy m n) as [L|[->|L]].
      - pose proof (H_low n (S m) z s ltac:(lia)) as Q. pose proof (lt_INR _ _ L) as Lr. rewrite S_INR in Q.
        apply (Rmult_eq_reg_l (INR n + 1 - (INR m + 1))); [|lra]. rewrite Q. pose proof (F m) as Fm.
        replace ((INR n + 1 - (INR m + 1)) * ((2 * INR n + 1) * H n m z s + s * H1 n (S m) z s))
          with ((2 * INR n + 1) * ((INR n - INR m) * H n m z s) + (INR n - INR m) * s * H1 n (S m) z s) by ring. rewrite <- Fm. ring.
      - rewrite H_diag, (H1_high n (S n)) by lia. ring.
      - rewrite !H_high, H1_high by lia. ring. }
    assert (G' : forall m, H (S n) (S m) z s - z * H n (S m) z s = (INR n + 1 + INR m) * H n m z s).
    { intros m. rewrite E. pose proof (F m). lra. }
    split; intros m; rewrite ?H1_S, ?S_INR.
    + destruct (Nat.le_gt_cases m n) as [L|L].
      * rewrite (Rmult_comm (INR n + 1 - INR m)), Rmult_comm, (Rmult_comm (H (S n) m z s)). rewrite (H_low n m z s L). rewrite E.
        pose proof (G m) as Gm. replace (H n (S m) z s) with (z * H1 n (S m) z s + (INR n + INR m) * H1 n m z s) by lra. ring.
      * destruct (Nat.eq_dec m (S n)) as [->|].
        { rewrite !H_high by lia. rewrite S_INR. ring. }
        rewrite !H_high by lia. ring.
    + rewrite G'. ring.
Qed.
Lemma relF : forall n m z s, z * H n (S m) z s - s * H1 n (S m) z s = (INR n - INR m) * H n m z s.
Proof. intros. apply relations. Qed.
Lemma relG : forall n m z s, H n (S m) z s - z * H1 n (S m) z s = (INR n + INR m) * H1 n m z s.
Proof. intros. apply relations. Qed.

Lemma three_term : forall (c1 c2 : R) (a b c d : R -> R) k t a' b' c' d', k <> 0 -> is_derive a t a' -> is_derive b t b' -> is_derive c t c' -> is_derive d t d' ->
  is_derive (fun t => (c1 * a t * b t - c2 * c t * d t) / k) t ((c1 * (a' * b t + a t * b') - c2 * (c' * d t + c t * d')) / k).
Proof.
  intros c1 c2 a b c d k t a' b' c' d' Hk A B C D. auto_derive.
  - repeat split; eexists; eassumption.
  - change (Derive (fun x => a x) t) with (Derive a t). change (Derive (fun x => b x) t) with (Derive b t). change (Derive (fun x => c x) t) with (Derive c t). change (Derive (fun x => d x) t) with (Derive d t).
    rewrite (is_derive_unique _ _ _ A), (is_derive_unique _ _ _ B), (is_derive_unique _ _ _ C), (is_derive_unique _ _ _ D). field. exact Hk.
Qed.
(** derivative along a curve *)
Lemma H_derive : forall n (fz fs : R -> R) t dz ds, is_derive fz t dz -> is_derive fs t ds ->
  (forall m, is_derive (fun t => H n m (fz t) (fs t)) t (H n (S m) (fz t) (fs t) * dz - / 2 * H1 n (S m) (fz t) (fs t) * ds)) /\
  (forall m, is_derive (fun t => H1 n m (fz t) (fs t)) t (H1 n (S m) (fz t) (fs t) * dz - / 2 * H1 (n - 1) (S m) (fz t) (fs t) * ds)).
Proof.
  induction n as [|n IH]; intros fz fs t dz ds Dz Ds.
  - split; intros m.
    + apply (is_derive_ext (fun _ => if (m =? 0)%nat then 1 else 0)); [reflexivity|].
      rewrite H_O, H1_O. cbn [Nat.eqb]. replace (0 * dz - / 2 * 0 * ds) with 0 by ring. apply @is_derive_const.
    + apply (is_derive_ext (fun _ => 0)); [reflexivity|]. rewrite !H1_O. replace (0 * dz - / 2 * 0 * ds) with 0 by ring. apply @is_derive_const.
  - destruct (IH fz fs t dz ds Dz Ds) as [D0 D1]. split; intros m.
    + destruct (Nat.le_gt_cases m n) as [L|L].
      * pose proof (le_INR _ _ L) as Lr.
        assert (K : is_derive (fun t => ((2 * INR n + 1) * fz t * H n m (fz t) (fs t) - (INR n + INR m) * fs t * H1 n m (fz t) (fs t)) / (INR n + 1 - INR m)) t
          (((2 * INR n + 1) * (dz * H n m (fz t) (fs t) + fz t * (H n (S m) (fz t) (fs t) * dz - / 2 * H1 n (S m) (fz t) (fs t) * ds))
            - (INR n + INR m) * (ds * H1 n m (fz t) (fs t) + fs t * (H1 n (S m) (fz t) (fs t) * dz - / 2 * H1 (n - 1) (S m) (fz t) (fs t) * ds))) / (INR n + 1 - INR m))).
        { apply (three_term _ _ fz (fun t => H n m (fz t) (fs t)) fs (fun t => H1 n m (fz t) (fs t))); [lra|exact Dz|apply D0|exact Ds|apply D1]. }
        eapply is_derive_ext; [|].
        { intros u. symmetry. apply (Rmult_eq_reg_l (INR n + 1 - INR m)); [|lra]. rewrite (H_low n m _ _ L).
          instantiate (1 := fun u => ((2 * INR n + 1) * fz u * H n m (fz u) (fs u) - (INR n + INR m) * fs u * H1 n m (fz u) (fs u)) / (INR n + 1 - INR m)). cbv beta. field. lra. }
        match goal with |- is_derive _ _ ?v => replace v with (((2 * INR n + 1) * (dz * H n m (fz t) (fs t) + fz t * (H n (S m) (fz t) (fs t) * dz - / 2 * H1 n (S m) (fz t) (fs t) * ds))
            - (INR n + INR m) * (ds * H1 n m (fz t) (fs t) + fs t * (H1 n (S m) (fz t) (fs t) * dz - / 2 * H1 (n - 1) (S m) (fz t) (fs t) * ds))) / (INR n + 1 - INR m)); [exact K|] end.
        rewrite H1_S. generalize (fz t) (fs t). clear K D0 D1 IH Dz Ds. intros z s.
        pose proof (relF n m z s) as F. pose proof (relG n m z s) as G. pose proof (relF (S n) m z s) as F'. pose proof (relG (S n) m z s) as G'. rewrite !H1_S, S_INR in F'. rewrite !H1_S, S_INR in G'.
        apply (Rmult_eq_reg_l (INR n + 1 - INR m)); [|lra].
        transitivity ((2 * INR n + 1) * (dz * H n m z s + z * (H n (S m) z s * dz - / 2 * H1 n (S m) z s * ds)) - (INR n + INR m) * (ds * H1 n m z s + s * (H1 n (S m) z s * dz - / 2 * H1 (n - 1) (S m) z s * ds))).
        { field. lra. }
        (* dz part and ds part *)
        assert (Pz : (2 * INR n + 1) * (H n m z s + z * H n (S m) z s) - (INR n + INR m) * s * H1 n (S m) z s = (INR n + 1 - INR m) * H (S n) (S m) z s).
        { replace ((INR n + INR m) * s * H1 n (S m) z s) with ((INR n + INR m) * (s * H1 n (S m) z s)) by ring.
          replace (s * H1 n (S m) z s) with (z * H n (S m) z s - (INR n - INR m) * H n m z s) by lra.
          replace (H (S n) (S m) z s) with (z * H n (S m) z s + (INR n + 1 + INR m) * H n m z s) by lra. ring. }
        assert (Ps : (2 * INR n + 1) * z * H1 n (S m) z s + 2 * (INR n + INR m) * H1 n m z s - (INR n + INR m) * s * H1 (n - 1) (S m) z s = (INR n + 1 - INR m) * H n (S m) z s).
        { destruct n as [|n].
          - cbn [Nat.sub]. rewrite !H1_O, H_O. cbn [Nat.eqb INR]. ring.
          - cbn [Nat.sub]. rewrite Nat.sub_0_r. rewrite !H1_S in *. 
            assert (W : (INR (S n) - 1 - INR m) * H (S n) (S m) z s = (2 * INR n + 1) * z * H n (S m) z s - (INR n + INR m + 1) * s * H1 n (S m) z s).
            { destruct (Nat.le_gt_cases (S m) n) as [L2|L2].
              - pose proof (H_low n (S m) z s L2) as Q. rewrite !S_INR in *. rewrite <- (Rplus_assoc (INR n)) in Q. rewrite <- Q. ring.
              - destruct (Nat.eq_dec m n) as [->|]; [rewrite (H_high n (S n)), H1_high by lia; rewrite S_INR; ring|].
                rewrite (H_high n (S m)), (H1_high n (S m)), (H_high (S n) (S m)) by lia. ring. }
            rewrite !S_INR in *. nra. }
        transitivity (dz * ((2 * INR n + 1) * (H n m z s + z * H n (S m) z s) - (INR n + INR m) * s * H1 n (S m) z s)
          - / 2 * ds * ((2 * INR n + 1) * z * H1 n (S m) z s + 2 * (INR n + INR m) * H1 n m z s - (INR n + INR m) * s * H1 (n - 1) (S m) z s)).
        { field. }
        rewrite Pz, Ps. ring.
      * destruct (Nat.eq_dec m (S n)) as [->|].
        { apply (is_derive_ext (fun t => (2 * INR n + 1) * H n n (fz t) (fs t))); [intros u; symmetry; apply H_diag|].
          pose proof (D0 n) as A. rewrite (H_high n (S n)), H1_high in A by lia. rewrite (H_high (S n) (S (S n))), H1_S, (H_high n) by lia.
          replace (0 * dz - / 2 * 0 * ds) with (scal (2 * INR n + 1) (0 * dz - / 2 * 0 * ds)) by (unfold scal; simpl; unfold mult; simpl; ring). apply @is_derive_scal; exact A. }
        apply (is_derive_ext (fun _ => 0)); [intros u; symmetry; apply H_high; lia|]. rewrite H_high, H1_S, H_high by lia. replace (0 * dz - / 2 * 0 * ds) with 0 by ring. apply @is_derive_const.
    + rewrite H1_S. replace (S n - 1)%nat with n by lia. apply D0.
Qed.

(** homogeneity *)
Lemma H_scale : forall n r z s, (forall m, (m <= n)%nat -> H n m (r * z) (r * r * s) = r ^ (n - m) * H n m z s) /\
  (forall m, (m < n)%nat -> r * H1 n m (r * z) (r * r * s) = r ^ (n - m) * H1 n m z s).
Proof.
  induction n as [|n IH]; intros r z s.
  - split; intros m L; [|lia]. rewrite !H_O. replace (0 - m)%nat with 0%nat by lia. cbn [pow]. ring.
  - destruct (IH r z s) as [A B]. split; intros m L.
    + destruct (Nat.eq_dec m (S n)) as [->|].
      * rewrite !H_diag, (A n) by lia. rewrite !Nat.sub_diag. cbn [pow]. ring.
      * assert (Ln : (m <= n)%nat) by lia. pose proof (le_INR _ _ Ln) as Lr. apply (Rmult_eq_reg_l (INR n + 1 - INR m)); [|lra].
        rewrite H_low by assumption. rewrite (A m Ln). replace (S n - m)%nat with (S (n - m)) by lia. cbn [pow].
        replace ((INR n + 1 - INR m) * (r * r ^ (n - m) * H (S n) m z s)) with (r * r ^ (n - m) * ((INR n + 1 - INR m) * H (S n) m z s)) by ring. rewrite H_low by assumption.
        destruct (Nat.eq_dec m n) as [->|].
        { rewrite !(H1_high n n) by lia. ring. }
        pose proof (B m ltac:(lia)) as Bm.
        replace ((INR n + INR m) * (r * r * s) * H1 n m (r * z) (r * r * s)) with ((INR n + INR m) * s * r * (r * H1 n m (r * z) (r * r * s))) by ring. rewrite Bm. ring.
    + rewrite !H1_S. rewrite A by lia. replace (S n - m)%nat with (S (n - m)) by lia. cbn [pow]. ring.
Qed.
(** the Legendre polynomials and their derivatives *)
Lemma legendre_H : forall n t, legendre_pair n t = (H n 0 t 1, H1 n 0 t 1).
Proof.
  induction n as [|n IH]; intros t; [reflexivity|]. cbn [legendre_pair]. rewrite IH. rewrite H1_S. f_equal.
  pose proof (H_low n 0 t 1 ltac:(lia)) as Q. cbn [INR] in Q. rewrite Rminus_0_r, Rplus_0_r in Q. apply (Rmult_eq_reg_l (INR n + 1)); [|pose proof (pos_INR n); lra]. rewrite Q. field. pose proof (pos_INR n). lra.
Qed.
Lemma legendre_der : forall n m t, is_derive (fun t => H n m t 1) t (H n (S m) t 1).
Proof.
  intros n m t. pose proof (proj1 (H_derive n (fun t => t) (fun _ => 1) t 1 0 (@is_derive_id _ t) (@is_derive_const _ _ 1 t)) m) as D. cbv beta in D.
  replace (H n (S m) t 1) with (H n (S m) t 1 * 1 - / 2 * H1 n (S m) t 1 * 0) by ring. exact D.
Qed.
Lemma legendre_derivatives : forall n m t, Derive_n (legendre n) m t = H n m t 1.
Proof.
  intros n m. induction m as [|m IH]; intros t.
  - cbn [Derive_n]. unfold legendre. rewrite legendre_H. reflexivity.
  - cbn [Derive_n]. rewrite (Derive_ext _ (fun t => H n m t 1)) by exact IH. apply is_derive_unique. apply legendre_der.
Qed.

(** solid harmonics as polynomials *)
Definition Hx (n m : nat) (x : vec3) : R := H n m (vz x) (vdot x x).
Definition W (x : vec3) (m : nat) : Complex.C := cpower (vx x) (vy x) m.
Lemma cpower_scale : forall a b c m, cpower (c * a) (c * b) m = Cmult (RtoC (c ^ m)) (cpower a b m).
Proof.
  intros a b c m. induction m as [|m IH]; [cbn [cpower pow]; rewrite Cmult_1_l; reflexivity|].
  cbn [cpower pow]. rewrite IH. apply injective_projections; unfold Cmult, RtoC; cbn [fst snd]; ring.
Qed.
Lemma vdot_norm1 : forall x, x <> (0, 0, 0) -> vdot (vscal (1 / vnorm x) x) (vscal (1 / vnorm x) x) = 1.
Proof.
  intros x Hx. pose proof (vnorm_pos x Hx) as P. transitivity (1 / vnorm x * (1 / vnorm x) * vdot x x); [unfold vdot, vscal, vx, vy, vz; cbn [fst snd]; ring|]. rewrite <- vnorm_sq. field. lra.
Qed.
Lemma vnorm_unit : forall x, x <> (0, 0, 0) -> vnorm (vscal (1 / vnorm x) x) = 1.
Proof. intros x Hx. unfold vnorm at 1. rewrite vdot_norm1 by exact Hx. apply sqrt_1. Qed.
Lemma harmonic_value : forall n m y, harmonic n m y = Cmult (RtoC (harmonic_norm n m * H n m (vz y) 1)) (W y m).
Proof. intros. unfold harmonic. rewrite legendre_derivatives. reflexivity. Qed.
Lemma solid_value : forall n m x, (m <= n)%nat -> x <> (0, 0, 0) -> solid n m x = Cmult (RtoC (harmonic_norm n m * Hx n m x)) (W x m).
Proof.
  intros n m x Hm Hn. pose proof (vnorm_pos x Hn) as P. set (r := vnorm x) in *. set (u := vscal (1 / r) x).
  assert (Ex : vx x = r * vx u /\ vy x = r * vy u /\ vz x = r * vz u) by (unfold u, vscal, vx, vy, vz; cbn [fst snd]; repeat split; field; lra). destruct Ex as [E1 [E2 E3]].
  unfold solid. fold r. fold u. rewrite harmonic_value. unfold Hx, W. rewrite E1, E2, E3. rewrite cpower_scale.
  replace (vdot x x) with (r * r * 1) by (rewrite Rmult_1_r; apply vnorm_sq). rewrite (proj1 (H_scale n r (vz u) 1) m Hm).
  replace (r ^ n) with (r ^ (n - m) * r ^ m) by (rewrite <- pow_add; f_equal; lia).
  destruct (cpower (vx u) (vy u) m) as [p q]. apply injective_projections; unfold Cmult, RtoC; cbn [fst snd]; ring.
Qed.

(** derivatives *)
Lemma dir_H : forall n m x d, directional (Hx n m) x d (H n (S m) (vz x) (vdot x x) * vz d - H1 n (S m) (vz x) (vdot x x) * vdot x d).
Proof.
  intros n m x d. unfold directional. apply is_derive_Reals.
  assert (Dz : is_derive (fun t => vz (SpecOperators.along x d t)) 0 (vz d)) by (unfold SpecOperators.along, vadd, vscal, vz; cbn [fst snd]; auto_derive; [exact I|ring]).
  assert (Ds : is_derive (fun t => vdot (SpecOperators.along x d t) (SpecOperators.along x d t)) 0 (2 * vdot x d)).
  { unfold SpecOperators.along, vdot, vadd, vscal, vx, vy, vz. cbn [fst snd]. auto_derive; [exact I|ring]. }
  pose proof (proj1 (H_derive n _ _ 0 _ _ Dz Ds) m) as D. cbv beta in D. rewrite !along0 in D. unfold Hx.
  replace (H n (S m) (vz x) (vdot x x) * vz d - H1 n (S m) (vz x) (vdot x x) * vdot x d)
    with (H n (S m) (vz x) (vdot x x) * vz d - / 2 * H1 n (S m) (vz x) (vdot x x) * (2 * vdot x d)) by field. exact D.
Qed.
Lemma dir_H1 : forall n m x d, directional (fun x => H1 n m (vz x) (vdot x x)) x d (H1 n (S m) (vz x) (vdot x x) * vz d - H1 (n - 1) (S m) (vz x) (vdot x x) * vdot x d).
Proof.
  intros [|n] m x d.
  - cbn [Nat.sub]. rewrite !H1_O. replace (0 * vz d - 0 * vdot x d) with 0 by ring. exact (dir_const 0 x d).
  - cbn [Nat.sub]. rewrite Nat.sub_0_r. rewrite !H1_S. apply dir_H.
Qed.
Lemma dir_pow : forall m x d, cdirectional (fun x => W x m) x d (Cmult (RtoC (INR m)) (Cmult (vx d, vy d) (W x (m - 1)))).
Proof.
  induction m as [|m IH]; intros x d.
  - cbn [INR]. split; cbn [W cpower fst snd]; unfold Cmult, RtoC; cbn [fst snd]; match goal with |- directional _ _ _ ?v => replace v with 0 by ring end; apply dir_const.
  - destruct (IH x d) as [A B]. cbn [Nat.sub]. rewrite Nat.sub_0_r. 
    assert (Dx : directional (fun x => vx x) x d (vx d)) by (unfold directional; apply is_derive_Reals; unfold SpecOperators.along, vadd, vscal, vx; cbn [fst snd]; auto_derive; [exact I|ring]).
    assert (Dy : directional (fun x => vy x) x d (vy d)) by (unfold directional; apply is_derive_Reals; unfold SpecOperators.along, vadd, vscal, vy; cbn [fst snd]; auto_derive; [exact I|ring]).
    assert (Rec : m = 0%nat \/ W x m = Cmult (vx x, vy x) (W x (m - 1))) by (destruct m; [left; reflexivity|right; cbn [Nat.sub]; rewrite Nat.sub_0_r; reflexivity]).
    pose proof (dir_mult _ _ _ _ _ _ Dx A) as P1. pose proof (dir_mult _ _ _ _ _ _ Dy B) as P2. pose proof (dir_mult _ _ _ _ _ _ Dx B) as P3. pose proof (dir_mult _ _ _ _ _ _ Dy A) as P4.
    split; unfold W; cbn [cpower]; unfold Cmult; cbn [fst snd].
    + pose proof (dir_plus _ _ _ _ _ _ P1 (dir_scal _ _ _ _ (-1) P2)) as Q.
      match type of Q with directional _ _ _ ?q => match goal with |- directional ?f _ _ ?v => assert (E : v = q) end end.
      { rewrite S_INR. unfold W, RtoC. cbn [fst snd]. destruct Rec as [->|Rec]; [cbn [INR Nat.sub cpower]; unfold Cmult, RtoC; cbn [fst snd]; ring|]. unfold W in Rec. rewrite Rec. unfold Cmult, RtoC. cbn [fst snd]. ring. }
      rewrite E. unfold directional in *. eapply derivable_pt_lim_ext; [|exact Q]. intros t. cbv beta. unfold W. ring.
    + pose proof (dir_plus _ _ _ _ _ _ P3 P4) as Q.
      match type of Q with directional _ _ _ ?q => match goal with |- directional ?f _ _ ?v => assert (E : v = q) end end.
      { rewrite S_INR. unfold W, RtoC. cbn [fst snd]. destruct Rec as [->|Rec]; [cbn [INR Nat.sub cpower]; unfold Cmult, RtoC; cbn [fst snd]; ring|]. unfold W in Rec. rewrite Rec. unfold Cmult, RtoC. cbn [fst snd]. ring. }
      rewrite E. exact Q.
Qed.

(** the Laplacian of a solid harmonic; V is the real or imaginary part of (x + i y)^m *)
Lemma lap_HW : forall n m (V V1 V2 : vec3 -> R) V11 V22 x,
  (forall z d, directional V z d (V1 z * vx d + V2 z * vy d)) -> directional V1 x e1 V11 -> directional V2 x e2 V22 -> V11 + V22 = 0 ->
  vx x * V1 x + vy x * V2 x = INR m * V x -> laplacian (fun z => Hx n m z * V z) x 0.
Proof.
  intros n m V V1 V2 V11 V22 x DV D1 D2 Har Eul.
  assert (Cx : forall d, directional (fun z => vx z) x d (vx d)) by (intros d; unfold directional; apply is_derive_Reals; unfold SpecOperators.along, vadd, vscal, vx; cbn [fst snd]; auto_derive; [exact I|ring]).
  assert (Cy : forall d, directional (fun z => vy z) x d (vy d)) by (intros d; unfold directional; apply is_derive_Reals; unfold SpecOperators.along, vadd, vscal, vy; cbn [fst snd]; auto_derive; [exact I|ring]).
  set (B := fun z => H1 n (S m) (vz z) (vdot z z)). set (A := fun z => H1 n m (vz z) (vdot z z)).
  assert (DH : forall z d, directional (Hx n m) z d ((INR n + INR m) * A z * vz d - B z * (vx z * vx d + vy z * vy d))).
  { intros z d. pose proof (dir_H n m z d) as Q. pose proof (relG n m (vz z) (vdot z z)) as G.
    replace ((INR n + INR m) * A z * vz d - B z * (vx z * vx d + vy z * vy d)) with (H n (S m) (vz z) (vdot z z) * vz d - H1 n (S m) (vz z) (vdot z z) * vdot z d); [exact Q|].
    unfold A, B. rewrite <- G. generalize (vdot z z). intros q. unfold vdot. ring. }
  exists (fun z => (-1) * (B z * vx z) * V z + Hx n m z * V1 z), (fun z => (-1) * (B z * vy z) * V z + Hx n m z * V2 z), (fun z => (INR n + INR m) * A z * V z).
  pose proof (dir_H1 n (S m) x e1) as B1. pose proof (dir_H1 n (S m) x e2) as B2. pose proof (dir_H1 n m x e3) as A3. fold B in B1, B2. fold A in A3.
  rewrite vdot_e1 in B1. rewrite vdot_e2 in B2. rewrite vdot_e3 in A3.
  pose proof (dir_plus _ _ _ _ _ _ (dir_mult _ _ _ _ _ _ (dir_scal _ _ _ _ (-1) (dir_mult _ _ _ _ _ _ B1 (Cx e1))) (DV x e1)) (dir_mult _ _ _ _ _ _ (DH x e1) D1)) as Q1.
  pose proof (dir_plus _ _ _ _ _ _ (dir_mult _ _ _ _ _ _ (dir_scal _ _ _ _ (-1) (dir_mult _ _ _ _ _ _ B2 (Cy e2))) (DV x e2)) (dir_mult _ _ _ _ _ _ (DH x e2) D2)) as Q2.
  pose proof (dir_mult _ _ _ _ _ _ (dir_scal _ _ _ _ (INR n + INR m) A3) (DV x e3)) as Q3.
  do 3 eexists. split; [|split; [exact Q1|split; [exact Q2|split; [exact Q3|]]]].
  - exists 1. split; [lra|]. intros z _. repeat split.
    + pose proof (dir_mult _ _ _ _ _ _ (DH z e1) (DV z e1)) as Q. unfold e1, vx, vy, vz in Q |- *. cbn [fst snd] in *. match type of Q with directional _ _ _ ?q => match goal with |- directional _ _ _ ?v => replace v with q by ring end end. exact Q.
    + pose proof (dir_mult _ _ _ _ _ _ (DH z e2) (DV z e2)) as Q. unfold e2, vx, vy, vz in Q |- *. cbn [fst snd] in *. match type of Q with directional _ _ _ ?q => match goal with |- directional _ _ _ ?v => replace v with q by ring end end. exact Q.
    + pose proof (dir_mult _ _ _ _ _ _ (DH z e3) (DV z e3)) as Q. unfold e3, vx, vy, vz in Q |- *. cbn [fst snd] in *. match type of Q with directional _ _ _ ?q => match goal with |- directional _ _ _ ?v => replace v with q by ring end end. exact Q.
  - assert (K : - (2 + 2 * INR m) * B x + (vx x * vx x + vy x * vy x) * H1 (n - 1) (S (S m)) (vz x) (vdot x x) + (INR n + INR m) * (H1 n (S m) (vz x) (vdot x x) - vz x * H1 (n - 1) (S m) (vz x) (vdot x x)) = 0).
    { unfold B. destruct n as [|k]; [cbn [Nat.sub]; rewrite !H1_O; ring|]. cbn [Nat.sub]. rewrite Nat.sub_0_r, !H1_S, S_INR.
      assert (Es : vx x * vx x + vy x * vy x = vdot x x - vz x * vz x) by (unfold vdot; ring). rewrite Es. generalize (vz x) (vdot x x). clear. intros z s.
      pose proof (relG k m z s) as G0. pose proof (relF k (S m) z s) as F1. pose proof (relG k (S m) z s) as G1. rewrite S_INR in F1, G1.
      replace (H k (S m) z s - z * H1 k (S m) z s) with ((INR k + INR m) * H1 k m z s) by lra.
      assert (Y : s * H1 k (S (S m)) z s = z * H k (S (S m)) z s - (INR k - (INR m + 1)) * H k (S m) z s) by lra.
      replace ((s - z * z) * H1 k (S (S m)) z s) with (s * H1 k (S (S m)) z s - z * (z * H1 k (S (S m)) z s)) by ring. rewrite Y.
      replace (z * H1 k (S (S m)) z s) with (H k (S (S m)) z s - (INR k + (INR m + 1)) * H1 k (S m) z s) by lra.
      replace (H k (S m) z s) with (z * H1 k (S m) z s + (INR k + INR m) * H1 k m z s) by lra. ring. }
    change (H1 n (S m) (vz x) (vdot x x)) with (B x) in *.
    unfold e1, e2, e3, vx, vy, vz in *. cbn [fst snd] in *.
    destruct x as [[a b] c]. cbn [fst snd] in *.
    replace V22 with (- V11) by lra.
    set (h2 := H1 (n - 1) (S (S m)) c (vdot (a, b, c) (a, b, c))) in *. set (h1 := H1 (n - 1) (S m) c (vdot (a, b, c) (a, b, c))) in *.
    set (bb := B (a, b, c)) in *. set (v := V (a, b, c)) in *. set (v1 := V1 (a, b, c)) in *. set (v2 := V2 (a, b, c)) in *. clearbody h1 h2 bb v v1 v2.
    transitivity (v * (- (2 + 2 * INR m) * bb + (a * a + b * b) * h2 + (INR n + INR m) * (bb - c * h1)) + 2 * bb * (INR m * v - (a * v1 + b * v2))); [rewrite K, Eul; ring|ring].
Qed.

(** both parts of (x + i y)^m *)
Lemma lap_solid : forall n m x, claplacian (fun z => Cmult (RtoC (Hx n m z)) (W z m)) x (RtoC 0).
Proof.
  intros n m x.
  assert (Dp : forall k z d, directional (fun z => fst (W z k)) z d (INR k * fst (W z (k - 1)) * vx d + - (INR k * snd (W z (k - 1))) * vy d)
    /\ directional (fun z => snd (W z k)) z d (INR k * snd (W z (k - 1)) * vx d + INR k * fst (W z (k - 1)) * vy d)).
  { intros k z d. destruct (dir_pow k z d) as [P Q]. unfold Cmult, RtoC in P, Q. cbn [fst snd] in P, Q. split.
    - match type of P with directional _ _ _ ?p => match goal with |- directional _ _ _ ?v => replace v with p by ring end end. exact P.
    - match type of Q with directional _ _ _ ?p => match goal with |- directional _ _ _ ?v => replace v with p by ring end end. exact Q. }
  assert (Eu : m = 0%nat \/ W x m = Cmult (vx x, vy x) (W x (m - 1))) by (destruct m; [left; reflexivity|right; cbn [Nat.sub]; rewrite Nat.sub_0_r; reflexivity]).
  split; unfold RtoC; cbn [fst snd].
  - apply (lap_ext (fun z => Hx n m z * fst (W z m))); [intros z; unfold Cmult, RtoC; cbn [fst snd]; ring|].
    pose proof (dir_scal _ _ _ _ (INR m) (proj1 (Dp (m - 1)%nat x e1))) as Q1. pose proof (dir_scal _ _ _ _ (INR m) (dir_scal _ _ _ _ (-1) (proj2 (Dp (m - 1)%nat x e2)))) as Q2.
    eapply (lap_HW n m (fun z => fst (W z m)) (fun z => INR m * fst (W z (m - 1))) (fun z => INR m * (-1 * snd (W z (m - 1)))) _ _ x); [|exact Q1|exact Q2| |].
    + intros z d. pose proof (proj1 (Dp m z d)) as P. match type of P with directional _ _ _ ?p => match goal with |- directional _ _ _ ?v => replace v with p by ring end end. exact P.
    + unfold e1, e2, vx, vy. cbn [fst snd]. ring.
    + destruct Eu as [->| ->]; [cbn [INR]; ring|]. unfold Cmult. cbn [fst snd]. ring.
  - apply (lap_ext (fun z => Hx n m z * snd (W z m))); [intros z; unfold Cmult, RtoC; cbn [fst snd]; ring|].
    pose proof (dir_scal _ _ _ _ (INR m) (proj2 (Dp (m - 1)%nat x e1))) as Q1. pose proof (dir_scal _ _ _ _ (INR m) (proj1 (Dp (m - 1)%nat x e2))) as Q2.
    eapply (lap_HW n m (fun z => snd (W z m)) (fun z => INR m * snd (W z (m - 1))) (fun z => INR m * fst (W z (m - 1))) _ _ x); [|exact Q1|exact Q2| |].
    + intros z d. pose proof (proj2 (Dp m z d)) as P. exact P.
    + unfold e1, e2, vx, vy. cbn [fst snd]. ring.
    + destruct Eu as [->| ->]; [cbn [INR]; ring|]. unfold Cmult. cbn [fst snd]. ring.
Qed.
