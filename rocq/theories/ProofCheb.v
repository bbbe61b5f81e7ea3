(** Chebyshev interpolation: Rolle, the error formula, the Lebesgue constant. *)
From Coq Require Import List Arith Bool Lia Reals Lra.
From Verif Require Import ModelBase ModelBernstein RSum ModelInterp SpecInterp ProofInterp ProofH2Entry SpecCheb.
Local Open Scope R_scope.

Lemma finite_choice : forall (P : nat -> R -> Prop) m, (forall i, (i < m)%nat -> exists c, P i c) -> exists c : nat -> R, forall i, (i < m)%nat -> P i (c i).
Proof.
  intros P m. induction m as [|m IH]; intros Q; [exists (fun _ => 0); intros; lia|].
  destruct IH as [c Hc]; [intros; apply Q; lia|]. destruct (Q m ltac:(lia)) as [d Hd].
  exists (fun i => if (i =? m)%nat then d else c i). intros i Hi. destruct (Nat.eqb_spec i m) as [->|]; [exact Hd|apply Hc; lia].
Qed.
(** a function with m+1 zeros has a derivative of order m with a zero *)
Lemma rolle_n : forall m (F : nat -> R -> R) (z : nat -> R), (forall i, (i < m)%nat -> z i < z (S i)) -> (forall i, (i <= m)%nat -> inside (z i)) ->
  (forall i, (i <= m)%nat -> F O (z i) = 0) -> (forall k x, (k < m)%nat -> inside x -> derivable_pt_lim (F k) x (F (S k) x)) ->
  exists c, inside c /\ F m c = 0.
Proof.
  induction m as [|m IH]; intros F z Inc Ins Z D; [exists (z O); split; [apply Ins|apply Z]; lia|].
  destruct (finite_choice (fun i c => z i < c < z (S i) /\ F 1%nat c = 0) (S m)) as [c Hc].
  { intros i Hi. destruct (MVT_cor2 (F O) (F 1%nat) (z i) (z (S i)) (Inc i Hi)) as [c [Ec Bc]].
    - intros c Bc. apply D; [lia|]. pose proof (Ins i ltac:(lia)) as I1. pose proof (Ins (S i) ltac:(lia)) as I2. unfold inside in *. lra.
    - exists c. split; [exact Bc|]. rewrite !Z in Ec by lia. pose proof (Inc i Hi). 
      apply Rmult_eq_reg_r with (z (S i) - z i); lra. }
  destruct (IH (fun k => F (S k)) c) as [d [Hd Ed]].
  - intros i Hi. pose proof (proj1 (Hc i ltac:(lia))). pose proof (proj1 (Hc (S i) ltac:(lia))). lra.
  - intros i Hi. pose proof (proj1 (Hc i ltac:(lia))). pose proof (Ins i ltac:(lia)) as I1. pose proof (Ins (S i) ltac:(lia)) as I2. unfold inside in *. lra.
  - intros i Hi. apply Hc. lia.
  - intros k x Hk Hx. apply D; [lia|exact Hx].
  - exists d. split; assumption.
Qed.
(** a point between increasing nodes *)
Lemma insert_point : forall n (x : nat -> R) t, (forall i, (S i < n)%nat -> x i < x (S i)) -> (forall i, (i < n)%nat -> t <> x i) ->
  exists z : nat -> R, (forall i, (i < n)%nat -> z i < z (S i)) /\ (forall i, (i <= n)%nat -> z i = t \/ exists k, (k < n)%nat /\ z i = x k).
Proof.
  intros n x t Inc Ne.
  assert (J : exists j, (j <= n)%nat /\ (forall i, (i < j)%nat -> x i < t) /\ (forall i, (j <= i)%nat -> (i < n)%nat -> t < x i)).
  { clear - Inc Ne. induction n as [|n IH]; [exists O; repeat split; intros; lia|].
    destruct IH as [j [Hj [A B]]]; [intros; apply Inc; lia|intros; apply Ne; lia|].
    destruct (Rlt_le_dec t (x n)) as [L|L].
    - exists j. split; [lia|]. split; [exact A|]. intros i H1 H2. destruct (Nat.eq_dec i n) as [->|]; [exact L|apply B; lia].
    - assert (Eq : j = n).
      { destruct (Nat.eq_dec j n) as [|Nj]; [assumption|exfalso]. pose proof (B (n - 1)%nat ltac:(lia) ltac:(lia)) as B1.
        pose proof (Inc (n - 1)%nat ltac:(lia)) as I1. replace (S (n - 1)) with n in I1 by lia. lra. }
      subst j. exists (S n). split; [lia|]. split; [|intros; lia]. intros i Hi. destruct (Nat.eq_dec i n) as [->|]; [|apply A; lia].
      pose proof (Ne n ltac:(lia)). lra. }
  destruct J as [j [Hj [A B]]].
  exists (fun i => if (i <? j)%nat then x i else if (i =? j)%nat then t else x (i - 1)%nat). split.
  - intros i Hi. destruct (Nat.ltb_spec i j); destruct (Nat.ltb_spec (S i) j); try lia.
    + apply Inc; lia.
    + destruct (Nat.eqb_spec (S i) j); [apply A; lia|lia].
    + destruct (Nat.eqb_spec (S i) j); [lia|]. replace (S i - 1)%nat with i by lia. destruct (Nat.eqb_spec i j); [apply B; lia|].
      pose proof (Inc (i - 1)%nat ltac:(lia)) as I1. replace (S (i - 1)) with i in I1 by lia. exact I1.
  - intros i Hi. destruct (Nat.ltb_spec i j); [right; exists i; split; [lia|reflexivity]|]. destruct (Nat.eqb_spec i j); [left; reflexivity|].
    right. exists (i - 1)%nat. split; [lia|reflexivity].
Qed.

(** ** polynomials with a leading coefficient, and their derivatives *)
Definition lead (n : nat) (c : R) (p : R -> R) : Prop := exists q, polynomial n q /\ forall t, p t = c * t ^ n + q t.
Lemma lead_ext : forall n c p q, (forall t, p t = q t) -> lead n c p -> lead n c q.
Proof. intros n c p q E [r [Hr H]]. exists r. split; [exact Hr|]. intros t. rewrite <- E. apply H. Qed.
Lemma poly_lead : forall n p, polynomial n p -> lead n 0 p.
Proof. intros n p Hp. exists p. split; [exact Hp|]. intros; ring. Qed.
Lemma lead_plus : forall n c d p q, lead n c p -> lead n d q -> lead n (c + d) (fun t => p t + q t).
Proof. intros n c d p q [r [Hr E]] [s [Hs E']]. exists (fun t => r t + s t). split; [apply poly_plus; assumption|]. intros t. rewrite E, E'. ring. Qed.
Lemma lead_scal : forall n c a p, lead n c p -> lead n (a * c) (fun t => a * p t).
Proof. intros n c a p [r [Hr E]]. exists (fun t => a * r t). split; [apply poly_scal; assumption|]. intros t. rewrite E. ring. Qed.
Lemma lead_poly : forall n c p, lead n c p -> polynomial (S n) p.
Proof.
  intros n c p [q [Hq E]]. apply (poly_ext _ (fun t => c * t ^ n + q t)); [intros; symmetry; apply E|]. apply poly_plus; [|apply (poly_mono n); [lia|exact Hq]].
  exists (fun k => if (k =? n)%nat then c else 0). intros t. cbn [rsum]. rewrite Nat.eqb_refl, rsum_zero; [ring|]. intros i Hi. destruct (Nat.eqb_spec i n); [lia|ring].
Qed.
Lemma lead_lin : forall n c p a b, lead n c p -> lead (S n) (a * c) (fun t => (a * t + b) * p t).
Proof.
  intros n c p a b Hp. pose proof (lead_poly _ _ _ Hp) as P. destruct Hp as [q [Hq E]].
  exists (fun t => a * (t * q t) + b * p t). split; [apply poly_plus; apply poly_scal; [apply poly_id_mul, Hq|exact P]|]. intros t. rewrite (E t). cbn [pow]. ring.
Qed.
Lemma lead_low : forall n c p, lead n c p -> lead (S n) 0 p.
Proof. intros n c p Hp. apply poly_lead, (lead_poly _ c), Hp. Qed.
Lemma lead_sub_poly : forall n c p q, lead n c p -> lead n c q -> polynomial n (fun t => p t - q t).
Proof.
  intros n c p q [r [Hr E]] [s [Hs E']]. apply (poly_ext _ (fun t => r t + (-1) * s t)); [intros t; rewrite E, E'; ring|]. apply poly_plus; [exact Hr|apply poly_scal, Hs].
Qed.
Lemma poly_derive : forall n p, polynomial (S n) p -> exists q, polynomial n q /\ forall x, derivable_pt_lim p x (q x).
Proof.
  intros n. induction n as [|n IH]; intros p Hp.
  - apply poly_S in Hp. destruct Hp as [c [q [Hq E]]]. exists (fun _ => 0). split; [apply poly_0; reflexivity|]. intros x.
    apply (derivable_pt_lim_ext (fun _ => c)); [|apply derivable_pt_lim_const]. intros t. rewrite E, (proj1 (poly_0 q) Hq t). ring.
  - apply poly_S in Hp. destruct Hp as [c [q [Hq E]]]. destruct (IH q Hq) as [r [Hr D]]. exists (fun t => q t + t * r t).
    split; [apply poly_plus; [exact Hq|apply poly_id_mul, Hr]|]. intros x.
    apply (derivable_pt_lim_ext (fun t => c + t * q t)); [intros; symmetry; apply E|].
    replace (q x + x * r x) with (0 + (1 * q x + x * r x)) by ring.
    apply (derivable_pt_lim_plus (fun _ => c) (fun t => t * q t)); [apply derivable_pt_lim_const|].
    apply (derivable_pt_lim_mult (fun t => t) q); [apply derivable_pt_lim_id|apply D].
Qed.
Lemma lead_derive : forall n c p, lead (S n) c p -> exists q, lead n (c * INR (S n)) q /\ forall x, derivable_pt_lim p x (q x).
Proof.
  intros n c p [q [Hq E]]. destruct (poly_derive n q Hq) as [r [Hr D]]. exists (fun t => c * (INR (S n) * t ^ n) + r t). split.
  - exists r. split; [exact Hr|]. intros; ring.
  - intros x. apply (derivable_pt_lim_ext (fun t => c * t ^ S n + q t)); [intros; symmetry; apply E|].
    apply (derivable_pt_lim_plus (fun t => c * t ^ S n) q); [|apply D]. apply (derivable_pt_lim_scal (fun t => t ^ S n)). 
    change (INR (S n) * x ^ n) with (INR (S n) * x ^ pred (S n)). apply derivable_pt_lim_pow.
Qed.
Lemma lead_family : forall n c p, lead n c p -> exists P : nat -> R -> R, (forall x, P O x = p x) /\ (forall k x, (k < n)%nat -> derivable_pt_lim (P k) x (P (S k) x)) /\ forall x, P n x = c * INR (fact n).
Proof.
  induction n as [|n IH]; intros c p Hp.
  - exists (fun _ => p). split; [reflexivity|]. split; [intros; lia|]. intros x. destruct Hp as [q [Hq E]]. rewrite E, (proj1 (poly_0 q) Hq x). simpl. ring.
  - destruct (lead_derive n c p Hp) as [q [Hq D]]. destruct (IH _ _ Hq) as [Q [Q0 [QD Qn]]].
    exists (fun k => match k with O => p | S j => Q j end). split; [reflexivity|]. split.
    + intros [|k] x Hk; [|apply QD; lia]. rewrite Q0. apply D.
    + intros x. rewrite Qn. rewrite fact_simpl, mult_INR. ring.
Qed.
Lemma nodal_lead : forall n (x : nat -> R), lead n 1 (fun t => rprod (fun i => t - x i) n).
Proof.
  induction n as [|n IH]; intros x; [exists (fun _ => 0); split; [apply poly_0; reflexivity|intros; simpl; ring]|].
  apply (lead_ext _ _ (fun t => (1 * t + - x n) * rprod (fun i => t - x i) n)); [intros; simpl; ring|].
  replace 1 with (1 * 1) at 1 by ring. apply lead_lin, IH.
Qed.
(** ** the error of interpolation *)
Lemma interpolation_error : forall n x B f t, (forall i, (S i < n)%nat -> x i < x (S i)) -> distinct n x -> (forall i, (i < n)%nat -> inside (x i)) -> inside t ->
  derivative_bounded n B f -> Rabs (f t - interpolant n x (fun i => f (x i)) t) * INR (fact n) <= B * Rabs (rprod (fun i => t - x i) n).
Proof.
  intros n x B f t Inc Dx Ix It [F [F0 [FD FB]]].
  assert (Bp : 0 <= B) by (eapply Rle_trans; [apply Rabs_pos|apply (FB t It)]).
  destruct (Req_dec (rprod (fun i => t - x i) n) 0) as [Z|NZ].
  - assert (K : exists k, (k < n)%nat /\ t = x k).
    { clear - Z. induction n as [|n IH]; [simpl in Z; lra|]. simpl in Z. apply Rmult_integral in Z. destruct Z as [Z|Z].
      - destruct (IH Z) as [k [Hk E]]. exists k. split; [lia|exact E].
      - exists n. split; [lia|lra]. }
    destruct K as [k [Hk ->]]. rewrite interpolant_node by assumption. replace (f (x k) - f (x k)) with 0 by ring. rewrite Rabs_R0, Rmult_0_l.
    apply Rmult_le_pos; [exact Bp|apply Rabs_pos].
  - set (W := fun s => rprod (fun i => s - x i) n) in *. set (p := interpolant n x (fun i => f (x i))). set (e := f t - p t).
    assert (Lp : lead n 0 p) by (apply poly_lead, interpolant_poly).
    destruct (lead_family n 0 p Lp) as [P [P0 [PD Pn]]]. destruct (lead_family n 1 W (nodal_lead n x)) as [V [V0 [VD Vn]]].
    assert (Nt : forall i, (i < n)%nat -> t <> x i). { intros i Hi Q. apply NZ. apply (rprod_zero _ n i Hi). rewrite Q. ring. }
    destruct (insert_point n x t Inc Nt) as [z [Zi Zx]].
    destruct (rolle_n n (fun k s => W t * (F k s - P k s) - e * V k s) z) as [c [Ic Ec]].
    + exact Zi.
    + intros i Hi. destruct (Zx i Hi) as [->|[k [Hk ->]]]; [exact It|apply Ix; exact Hk].
    + intros i Hi. destruct (Zx i Hi) as [->|[k [Hk ->]]].
      * rewrite F0 by exact It. rewrite P0, V0. unfold e. ring.
      * rewrite F0 by (apply Ix; exact Hk). rewrite P0, V0. unfold p. rewrite interpolant_node by assumption.
        unfold W at 2. rewrite (rprod_zero _ n k Hk) by ring. ring.
    + intros k s Hk Is. apply (derivable_pt_lim_minus (fun s => W t * (F k s - P k s)) (fun s => e * V k s)).
      * apply (derivable_pt_lim_scal (fun s => F k s - P k s)). apply (derivable_pt_lim_minus (F k) (P k)); [apply FD; assumption|apply PD; exact Hk].
      * apply (derivable_pt_lim_scal (V k)). apply VD; exact Hk.
    + cbv beta in Ec. rewrite Pn, Vn in Ec. assert (Ee : e * INR (fact n) = W t * F n c) by lra.
      replace (Rabs e * INR (fact n)) with (Rabs (e * INR (fact n))) by (rewrite Rabs_mult, (Rabs_right (INR _)); [reflexivity|apply Rle_ge, pos_INR]).
      rewrite Ee, Rabs_mult. rewrite Rmult_comm. apply Rmult_le_compat_r; [apply Rabs_pos|apply FB, Ic].
Qed.

(** ** Chebyshev polynomials *)
Fixpoint cheb_pair (n : nat) (u : R) : R * R :=
  match n with O => (1, u) | S m => let (a, b) := cheb_pair m u in (b, 2 * u * b - a) end.
Definition chebT (n : nat) (u : R) : R := fst (cheb_pair n u).
Lemma cheb_pair_snd : forall n u, snd (cheb_pair n u) = chebT (S n) u.
Proof. intros n u. unfold chebT. simpl. destruct (cheb_pair n u); reflexivity. Qed.
Lemma chebT_0 : forall u, chebT 0 u = 1. Proof. reflexivity. Qed.
Lemma chebT_1 : forall u, chebT 1 u = u. Proof. reflexivity. Qed.
Lemma chebT_SS : forall n u, chebT (S (S n)) u = 2 * u * chebT (S n) u - chebT n u.
Proof. intros n u. rewrite <- !cheb_pair_snd. unfold chebT. simpl. destruct (cheb_pair n u); reflexivity. Qed.
Lemma nat_ind2 : forall P : nat -> Prop, P O -> P 1%nat -> (forall n, P n -> P (S n) -> P (S (S n))) -> forall n, P n.
Proof. intros P H0 H1 HS n. assert (P n /\ P (S n)) as [G _]; [|exact G]. induction n as [|n [I1 I2]]; [split; assumption|]. split; [exact I2|apply HS; assumption]. Qed.
Lemma chebT_cos : forall n a, chebT n (cos a) = cos (INR n * a).
Proof.
  intros n a. induction n as [| |n I1 I2] using nat_ind2.
  - rewrite chebT_0. simpl. rewrite Rmult_0_l, cos_0. reflexivity.
  - rewrite chebT_1. simpl. rewrite Rmult_1_l. reflexivity.
  - rewrite chebT_SS, I1, I2. rewrite !S_INR. set (k := INR n). replace ((k + 1 + 1) * a) with ((k + 1) * a + a) by ring. replace (k * a) with ((k + 1) * a - a) by ring.
    rewrite cos_plus, cos_minus. ring.
Qed.
Lemma chebT_bound : forall n u, -1 <= u <= 1 -> Rabs (chebT n u) <= 1.
Proof. intros n u B. rewrite <- (cos_acos u B). rewrite chebT_cos. apply Rabs_le, COS_bound. Qed.
(** shifted to the unit interval: leading coefficient 4^n / 2 *)
Lemma chebT_lead : forall n, lead (S n) (2 * 4 ^ n) (fun t => chebT (S n) (2 * t - 1)) /\ lead (S (S n)) (2 * 4 ^ S n) (fun t => chebT (S (S n)) (2 * t - 1)).
Proof.
  induction n as [|n [I1 I2]].
  - assert (L0 : lead 0 1 (fun _ => 1)) by (exists (fun _ => 0); split; [apply poly_0; reflexivity|intros; simpl; ring]).
    assert (L1 : lead 1 (2 * 4 ^ 0) (fun t => chebT 1 (2 * t - 1))).
    { replace (2 * 4 ^ 0) with (2 * 1) by (simpl; ring). apply (lead_ext _ _ (fun t => (2 * t + -1) * 1)); [intros; rewrite chebT_1; ring|]. apply lead_lin, L0. }
    split; [exact L1|]. replace (2 * 4 ^ 1) with (4 * (2 * 4 ^ 0) + 0) by (simpl; ring).
    apply (lead_ext _ _ (fun t => (4 * t + -2) * chebT 1 (2 * t - 1) + (-1))); [intros; rewrite chebT_SS, chebT_0; ring|].
    apply (lead_plus _ _ _ (fun t => (4 * t + -2) * chebT 1 (2 * t - 1)) (fun _ => -1)); [apply lead_lin, L1|apply poly_lead, poly_const; lia].
  - split; [exact I2|]. replace (2 * 4 ^ S (S n)) with (4 * (2 * 4 ^ S n) + -1 * 0) by (simpl; ring).
    apply (lead_ext _ _ (fun t => (4 * t + -2) * chebT (S (S n)) (2 * t - 1) + -1 * chebT (S n) (2 * t - 1))); [intros; rewrite (chebT_SS (S n)); ring|].
    apply (lead_plus _ _ _ (fun t => (4 * t + -2) * chebT (S (S n)) (2 * t - 1)) (fun t => -1 * chebT (S n) (2 * t - 1))); [apply lead_lin, I2|]. apply lead_scal, (lead_low _ _ _ (lead_low _ _ _ I1)).
Qed.
(** the angle of the i-th point *)
Definition theta (n i : nat) : R := PI / (2 * INR n) * (2 * INR (n - i) - 1).
Lemma cheb_theta : forall n i, 2 * chebychev n i - 1 = cos (theta n i).
Proof. intros. unfold chebychev, theta. field. Qed.
Lemma cos_odd : forall k, cos (INR k * PI + PI / 2) = 0.
Proof.
  induction k as [|k IH]; [simpl; rewrite Rmult_0_l, Rplus_0_l; apply cos_PI2|]. rewrite S_INR. replace ((INR k + 1) * PI + PI / 2) with (INR k * PI + PI / 2 + PI) by ring.
  rewrite neg_cos, IH. ring.
Qed.
Lemma chebT_root : forall n i, (i < n)%nat -> chebT n (2 * chebychev n i - 1) = 0.
Proof.
  intros n i Hi. rewrite cheb_theta, chebT_cos. unfold theta. assert (Hn : INR n <> 0) by (apply not_0_INR; lia).
  replace (INR n * (PI / (2 * INR n) * (2 * INR (n - i) - 1))) with (INR (n - i - 1) * PI + PI / 2); [apply cos_odd|].
  rewrite (minus_INR (n - i) 1) by lia. simpl (INR 1). field. exact Hn.
Qed.
Lemma nodal_cheb : forall n t, (0 < n)%nat -> rprod (fun i => t - chebychev n i) n = 2 / 4 ^ n * chebT n (2 * t - 1).
Proof.
  intros [|n] t Hn; [lia|]. set (m := S n). pose proof (chebT_lead n) as [L _]. fold m in L.
  assert (L2 : lead m 1 (fun s => 2 / 4 ^ m * chebT m (2 * s - 1))).
  { assert (E1 : 2 / 4 ^ m * (2 * 4 ^ n) = 1) by (unfold m; cbn [pow]; field; apply pow_nonzero; lra).
    pose proof (lead_scal m _ (2 / 4 ^ m) (fun t => chebT m (2 * t - 1)) L) as L3. rewrite E1 in L3. exact L3. }
  pose proof (lead_sub_poly m 1 _ _ (nodal_lead m (chebychev m)) L2) as P.
  assert (Z : rprod (fun i => t - chebychev m i) m - 2 / 4 ^ m * chebT m (2 * t - 1) = 0); [|lra].
  apply (poly_zero m _ (chebychev m) P (cheb_distinct m)). intros i Hi. rewrite (rprod_zero _ m i Hi) by ring. rewrite chebT_root by exact Hi. ring.
Qed.
Lemma nodal_bound : forall n t, (0 < n)%nat -> 0 <= t <= 1 -> Rabs (rprod (fun i => t - chebychev n i) n) <= 2 / 4 ^ n.
Proof.
  intros n t Hn Ht. rewrite nodal_cheb by exact Hn. assert (P : 0 < 2 / 4 ^ n) by (apply Rdiv_lt_0_compat; [lra|apply pow_lt; lra]).
  rewrite Rabs_mult, (Rabs_right (2 / 4 ^ n)) by lra. rewrite <- (Rmult_1_r (2 / 4 ^ n)) at 2. apply Rmult_le_compat_l; [lra|]. apply chebT_bound. lra.
Qed.
Lemma cheb_interpolation : forall n B f t, (0 < n)%nat -> inside t -> derivative_bounded n B f ->
  Rabs (f t - interpolant n (chebychev n) (fun i => f (chebychev n i)) t) <= cheb_error n B.
Proof.
  intros n B f t Hn It Df. assert (Bp : 0 <= B) by (destruct Df as [F [_ [_ FB]]]; eapply Rle_trans; [apply Rabs_pos|apply (FB t It)]).
  pose proof (interpolation_error n (chebychev n) B f t (fun i Hi => cheb_lt n i (S i) (Nat.lt_succ_diag_r i) Hi) (cheb_distinct n) (cheb_range n) It Df) as E.
  pose proof (nodal_bound n t Hn ltac:(unfold inside in It; lra)) as Nb. pose proof (INR_fact_lt_0 n) as Fp.
  assert (P4 : 0 < 4 ^ n) by (apply pow_lt; lra).
  unfold cheb_error. apply Rmult_le_reg_r with (INR (fact n)); [exact Fp|]. eapply Rle_trans; [exact E|].
  replace (2 * B / (4 ^ n * INR (fact n)) * INR (fact n)) with (B * (2 / 4 ^ n)) by (field; split; lra). apply Rmult_le_compat_l; assumption.
Qed.

(** ** the Lebesgue constant *)
Definition dirichlet (n : nat) (g : R) : R := 1 + 2 * rsum (fun k => cos (INR (S k) * g)) (n - 1).
Lemma dirichlet_sin : forall m g, sin (g / 2) * (1 + 2 * rsum (fun k => cos (INR (S k) * g)) m) = sin ((INR m + 1 / 2) * g).
Proof.
  induction m as [|m IH]; intros g; [simpl; rewrite Rmult_0_r, Rplus_0_r, Rmult_1_r; f_equal; field|].
  cbn [rsum]. replace (sin (g / 2) * (1 + 2 * (rsum (fun k => cos (INR (S k) * g)) m + cos (INR (S m) * g)))) with
    (sin (g / 2) * (1 + 2 * rsum (fun k => cos (INR (S k) * g)) m) + 2 * (sin (g / 2) * cos (INR (S m) * g))) by ring.
  rewrite IH, !S_INR. replace ((INR m + 1 / 2) * g) with ((INR m + 1) * g - g / 2) by field. replace ((INR m + 1 + 1 / 2) * g) with ((INR m + 1) * g + g / 2) by field.
  rewrite sin_minus, sin_plus. ring.
Qed.
Lemma cos_sin_mult : forall m, sin (INR m * PI) = 0 /\ cos (INR m * PI) = (-1) ^ m.
Proof.
  induction m as [|m [I1 I2]]; [simpl; rewrite Rmult_0_l, sin_0, cos_0; split; reflexivity|]. rewrite S_INR. replace ((INR m + 1) * PI) with (INR m * PI + PI) by ring.
  rewrite neg_sin, neg_cos, I1, I2. simpl. split; ring.
Qed.
Lemma dirichlet_value : forall n m, (0 < m)%nat -> (m < 2 * n)%nat -> dirichlet n (INR m * PI / INR n) = - (-1) ^ m.
Proof.
  intros n m H0 H1. assert (Hn : 0 < INR n) by (apply lt_0_INR; lia). set (g := INR m * PI / INR n).
  assert (M1 : 0 < INR m) by (apply lt_0_INR; lia). assert (M2 : INR m < 2 * INR n) by (change 2 with (INR 2); rewrite <- mult_INR; apply lt_INR; lia). pose proof PI_RGT_0 as Pp.
  assert (S0 : 0 < sin (g / 2)).
  { assert (Eg : g / 2 = PI * (INR m / (2 * INR n))) by (unfold g; field; lra). assert (Q : 0 < INR m / (2 * INR n) < 1).
    { split; [apply Rdiv_lt_0_compat; lra|]. apply Rmult_lt_reg_r with (2 * INR n); [lra|]. unfold Rdiv. rewrite Rmult_assoc, Rinv_l by lra. lra. }
    apply sin_gt_0; rewrite Eg; [apply Rmult_lt_0_compat; lra|]. rewrite <- (Rmult_1_r PI) at 2. apply Rmult_lt_compat_l; lra. }
  apply Rmult_eq_reg_l with (sin (g / 2)); [|lra]. unfold dirichlet. rewrite dirichlet_sin.
  replace ((INR (n - 1) + 1 / 2) * g) with (INR m * PI - g / 2) by (rewrite minus_INR by lia; unfold g; simpl (INR 1); field; lra).
  rewrite sin_minus. destruct (cos_sin_mult m) as [-> ->]. ring.
Qed.
Lemma dirichlet_0 : forall n, (0 < n)%nat -> dirichlet n 0 = 2 * INR n - 1.
Proof.
  intros n Hn. unfold dirichlet. rewrite (rsum_ext _ (fun _ => 1)) by (intros; rewrite Rmult_0_r; apply cos_0). rewrite rsum_const, minus_INR by lia. simpl (INR 1). ring.
Qed.
Definition cheb_card (n i : nat) (t : R) : R := / INR n * (1 + 2 * rsum (fun k => cos (INR (S k) * theta n i) * chebT (S k) (2 * t - 1)) (n - 1)).
Lemma cheb_card_poly : forall n i, (0 < n)%nat -> polynomial n (cheb_card n i).
Proof.
  intros n i Hn. unfold cheb_card. apply poly_scal. apply (poly_plus n (fun _ => 1)); [apply poly_const, Hn|]. apply poly_scal. apply (poly_sum n). intros k Hk.
  apply poly_scal. pose proof (chebT_lead k) as [L _]. apply (poly_mono (S (S k))); [lia|]. apply (lead_poly _ _ _ L).
Qed.
Lemma cheb_card_dirichlet : forall n i j, cheb_card n i (chebychev n j) = / INR n * (/ 2 * (dirichlet n (theta n i - theta n j) + dirichlet n (theta n i + theta n j))).
Proof.
  intros n i j. unfold cheb_card, dirichlet. f_equal.
  replace (/ 2 * _) with (1 + (rsum (fun k => cos (INR (S k) * (theta n i - theta n j))) (n - 1) + rsum (fun k => cos (INR (S k) * (theta n i + theta n j))) (n - 1))) by field.
  f_equal. rewrite <- rsum_plus, <- rsum_scal. apply rsum_ext. intros k _. rewrite cheb_theta, chebT_cos.
  rewrite Rmult_minus_distr_l, Rmult_plus_distr_l, cos_minus, cos_plus. ring.
Qed.
Lemma dirichlet_opp : forall n g, dirichlet n (- g) = dirichlet n g.
Proof. intros n g. unfold dirichlet. do 2 f_equal. apply rsum_ext. intros k _. rewrite <- cos_neg. f_equal. ring. Qed.
Lemma pow_neg_even : forall k, (-1) ^ (2 * k) = 1. Proof. intros k. rewrite pow_mult. replace ((-1) ^ 2) with 1 by (simpl; ring). apply pow1. Qed.
Lemma theta_diff : forall n i j, (i <= j)%nat -> (j < n)%nat -> theta n i - theta n j = INR (j - i) * PI / INR n.
Proof. intros n i j H1 H2. unfold theta. rewrite !minus_INR by lia. field. apply not_0_INR. lia. Qed.
Lemma theta_sum : forall n i j, (i < n)%nat -> (j < n)%nat -> theta n i + theta n j = INR (2 * n - i - j - 1) * PI / INR n.
Proof.
  intros n i j H1 H2. unfold theta. assert (E : INR (2 * n - i - j - 1) = 2 * INR n - INR i - INR j - 1) by (rewrite !minus_INR by lia; rewrite mult_INR; simpl (INR 1); simpl (INR 2); ring).
  rewrite E, !minus_INR by lia. field. apply not_0_INR. lia.
Qed.
Lemma parity_cancel : forall a b k, (a + b = 2 * k + 1)%nat -> (-1) ^ a + (-1) ^ b = 0.
Proof.
  intros a b k E. assert (Q : (-1) ^ a * (-1) ^ b = -1) by (rewrite <- pow_add, E, pow_add, pow_neg_even; simpl; ring).
  assert (S1 : forall c, (-1) ^ c = 1 \/ (-1) ^ c = -1) by (induction c as [|c [I|I]]; simpl; [left; reflexivity|right; rewrite I; ring|left; rewrite I; ring]).
  destruct (S1 a) as [A|A]; destruct (S1 b) as [B|B]; rewrite A, B in *; lra.
Qed.
Lemma cheb_card_node : forall n i j, (i < n)%nat -> (j < n)%nat -> cheb_card n i (chebychev n j) = if (j =? i)%nat then 1 else 0.
Proof.
  intros n i j Hi Hj. assert (Hn : INR n <> 0) by (apply not_0_INR; lia). rewrite cheb_card_dirichlet, theta_sum by assumption. rewrite dirichlet_value by lia.
  destruct (Nat.eqb_spec j i) as [->|Ne].
  - replace (theta n i - theta n i) with 0 by ring. rewrite dirichlet_0 by lia.
    replace (2 * n - i - i - 1)%nat with (2 * (n - i - 1) + 1)%nat by lia. rewrite pow_add, pow_neg_even. simpl. field. exact Hn.
  - assert (Dv : exists m, (m + (2 * n - i - j - 1) = 2 * (n - Nat.min i j - 1) + 1)%nat /\ dirichlet n (theta n i - theta n j) = - (-1) ^ m).
    { destruct (Nat.le_gt_cases i j) as [L|L].
      - exists (j - i)%nat. split; [lia|]. rewrite theta_diff by lia. apply dirichlet_value; lia.
      - exists (i - j)%nat. split; [lia|]. replace (theta n i - theta n j) with (- (theta n j - theta n i)) by ring. rewrite dirichlet_opp, theta_diff by lia. apply dirichlet_value; lia. }
    destruct Dv as [m [Em ->]]. pose proof (parity_cancel _ _ _ Em) as Q. replace (- (-1) ^ m + - (-1) ^ (2 * n - i - j - 1)) with 0 by lra. ring.
Qed.
Lemma lagrange_cheb : forall n i t, (i < n)%nat -> lagrange n (chebychev n) i t = cheb_card n i t.
Proof.
  intros n i t Hi. apply (poly_unique n _ _ (chebychev n)); [apply lagrange_poly, Hi|apply cheb_card_poly; lia|apply cheb_distinct|].
  intros j Hj. rewrite lagrange_node by (assumption || apply cheb_distinct). symmetry. apply cheb_card_node; assumption.
Qed.
Lemma rsum_abs : forall f n, Rabs (rsum f n) <= rsum (fun i => Rabs (f i)) n.
Proof. intros f n. induction n as [|n IH]; [simpl; rewrite Rabs_R0; lra|]. simpl. eapply Rle_trans; [apply Rabs_triang|]. lra. Qed.
Lemma lagrange_bound : forall n i t, (i < n)%nat -> 0 <= t <= 1 -> Rabs (lagrange n (chebychev n) i t) <= (2 * INR n - 1) / INR n.
Proof.
  intros n i t Hi Ht. assert (Hn : 0 < INR n) by (apply lt_0_INR; lia). rewrite lagrange_cheb by exact Hi. unfold cheb_card.
  rewrite Rabs_mult, (Rabs_right (/ INR n)) by (apply Rle_ge, Rlt_le, Rinv_0_lt_compat, Hn). unfold Rdiv. rewrite (Rmult_comm (2 * INR n - 1)).
  apply Rmult_le_compat_l; [apply Rlt_le, Rinv_0_lt_compat, Hn|]. eapply Rle_trans; [apply Rabs_triang|]. rewrite Rabs_R1, Rabs_mult, (Rabs_right 2) by lra.
  assert (Q : Rabs (rsum (fun k => cos (INR (S k) * theta n i) * chebT (S k) (2 * t - 1)) (n - 1)) <= INR (n - 1) * 1).
  { rewrite <- rsum_const. eapply Rle_trans; [apply rsum_abs|]. apply rsum_le. intros k _. rewrite Rabs_mult. rewrite <- (Rmult_1_r 1).
    apply Rmult_le_compat; try apply Rabs_pos; [apply Rabs_le, COS_bound|apply chebT_bound; lra]. }
  rewrite minus_INR in Q by lia. simpl (INR 1) in Q. lra.
Qed.
Lemma lebesgue : forall n t, 0 <= t <= 1 -> (0 < n)%nat -> rsum (fun i => Rabs (lagrange n (chebychev n) i t)) n <= 2 * INR n - 1.
Proof.
  intros n t Ht Hn. assert (Np : 0 < INR n) by (apply lt_0_INR; lia). eapply Rle_trans; [apply rsum_le; intros i Hi; apply lagrange_bound; assumption|]. rewrite rsum_const.
  apply Req_le. field. lra.
Qed.
Lemma interp_stable : forall n t e g v, 0 <= t <= 1 -> (0 < n)%nat -> (forall i, (i < n)%nat -> Rabs (g i - v i) <= e) ->
  Rabs (rsum (fun i => g i * lagrange n (chebychev n) i t) n - rsum (fun i => v i * lagrange n (chebychev n) i t) n) <= (2 * INR n - 1) * e.
Proof.
  intros n t e g v Ht Hn B. rewrite <- rsum_minus. eapply Rle_trans; [apply rsum_abs|].
  assert (e0 : 0 <= e) by (eapply Rle_trans; [apply Rabs_pos|apply (B O Hn)]).
  eapply Rle_trans; [|apply Rmult_le_compat_r; [exact e0|apply (lebesgue n t Ht Hn)]]. rewrite <- rsum_scal_r. apply rsum_le. intros i Hi.
  replace (g i * lagrange n (chebychev n) i t - v i * lagrange n (chebychev n) i t) with ((g i - v i) * lagrange n (chebychev n) i t) by ring.
  rewrite Rabs_mult, Rmult_comm. apply Rmult_le_compat_l; [apply Rabs_pos|apply B, Hi].
Qed.
(** ** four variables *)
Lemma interpolated_error : forall n B K s t, (0 < n)%nat -> kernel_bounded n B K -> inside (fst s) -> inside (snd s) -> inside (fst t) -> inside (snd t) ->
  Rabs (interpolated n (chebychev n) K s t - K s t) <= cheb_error4 n B.
Proof.
  intros n B K [s1 s2] [t1 t2] Hn [K1 [K2 [K3 K4]]] I1 I2 I3 I4. cbn [fst snd] in *. set (x := chebychev n). set (E := cheb_error n B). set (L := 2 * INR n - 1).
  assert (Ix : forall i, (i < n)%nat -> inside (x i)) by (intros; apply cheb_range; assumption).
  assert (Cl : forall u, inside u -> 0 <= u <= 1) by (unfold inside; intros; lra).
  assert (St : forall f, derivative_bounded n B f -> forall u, inside u -> Rabs (interpolant n x (fun i => f (x i)) u - f u) <= E).
  { intros f Hf u Hu. rewrite Rabs_minus_sym. apply cheb_interpolation; assumption. }
  assert (Step : forall (g : nat -> R) f e u, derivative_bounded n B f -> inside u -> (forall i, (i < n)%nat -> Rabs (g i - f (x i)) <= e) ->
    Rabs (interpolant n x g u - f u) <= L * e + E).
  { intros g f e u Hf Hu Hg. replace (interpolant n x g u - f u) with ((interpolant n x g u - interpolant n x (fun i => f (x i)) u) + (interpolant n x (fun i => f (x i)) u - f u)) by ring.
    eapply Rle_trans; [apply Rabs_triang|]. apply Rplus_le_compat; [apply interp_stable; auto|apply St; assumption]. }
  assert (Eq : interpolated n x K (s1, s2) (t1, t2) = interpolant n x (fun i => interpolant n x (fun j => interpolant n x (fun i' => interpolant n x (fun j' => K (x i, x j) (x i', x j')) t2) t1) s2) s1).
  { unfold interpolated, interpolant. cbn [fst snd]. apply rsum_ext. intros i _. rewrite <- rsum_scal_r. apply rsum_ext. intros j _. rewrite <- !rsum_scal_r. apply rsum_ext. intros i' _.
    rewrite <- !rsum_scal_r. apply rsum_ext. intros j' _. ring. }
  rewrite Eq. replace (cheb_error4 n B) with (L * (L * (L * E + E) + E) + E) by (unfold cheb_error4; fold L; fold E; ring).
  apply (Step _ (fun a => K (a, s2) (t1, t2))); [apply K1; assumption|assumption|]. intros i Hi.
  apply (Step _ (fun b => K (x i, b) (t1, t2))); [apply K2; auto|assumption|]. intros j Hj.
  apply (Step _ (fun c => K (x i, x j) (c, t2))); [apply K3; auto|assumption|]. intros i' Hi'.
  apply (St (fun d => K (x i, x j) (x i', d))); [apply K4; auto|assumption].
Qed.
