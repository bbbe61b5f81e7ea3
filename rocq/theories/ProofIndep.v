(** Linear independence of B-splines. *)
From Coq Require Import Reals Lra Lia Arith List.
From Verif Require Import RSum ModelBase ModelBernstein ModelDeBoor SpecDeBoor ProofDeBoor ProofDeBoorDer.
Import ListNotations.
Local Open Scope R_scope.

Lemma zero_derivative : forall (f : R -> R) a b x d, a < x < b -> (forall y, a < y < b -> f y = 0) -> derivable_pt_lim f x d -> d = 0.
Proof.
  intros f a b x d Hx H0 D. destruct (Req_dec d 0) as [E|Ne]; [exact E|exfalso].
  assert (E0 : 0 < Rabs d) by (apply Rabs_pos_lt; exact Ne). destruct (D (Rabs d) E0) as [[del Hd] D1]. cbn [pos] in D1.
  set (h := Rmin (del / 2) ((b - x) / 2)). assert (Hh : 0 < h) by (apply Rmin_pos; lra).
  assert (h < del) by (pose proof (Rmin_l (del / 2) ((b - x) / 2)); unfold h; lra). assert (h < b - x) by (pose proof (Rmin_r (del / 2) ((b - x) / 2)); unfold h; lra).
  specialize (D1 h ltac:(lra) ltac:(rewrite Rabs_right; lra)). rewrite !H0 in D1 by lra. replace ((0 - 0) / h - d) with (- d) in D1 by (field; lra). rewrite Rabs_Ropp in D1. lra.
Qed.

(** the pieces sum to one *)
Lemma bs_partition : forall t N l x p, mono t N -> t l < t (l + 1)%nat -> (p <= l)%nat -> forall n, (l < n)%nat -> (n + p < N)%nat ->
  rsum (fun i => bs t l p i x) n = 1.
Proof.
  intros t N l x p Mo Hl. induction p as [|p IH]; intros Hp n Hn HN.
  - rewrite (rsum_single _ n l) by (lia || (intros i _ Ne; cbn [bs]; apply Nat.eqb_neq in Ne; rewrite Ne; reflexivity)). cbn [bs]. rewrite Nat.eqb_refl. reflexivity.
  - rewrite (rsum_ext _ (fun i => (x - t i) * ai t i (S p) * bs t l p i x + (t (i + 1 + S p)%nat - x) * ai t (i + 1) (S p) * bs t l p (i + 1) x)) by (intros; apply bs_S).
    rewrite rsum_plus. destruct n as [|n]; [lia|]. rewrite (rsum_shift (fun i => (x - t i) * ai t i (S p) * bs t l p i x)).
    rewrite (rsum_S (fun i => (t (i + 1 + S p)%nat - x) * ai t (i + 1) (S p) * bs t l p (i + 1) x)).
    rewrite (bs_support t l x p 0), (bs_support t l x p (n + 1)) by lia. rewrite !Rmult_0_r, Rplus_0_l, Rplus_0_r, <- rsum_plus.
    rewrite (rsum_ext _ (fun i => bs t l p (S i) x)).
    + pose proof (IH ltac:(lia) (S n) ltac:(lia) ltac:(lia)) as Q. rewrite (rsum_shift (fun i => bs t l p i x)), (bs_support t l x p 0) in Q by lia. lra.
    + intros i Hi. replace (i + 1)%nat with (S i) by lia. destruct (le_lt_dec (S i) l) as [L|L].
      * destruct (le_lt_dec l (S i + p)) as [L'|L'].
        -- assert (A1 : t (S i) <= t l) by (apply Mo; lia). assert (A2 : t (l + 1)%nat <= t (S i + S p)%nat) by (apply Mo; lia).
           unfold ai. destruct Req_EM_T as [E|E]; [lra|]. field. lra.
        -- rewrite bs_support by lia. ring.
      * rewrite bs_support by lia. ring.
Qed.

Lemma bs_indep : forall p t N l n (c : nat -> R), mono t N -> (n + p < N)%nat -> (p <= l < n)%nat -> t l < t (l + 1)%nat ->
  (forall x, t l < x < t (l + 1)%nat -> rsum (fun i => c i * bs t l p i x) n = 0) ->
  forall i, (i <= l <= i + p)%nat -> c i = 0.
Proof.
  induction p as [|p IH]; intros t N l n c Mo HN Hl Tl Z i Hi.
  - assert (i = l) by lia. subst i. specialize (Z ((t l + t (l + 1)%nat) / 2) ltac:(lra)).
    rewrite (rsum_single _ n l) in Z by (lia || (intros j _ Ne; cbn [bs]; apply Nat.eqb_neq in Ne; rewrite Ne; ring)). cbn [bs] in Z. rewrite Nat.eqb_refl in Z. lra.
  - assert (St : forall j, (j < l <= j + S p)%nat -> c (j + 1)%nat = c j).
    { intros j Hj. assert (Q : INR (S p) * ai t (j + 1) (S p) * (c (j + 1)%nat - c j) = 0).
      { apply (IH (fun j => t (S j)) (N - 1)%nat (l - 1)%nat (n - 1)%nat (fun j => INR (S p) * ai t (j + 1) (S p) * (c (j + 1)%nat - c j))); try lia.
        - intros a b Hab Hb. apply Mo; lia.
        - cbn beta. replace (S (l - 1))%nat with l by lia. replace (S (l - 1 + 1))%nat with (l + 1)%nat by lia. exact Tl.
        - replace (S (l - 1))%nat with l by lia. replace (S (l - 1 + 1))%nat with (l + 1)%nat by lia. intros x Hx.
          rewrite (rsum_ext _ (fun i => (INR (S p) * ai t (i + 1) (S p) * (c (i + 1)%nat - c i)) * bs t l p (i + 1) x)).
          + apply (zero_derivative (fun y => rsum (fun i => c i * bs t l (S p) i y) n) (t l) (t (l + 1)%nat) x); [exact Hx|exact Z|].
            apply (spline_derivable t N); [exact Mo|lia|lia].
          + intros k Hk. rewrite (bs_shift t (l - 1) p k x). replace (S (l - 1)) with l by lia. replace (S k) with (k + 1)%nat by lia. reflexivity. }
      assert (A1 : t (j + 1)%nat <= t l) by (apply Mo; lia). assert (A2 : t (l + 1)%nat <= t (j + 1 + S p)%nat) by (apply Mo; lia).
      assert (A3 : ai t (j + 1) (S p) <> 0) by (unfold ai; destruct Req_EM_T as [E|E]; [lra|apply Rinv_neq_0_compat; lra]).
      assert (A4 : INR (S p) <> 0) by (apply not_0_INR; lia).
      apply Rmult_integral in Q. destruct Q as [Q|Q]; [apply Rmult_integral in Q; tauto|lra]. }
    assert (Al : forall m, (m <= S p)%nat -> (m <= l)%nat -> c (l - m)%nat = c l).
    { induction m as [|m IHm]; intros H1 H2; [f_equal; lia|]. rewrite <- IHm by lia. replace (l - m)%nat with (l - S m + 1)%nat by lia. symmetry. apply St. lia. }
    assert (Z0 : c l = 0).
    { pose proof (Z ((t l + t (l + 1)%nat) / 2) ltac:(lra)) as Q. rewrite (rsum_ext _ (fun i => c l * bs t l (S p) i ((t l + t (l + 1)%nat) / 2))) in Q.
      - rewrite rsum_scal, (bs_partition t N l _ (S p) Mo Tl) in Q by lia. lra.
      - intros j Hj. destruct (le_lt_dec j l) as [L|L]; [|rewrite bs_support by lia; ring]. destruct (le_lt_dec l (j + S p)) as [L'|L']; [|rewrite bs_support by lia; ring].
        rewrite <- (Al (l - j)%nat) by lia. replace (l - (l - j))%nat with j by lia. reflexivity. }
    rewrite <- Z0, <- (Al (l - i)%nat) by lia. f_equal. lia.
Qed.

(** a span in the support of a B-spline *)
Lemma span_between : forall t N a b, mono t N -> (a < b)%nat -> (b < N)%nat -> t a < t b -> exists l, (a <= l < b)%nat /\ t l < t (l + 1)%nat.
Proof.
  intros t N a b Mo Hab. induction b as [|b IH]; intros HN Ht; [lia|].
  destruct (Rlt_dec (t b) (t (b + 1)%nat)) as [L|L]; [exists b; split; [lia|exact L]|].
  assert (E : t (S b) = t b) by (assert (t b <= t (S b)) by (apply Mo; lia); replace (b + 1)%nat with (S b) in L by lia; lra).
  destruct (Nat.eq_dec a b) as [->|Ne]; [lra|]. destruct (IH ltac:(lia) ltac:(lia) ltac:(lra)) as [l [H1 H2]]. exists l. split; [lia|exact H2].
Qed.

Lemma bspline_indep : forall t n p (c : nat -> R), mono t (n + p + 1) -> (p < n)%nat ->
  (forall i, (i < n)%nat -> t i < t (i + p + 1)%nat /\ t p < t (i + p + 1)%nat /\ t i < t n) -> t p < t n ->
  (forall l x, (p <= l < n)%nat -> t l < x < t (l + 1)%nat -> rsum (fun i => c i * bspline t p i x) n = 0) ->
  forall i, (i < n)%nat -> c i = 0.
Proof.
  intros t n p c Mo Hp Su Hpn Z i Hi. destruct (Su i Hi) as [S1 [S2 S3]].
  destruct (span_between t (n + p + 1) (Nat.max i p) (Nat.min (i + p + 1) n) Mo ltac:(lia) ltac:(lia)) as [l [Hl Tl]].
  { destruct (Nat.max_spec i p) as [[_ ->]|[_ ->]], (Nat.min_spec (i + p + 1) n) as [[_ ->]|[_ ->]]; assumption. }
  apply (bs_indep p t (n + p + 1) l n c Mo ltac:(lia) ltac:(lia) Tl); [|lia].
  intros x Hx. rewrite <- (Z l x ltac:(lia) Hx). apply rsum_ext. intros k Hk. f_equal. symmetry. apply (bs_eq t (n + p + 1)); [exact Mo|lia|lra|lia].
Qed.
