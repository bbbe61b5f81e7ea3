(** Newton's divided differences. *)
From Coq Require Import List Arith Bool Lia Reals Lra.
From Verif Require Import ModelBase ModelBernstein RSum ModelInterp SpecInterp ProofAssembly.
Local Open Scope R_scope.

(** ** polynomials *)
Lemma poly_ext : forall n p q, (forall t, p t = q t) -> polynomial n p -> polynomial n q.
Proof. intros n p q E [c H]. exists c. intros t. rewrite <- E. apply H. Qed.
Lemma poly_0 : forall p, polynomial 0 p <-> forall t, p t = 0.
Proof. intros p. split; [intros [c H] t; rewrite H; reflexivity|]. intros H. exists (fun _ => 0). intros t. rewrite H. reflexivity. Qed.
(** Horner decomposition *)
Lemma poly_S : forall n p, polynomial (S n) p <-> exists c q, polynomial n q /\ forall t, p t = c + t * q t.
Proof.
  intros n p. split.
  - intros [c H]. exists (c O), (fun t => rsum (fun k => c (S k) * t ^ k) n). split; [exists (fun k => c (S k)); reflexivity|].
    intros t. rewrite H, rsum_shift, <- rsum_scal. simpl. f_equal; [ring|]. apply rsum_ext. intros i _. ring.
  - intros [c [q [[d Hd] H]]]. exists (fun k => match k with O => c | S j => d j end). intros t.
    rewrite H, Hd, rsum_shift, <- rsum_scal. simpl. f_equal; [ring|]. apply rsum_ext. intros i _. ring.
Qed.
Lemma poly_plus : forall n p q, polynomial n p -> polynomial n q -> polynomial n (fun t => p t + q t).
Proof.
  intros n p q [c Hc] [d Hd]. exists (fun k => c k + d k). intros t. rewrite Hc, Hd, <- rsum_plus. apply rsum_ext. intros; ring.
Qed.
Lemma poly_scal : forall n a p, polynomial n p -> polynomial n (fun t => a * p t).
Proof.
  intros n a p [c Hc]. exists (fun k => a * c k). intros t. rewrite Hc, <- rsum_scal. apply rsum_ext. intros; ring.
Qed.
Lemma poly_mono : forall n m p, (n <= m)%nat -> polynomial n p -> polynomial m p.
Proof.
  intros n m p H [c Hc]. exists (fun k => if (k <? n)%nat then c k else 0). intros t. rewrite Hc.
  replace m with (n + (m - n))%nat by lia. rewrite rsum_split.
  rewrite (rsum_zero (fun i => (if (n + i <? n)%nat then c (n + i)%nat else 0) * t ^ (n + i))).
  - rewrite Rplus_0_r. apply rsum_ext. intros i Hi. destruct (Nat.ltb_spec i n); [reflexivity|lia].
  - intros i _. destruct (Nat.ltb_spec (n + i) n); [lia|ring].
Qed.
Lemma poly_const : forall n c, (0 < n)%nat -> polynomial n (fun _ => c).
Proof.
  intros n c Hn. apply (poly_mono 1); [lia|]. apply poly_S. exists c, (fun _ => 0). split; [apply poly_0; reflexivity|]. intros; ring.
Qed.
Lemma poly_id_mul : forall n p, polynomial n p -> polynomial (S n) (fun t => t * p t).
Proof. intros n p H. apply poly_S. exists 0, p. split; [assumption|]. intros; ring. Qed.
Lemma poly_lin_mul : forall n p a b, polynomial n p -> polynomial (S n) (fun t => (a * t + b) * p t).
Proof.
  intros n p a b H. apply (poly_ext _ (fun t => a * (t * p t) + b * p t)); [intros; ring|].
  apply poly_plus; apply poly_scal; [apply poly_id_mul; assumption|]. apply (poly_mono n); [lia|assumption].
Qed.
Lemma poly_affine : forall n p a b, polynomial n p -> polynomial n (fun t => p (a * t + b)).
Proof.
  induction n as [|n IH]; intros p a b H; [apply poly_0; intros; apply poly_0; assumption|].
  apply poly_S in H. destruct H as [c [q [Hq H]]].
  apply (poly_ext _ (fun t => c + (a * t + b) * q (a * t + b))); [intros t; rewrite H; reflexivity|].
  apply poly_plus; [apply poly_const; lia|]. apply (poly_lin_mul n (fun t => q (a * t + b))). apply IH. assumption.
Qed.
Lemma poly_sum : forall n m (p : nat -> R -> R), (forall i, (i < m)%nat -> polynomial n (p i)) -> polynomial n (fun t => rsum (fun i => p i t) m).
Proof.
  intros n m. induction m as [|m IH]; intros p H.
  - exists (fun _ => 0). intros t. simpl. symmetry. apply rsum_zero. intros; ring.
  - apply (poly_ext _ (fun t => rsum (fun i => p i t) m + p m t)); [reflexivity|].
    apply poly_plus; [apply IH; intros; apply H; lia|apply H; lia].
Qed.
(** division by a linear factor *)
Lemma poly_factor : forall n p a, polynomial (S n) p -> exists q, polynomial n q /\ forall t, p t = p a + (t - a) * q t.
Proof.
  induction n as [|n IH]; intros p a H; apply poly_S in H; destruct H as [c [q [Hq H]]].
  - exists (fun _ => 0). split; [apply poly_0; reflexivity|]. intros t. rewrite (H t), (H a). apply poly_0 with (t := t) in Hq as E.
    rewrite E. rewrite (proj1 (poly_0 q) Hq a). ring.
  - destruct (IH q a Hq) as [r [Hr E]]. exists (fun t => q t + a * r t). split.
    + apply poly_plus; [assumption|]. apply poly_scal. apply (poly_mono n); [lia|assumption].
    + intros t. rewrite (H t), (H a), (E t). ring.
Qed.
(** a polynomial of degree < n with n distinct zeros vanishes *)
Lemma poly_zero : forall n p x, polynomial n p -> distinct n x -> (forall i, (i < n)%nat -> p (x i) = 0) -> forall t, p t = 0.
Proof.
  induction n as [|n IH]; intros p x H D Z t; [apply poly_0; assumption|].
  destruct (poly_factor n p (x n) H) as [q [Hq E]]. rewrite (Z n) in E by lia. rewrite E.
  rewrite (IH q x Hq); [ring|intros i j ? ?; apply D; lia|]. intros i Hi. specialize (E (x i)). rewrite (Z i) in E by lia.
  assert (x i - x n <> 0) by (intros Q; apply (D i n); [lia|lia|lia|lra]). nra || (apply Rmult_eq_reg_l with (x i - x n); [lra|assumption]).
Qed.
Lemma poly_unique : forall n p q x, polynomial n p -> polynomial n q -> distinct n x -> (forall i, (i < n)%nat -> p (x i) = q (x i)) ->
  forall t, p t = q t.
Proof.
  intros n p q x Hp Hq D E t. apply Rminus_diag_uniq.
  apply (poly_zero n (fun t => p t + (-1) * q t)) with (x := x) (t := t) in D.
  - lra.
  - apply poly_plus; [assumption|apply poly_scal; assumption].
  - intros i Hi. rewrite E by assumption. ring.
Qed.

(** ** Lagrange polynomials *)
Lemma rprod_ext : forall f g n, (forall i, (i < n)%nat -> f i = g i) -> rprod f n = rprod g n.
Proof. intros f g n. induction n as [|n IH]; intros H; [reflexivity|]. simpl. rewrite IH by (intros; apply H; lia). rewrite H by lia. reflexivity. Qed.
Lemma rprod_zero : forall f n k, (k < n)%nat -> f k = 0 -> rprod f n = 0.
Proof.
  intros f n. induction n as [|n IH]; intros k Hk H; [lia|]. simpl. destruct (Nat.eq_dec k n) as [->|]; [rewrite H; ring|].
  rewrite (IH k); [ring|lia|assumption].
Qed.
Lemma rprod_one : forall f n, (forall i, (i < n)%nat -> f i = 1) -> rprod f n = 1.
Proof. intros f n. induction n as [|n IH]; intros H; [reflexivity|]. simpl. rewrite IH by (intros; apply H; lia). rewrite H by lia. ring. Qed.
Lemma rprod_poly_all : forall n (a b : nat -> R), polynomial (S n) (fun t => rprod (fun j => a j * t + b j) n).
Proof.
  induction n as [|n IH]; intros a b; [exact (poly_const 1 1 Nat.lt_0_1)|].
  apply (poly_ext _ (fun t => (a n * t + b n) * rprod (fun j => a j * t + b j) n)); [intros; simpl; ring|]. apply poly_lin_mul. apply IH.
Qed.
Lemma rprod_poly_skip : forall n i (a b : nat -> R), (i < n)%nat -> polynomial n (fun t => rprod (fun j => if (j =? i)%nat then 1 else a j * t + b j) n).
Proof.
  induction n as [|n IH]; intros i a b Hi; [lia|].
  destruct (Nat.eq_dec i n) as [->|Ne].
  - apply (poly_ext _ (fun t => rprod (fun j => a j * t + b j) n)); [|apply rprod_poly_all].
    intros t. simpl. rewrite Nat.eqb_refl, Rmult_1_r. apply rprod_ext. intros j Hj. destruct (Nat.eqb_spec j n); [lia|reflexivity].
  - apply (poly_ext _ (fun t => (a n * t + b n) * rprod (fun j => if (j =? i)%nat then 1 else a j * t + b j) n)).
    + intros t. simpl. destruct (Nat.eqb_spec n i); [lia|]. ring.
    + apply poly_lin_mul. apply IH. lia.
Qed.
Lemma lagrange_poly : forall n x i, (i < n)%nat -> polynomial n (lagrange n x i).
Proof.
  intros n x i Hi. apply (poly_ext _ (fun t => rprod (fun j => if (j =? i)%nat then 1 else / (x i - x j) * t + (- x j / (x i - x j))) n)).
  - intros t. unfold lagrange. apply rprod_ext. intros j _. destruct (j =? i)%nat; [reflexivity|]. unfold Rdiv. ring.
  - apply rprod_poly_skip. assumption.
Qed.
Lemma lagrange_node : forall n x i k, distinct n x -> (i < n)%nat -> (k < n)%nat -> lagrange n x i (x k) = if (k =? i)%nat then 1 else 0.
Proof.
  intros n x i k D Hi Hk. unfold lagrange. destruct (Nat.eqb_spec k i) as [->|Ne].
  - apply rprod_one. intros j Hj. destruct (Nat.eqb_spec j i); [reflexivity|]. apply Rinv_r. intros Q. apply (D i j); [assumption|assumption|lia|lra].
  - apply (rprod_zero _ _ k Hk). destruct (Nat.eqb_spec k i); [lia|]. unfold Rdiv. rewrite Rminus_diag_eq by reflexivity. ring.
Qed.
Lemma interpolant_node : forall n x f k, distinct n x -> (k < n)%nat -> interpolant n x f (x k) = f k.
Proof.
  intros n x f k D Hk. unfold interpolant. rewrite (rsum_single _ _ k Hk).
  - rewrite lagrange_node, Nat.eqb_refl by assumption. ring.
  - intros i Hi Ne. rewrite lagrange_node by assumption. destruct (Nat.eqb_spec k i); [lia|ring].
Qed.
Lemma interpolant_poly : forall n x f, polynomial n (interpolant n x f).
Proof. intros n x f. apply poly_sum. intros i Hi. apply poly_scal. apply lagrange_poly. assumption. Qed.
Lemma interpolation_exact : forall n x p, distinct n x -> polynomial n p -> forall t, interpolant n x (fun i => p (x i)) t = p t.
Proof.
  intros n x p D Hp. apply (poly_unique n _ _ x); [apply interpolant_poly|assumption|assumption|].
  intros i Hi. rewrite interpolant_node by assumption. reflexivity.
Qed.

(** ** divided differences *)
Fixpoint dd (x f : nat -> R) (j k : nat) : R :=
  match j with
  | O => f k
  | S i => (dd x f i k - dd x f i (k - 1)) / (x k - x (k - j)%nat)
  end.
(** Newton interpolant for the points s .. s + m *)
Definition npoly (x f : nat -> R) (s m : nat) (t : R) : R :=
  rsum (fun k => dd x f k (s + k) * rprod (fun l => t - x (s + l)%nat) k) (S m).
Lemma npoly_S : forall x f s m t, npoly x f s (S m) t = npoly x f s m t + dd x f (S m) (s + S m) * rprod (fun l => t - x (s + l)%nat) (S m).
Proof. reflexivity. Qed.
Lemma rprod_shift : forall f n, rprod f (S n) = f O * rprod (fun i => f (S i)) n.
Proof. intros f n. induction n as [|n IH]; [simpl; ring|]. change (rprod f (S (S n))) with (rprod f (S n) * f (S n)). rewrite IH. simpl. ring. Qed.
Lemma npoly_diff : forall x f N, distinct N x -> forall m s t, (s + m + 1 < N)%nat ->
  npoly x f (s + 1) m t - npoly x f s m t = (dd x f m (s + m + 1) - dd x f m (s + m)) * rprod (fun l => t - x (s + 1 + l)%nat) m.
Proof.
  intros x f N D. induction m as [|m IH]; intros s t H.
  - unfold npoly. simpl. rewrite !Nat.add_0_r. ring.
  - rewrite !npoly_S. specialize (IH s t ltac:(lia)).
    set (P := rprod (fun l => t - x (s + 1 + l)%nat) m) in *.
    replace (rprod (fun l => t - x (s + 1 + l)%nat) (S m)) with (P * (t - x (s + 1 + m)%nat)) by reflexivity.
    rewrite (rprod_shift (fun l => t - x (s + l)%nat)).
    rewrite (rprod_ext (fun i => t - x (s + S i)%nat) (fun l => t - x (s + 1 + l)%nat)) by (let q := fresh "q" in intros q _; replace (s + S q)%nat with (s + 1 + q)%nat by lia; reflexivity). fold P.
    rewrite Nat.add_0_r. replace (s + 1 + S m)%nat with (s + S m + 1)%nat by lia.
    assert (E : dd x f m (s + m + 1) - dd x f m (s + m) = dd x f (S m) (s + S m) * (x (s + m + 1)%nat - x s)).
    { cbn [dd]. replace (s + S m)%nat with (s + m + 1)%nat by lia. replace (s + m + 1 - 1)%nat with (s + m)%nat by lia.
      replace (s + m + 1 - S m)%nat with s by lia. field. intros Q. apply (D (s + m + 1)%nat s); [lia|lia|lia|lra]. }
    rewrite E in IH. replace (s + 1 + m)%nat with (s + m + 1)%nat by lia.
    replace (npoly x f (s + 1) m t) with (npoly x f s m t + dd x f (S m) (s + S m) * (x (s + m + 1)%nat - x s) * P) by lra. ring.
Qed.
Lemma npoly_node : forall x f N, distinct N x -> forall m s i, (s + m < N)%nat -> (i <= m)%nat -> npoly x f s m (x (s + i)%nat) = f (s + i)%nat.
Proof.
  intros x f N D. induction m as [|m IH]; intros s i H Hi.
  - replace i with O by lia. unfold npoly. simpl. rewrite Nat.add_0_r. ring.
  - destruct (Nat.eq_dec i (S m)) as [->|Ne].
    + rewrite npoly_S. pose proof (npoly_diff x f N D m s (x (s + S m)%nat) ltac:(lia)) as E.
      replace (npoly x f (s + 1) m (x (s + S m)%nat)) with (f (s + S m)%nat) in E by (replace (s + S m)%nat with (s + 1 + m)%nat by lia; symmetry; apply IH; lia).
      rewrite rprod_shift, Nat.add_0_r.
      rewrite (rprod_ext (fun i => x (s + S m)%nat - x (s + S i)%nat) (fun l => x (s + S m)%nat - x (s + 1 + l)%nat)) by (let q := fresh "q" in intros q _; replace (s + S q)%nat with (s + 1 + q)%nat by lia; reflexivity).
      set (P := rprod _ m) in *.
      assert (E2 : dd x f m (s + m + 1) - dd x f m (s + m) = dd x f (S m) (s + S m) * (x (s + S m)%nat - x s)).
      { cbn [dd]. replace (s + S m - 1)%nat with (s + m)%nat by lia. replace (s + m + 1)%nat with (s + S m)%nat by lia.
        replace (s + S m - S m)%nat with s by lia. field. intros Q. apply (D (s + S m)%nat s); [lia|lia|lia|lra]. }
      rewrite E2 in E. lra.
    + rewrite npoly_S, IH by lia. rewrite (rprod_zero _ _ i); [ring|lia|ring].
Qed.
Lemma npoly_poly : forall x f s m, polynomial (S m) (npoly x f s m).
Proof.
  intros x f s m. unfold npoly. apply poly_sum. intros k Hk. apply poly_scal. apply (poly_mono (S k)); [lia|].
  apply (poly_ext _ (fun t => rprod (fun l => 1 * t + - x (s + l)%nat) k)); [intros; apply rprod_ext; intros; ring|]. apply rprod_poly_all.
Qed.

(** ** the loops *)
(** the inner loop: k = n-1 downto j *)
Lemma inner_loop : forall n x i j m0 c, (j <= n)%nat -> (0 < j)%nat -> (c <= n - j)%nat ->
  forall k l, for_loop c (fun k0 r => let k := (n - 1 - k0)%nat in updm r k i ((r k i - r (k - 1)%nat i) / (x k - x (k - j)%nat))) m0 k l =
    if ((l =? i)%nat && (n - c <=? k)%nat && (k <? n)%nat)%bool then (m0 k i - m0 (k - 1)%nat i) / (x k - x (k - j)%nat) else m0 k l.
Proof.
  intros n x i j m0 c Hj H0. induction c as [|c IH]; intros Hc k l; cbn [for_loop].
  - destruct (Nat.leb_spec (n - 0) k), (Nat.ltb_spec k n); try lia; rewrite ?andb_false_r; reflexivity.
  - cbv zeta. unfold updm at 1. rewrite !IH by lia. rewrite Nat.eqb_refl. cbn [andb].
    destruct (Nat.eqb_spec k (n - 1 - c)) as [->|Nk], (Nat.eqb_spec l i) as [->|Nl]; cbn [andb].
    + destruct (Nat.leb_spec (n - c) (n - 1 - c)); [lia|]. destruct (Nat.leb_spec (n - c) (n - 1 - c - 1)); [lia|]. cbn [andb].
      destruct (Nat.leb_spec (n - S c) (n - 1 - c)); [|lia]. destruct (Nat.ltb_spec (n - 1 - c) n); [|lia]. reflexivity.
    + reflexivity.
    + destruct (Nat.leb_spec (n - c) k), (Nat.leb_spec (n - S c) k); try lia; reflexivity.
    + reflexivity.
Qed.
(** after j steps: divided differences of order min j k *)
Lemma middle_loop : forall n x i f m0 c, (c <= n - 1)%nat -> (forall k, (k < n)%nat -> m0 k i = f k) ->
  let r := for_loop c (fun j0 r => let j := S j0 in
      for_loop (n - j) (fun k0 r => let k := (n - 1 - k0)%nat in updm r k i ((r k i - r (k - 1)%nat i) / (x k - x (k - j)%nat))) r) m0 in
  (forall k, (k < n)%nat -> r k i = dd x f (Nat.min c k) k) /\ (forall k l, l <> i -> r k l = m0 k l).
Proof.
  intros n x i f m0 c Hc H. cbv zeta. induction c as [|c IH]; [simpl; split; [assumption|reflexivity]|].
  destruct (IH ltac:(lia)) as [IH1 IH2]. cbn [for_loop]. split.
  - intros k Hk. rewrite (inner_loop n x i (S c)) by lia. rewrite Nat.eqb_refl.
    destruct (Nat.leb_spec (n - (n - S c)) k), (Nat.ltb_spec k n); try lia; cbn [andb].
    + rewrite !IH1 by lia. replace (Nat.min (S c) k) with (S c) by lia. replace (Nat.min c k) with c by lia. replace (Nat.min c (k - 1)) with c by lia. reflexivity.
    + rewrite IH1 by lia. f_equal. lia.
  - intros k l Nl. rewrite (inner_loop n x i (S c)) by lia. destruct (Nat.eqb_spec l i); [lia|]. cbn [andb]. apply IH2. assumption.
Qed.
Lemma outer_loop : forall n x c, (c <= n)%nat ->
  let r := for_loop c (fun i r => for_loop (n - 1) (fun j0 r => let j := S j0 in
      for_loop (n - j) (fun k0 r => let k := (n - 1 - k0)%nat in updm r k i ((r k i - r (k - 1)%nat i) / (x k - x (k - j)%nat))) r) r) identity in
  (forall k i, (k < n)%nat -> (i < c)%nat -> r k i = dd x (fun q => if (q =? i)%nat then 1 else 0) k k) /\
  (forall k i, (c <= i)%nat -> r k i = identity k i).
Proof.
  intros n x c. induction c as [|c IH]; intros Hc; cbv zeta; [simpl; split; [lia|reflexivity]|].
  destruct (IH ltac:(lia)) as [IH1 IH2]. cbn [for_loop]. set (r := for_loop c _ identity) in *.
  destruct (middle_loop n x c (fun q => if (q =? c)%nat then 1 else 0) r (n - 1) ltac:(lia)) as [M1 M2].
  { intros k Hk. rewrite IH2 by lia. reflexivity. }
  split.
  - intros k i Hk Hi. destruct (Nat.eq_dec i c) as [->|Ne].
    + rewrite M1 by assumption. f_equal. lia.
    + rewrite M2 by lia. apply IH1; lia.
  - intros k i Hi. rewrite M2 by lia. apply IH2. lia.
Qed.
Lemma lagrange_coefs_dd : forall n x k i, (k < n)%nat -> (i < n)%nat ->
  lagrange_coefs n x k i = dd x (fun q => if (q =? i)%nat then 1 else 0) k k.
Proof. intros n x k i Hk Hi. destruct (outer_loop n x n (le_n n)) as [H _]. apply H; assumption. Qed.

(** Horner's scheme *)
Lemma eval_newton_ok : forall n x L t, (0 < n)%nat -> eval_newton n x L t = rsum (fun k => L k * rprod (fun l => t - x l) k) n.
Proof.
  intros n x L t Hn. unfold eval_newton.
  assert (H : forall c, (c <= n - 1)%nat ->
    rsum (fun k => L k * rprod (fun l => t - x l) k) (n - 1 - c) +
    for_loop c (fun i0 r => let i := (n - 2 - i0)%nat in r * (t - x i) + L i) (L (n - 1)%nat) * rprod (fun l => t - x l) (n - 1 - c) =
    rsum (fun k => L k * rprod (fun l => t - x l) k) n).
  { induction c as [|c IH]; intros Hc.
    - simpl for_loop. rewrite Nat.sub_0_r. replace n with (S (n - 1)) at 4 by lia. reflexivity.
    - rewrite <- IH by lia. cbn [for_loop]. cbv zeta. replace (n - 1 - c)%nat with (S (n - 1 - S c)) by lia. cbn [rsum rprod].
      replace (n - 2 - c)%nat with (n - 1 - S c)%nat by lia. ring. }
  rewrite <- (H (n - 1)%nat) by lia. rewrite Nat.sub_diag. simpl. ring.
Qed.
Lemma newton_lagrange : forall n x i t, distinct n x -> (i < n)%nat ->
  eval_newton n x (column (lagrange_coefs n x) i) t = lagrange n x i t.
Proof.
  intros n x i t D Hi. rewrite eval_newton_ok by lia. set (f := fun q => if (q =? i)%nat then 1 else 0).
  transitivity (npoly x f 0 (n - 1) t).
  - unfold npoly. replace (S (n - 1)) with n by lia. apply rsum_ext. intros k Hk. unfold column.
    rewrite lagrange_coefs_dd by assumption. reflexivity.
  - apply (poly_unique n _ _ x).
    + replace n with (S (n - 1)) at 1 by lia. apply npoly_poly.
    + apply lagrange_poly. assumption.
    + assumption.
    + intros k Hk. pose proof (npoly_node x f n D (n - 1) 0 k ltac:(lia) ltac:(lia)) as E. simpl in E. rewrite E, lagrange_node by assumption. reflexivity.
Qed.
