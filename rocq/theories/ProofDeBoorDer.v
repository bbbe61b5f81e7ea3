From Coq Require Import Reals Lra Lia Arith List.
From Verif Require Import RSum ModelBase ModelBernstein ModelDeBoor SpecDeBoor ProofDeBoor.
Import ListNotations.
Local Open Scope R_scope.

Lemma dpl_plus : forall (f g : R -> R) x a b, derivable_pt_lim f x a -> derivable_pt_lim g x b ->
  derivable_pt_lim (fun y => f y + g y) x (a + b).
Proof. intros. exact (derivable_pt_lim_plus f g x a b H H0). Qed.
Lemma dpl_mult : forall (f g : R -> R) x a b, derivable_pt_lim f x a -> derivable_pt_lim g x b ->
  derivable_pt_lim (fun y => f y * g y) x (a * g x + f x * b).
Proof. intros. exact (derivable_pt_lim_mult f g x a b H H0). Qed.
Lemma dpl_scal : forall (f : R -> R) c x a, derivable_pt_lim f x a ->
  derivable_pt_lim (fun y => c * f y) x (c * a).
Proof. intros. exact (derivable_pt_lim_scal f c x a H). Qed.
Lemma dpl_id : forall x, derivable_pt_lim (fun y => y) x 1.
Proof. exact derivable_pt_lim_id. Qed.
Lemma dpl_const : forall c x, derivable_pt_lim (fun _ => c) x 0.
Proof. exact derivable_pt_lim_const. Qed.

Definition ai (t : nat -> R) (i k : nat) : R :=
  if Req_EM_T (t (i + k)%nat) (t i) then 0 else / (t (i + k)%nat - t i).

Lemma bs_S : forall t l m i x,
  bs t l (S m) i x = (x - t i) * ai t i (S m) * bs t l m i x
    + (t (i + 1 + S m)%nat - x) * ai t (i + 1) (S m) * bs t l m (i + 1) x.
Proof.
  intros. cbn [bs]. unfold ai. replace (i + S m + 1)%nat with (i + 1 + S m)%nat by lia.
  destruct Req_EM_T; destruct Req_EM_T; unfold Rdiv; ring.
Qed.

Definition dbs (t : nat -> R) (l k i : nat) (x : R) : R :=
  match k with
  | O => 0
  | S m => INR k * (ai t i k * bs t l m i x - ai t (i + 1) k * bs t l m (i + 1) x)
  end.

Lemma ai_key : forall t N i m, mono t N -> (i + m + 2 < N)%nat ->
  ai t (i + 1) m * (ai t i (S m) * (t (i + S m)%nat - t i)
                    - ai t (i + 1) (S m) * (t (i + 1 + S m)%nat - t (i + 1)%nat)) = 0.
Proof.
  intros t N i m Hm HN.
  assert (H1 : t i <= t (i + 1)%nat) by (apply Hm; lia).
  assert (H2 : t (i + 1)%nat <= t (i + 1 + m)%nat) by (apply Hm; lia).
  assert (H3 : t (i + 1 + m)%nat <= t (i + 1 + S m)%nat) by (apply Hm; lia).
  replace (i + S m)%nat with (i + 1 + m)%nat by lia.
  unfold ai at 1. destruct (Req_EM_T (t (i + 1 + m)%nat) (t (i + 1)%nat)) as [|H]; [ring|].
  unfold ai. replace (i + S m)%nat with (i + 1 + m)%nat by lia.
  destruct (Req_EM_T (t (i + 1 + m)%nat) (t i)); [lra|].
  destruct (Req_EM_T (t (i + 1 + S m)%nat) (t (i + 1)%nat)); [lra|]. field.
  split; [lra|split; lra].
Qed.

Lemma bs_derivable : forall t N l, mono t N -> forall k i x, (i + k + 1 < N)%nat ->
  derivable_pt_lim (fun y => bs t l k i y) x (dbs t l k i x).
Proof.
  intros t N l Hm. induction k as [|m IH]; intros i x Hi.
  - simpl. apply derivable_pt_lim_const.
  - apply (derivable_pt_lim_ext (fun y => ((y - t i) * ai t i (S m)) * bs t l m i y
      + ((t (i + 1 + S m)%nat - y) * ai t (i + 1) (S m)) * bs t l m (i + 1) y)).
    { intros y. rewrite bs_S. ring. }
    assert (L1 : forall c a, derivable_pt_lim (fun y => (y - c) * a) x a).
    { intros c a. apply (derivable_pt_lim_ext (fun y => a * y + (- (c * a)))); [intros; ring|].
      assert (H : derivable_pt_lim (fun y => a * y + (- (c * a))) x (a * 1 + 0))
        by (apply dpl_plus; [apply dpl_scal, dpl_id|apply dpl_const]).
      replace (a * 1 + 0) with a in H by ring. exact H. }
    assert (L2 : forall c a, derivable_pt_lim (fun y => (c - y) * a) x (- a)).
    { intros c a. apply (derivable_pt_lim_ext (fun y => (y - c) * (- a))); [intros; ring|]. apply L1. }
    assert (D : derivable_pt_lim (fun y => ((y - t i) * ai t i (S m)) * bs t l m i y
      + ((t (i + 1 + S m)%nat - y) * ai t (i + 1) (S m)) * bs t l m (i + 1) y) x
      ((ai t i (S m) * bs t l m i x + ((x - t i) * ai t i (S m)) * dbs t l m i x)
       + ((- ai t (i + 1) (S m)) * bs t l m (i + 1) x
          + ((t (i + 1 + S m)%nat - x) * ai t (i + 1) (S m)) * dbs t l m (i + 1) x))).
    { apply dpl_plus.
      - apply (dpl_mult (fun y => (y - t i) * ai t i (S m))); [apply L1|apply IH; lia].
      - apply (dpl_mult (fun y => (t (i + 1 + S m)%nat - y) * ai t (i + 1) (S m)));
          [apply L2|apply IH; lia]. }
    match type of D with derivable_pt_lim _ _ ?v => replace (dbs t l (S m) i x) with v; [exact D|] end.
    clear D L1 L2. unfold dbs. destruct m as [|m'].
    + simpl. ring.
    + rewrite (S_INR (S m')). set (M := INR (S m')).
      rewrite (bs_S t l m' i x), (bs_S t l m' (i + 1) x).
      assert (K := ai_key t N i (S m') Hm ltac:(lia)).
      set (A0 := ai t i (S (S m'))) in *. set (A1 := ai t (i + 1) (S (S m'))) in *.
      set (B0 := ai t i (S m')) in *. set (B1 := ai t (i + 1) (S m')) in *.
      set (B2 := ai t (i + 1 + 1) (S m')) in *.
      set (N0 := bs t l m' i x). set (N1 := bs t l m' (i + 1) x). set (N2 := bs t l m' (i + 1 + 1) x).
      replace (i + 1 + 1 + S m')%nat with (i + 1 + S (S m'))%nat by lia.
      replace (i + 1 + S m')%nat with (i + S (S m'))%nat by lia.
      set (T0 := t i) in *. set (T1 := t (i + 1)%nat) in *. set (Tk := t (i + S (S m'))%nat) in *.
      set (Tk1 := t (i + 1 + S (S m'))%nat) in *.
      apply Rminus_diag_uniq.
      transitivity (- M * N1 * (B1 * (A0 * (Tk - T0) - A1 * (Tk1 - T1)))); [ring|rewrite K; ring].
Qed.

(** summation by parts *)
Lemma spline_derivable : forall t N l p n (c : nat -> R) x, mono t N -> (n + S p < N)%nat ->
  (S p <= l < n)%nat ->
  derivable_pt_lim (fun y => rsum (fun i => c i * bs t l (S p) i y) n) x
    (rsum (fun i => (INR (S p) * ai t (i + 1) (S p) * (c (i + 1)%nat - c i))
                    * bs t l p (i + 1) x) (n - 1)).
Proof.
  intros t N l p n c x Hm HN Hl.
  assert (D : derivable_pt_lim (fun y => rsum (fun i => c i * bs t l (S p) i y) n) x
                (rsum (fun i => c i * dbs t l (S p) i x) n)).
  { apply (rsum_derivable (fun i y => c i * bs t l (S p) i y) (fun i y => c i * dbs t l (S p) i y)).
    intros i Hi. apply (derivable_pt_lim_scal (fun y => bs t l (S p) i y)).
    apply (bs_derivable t N); [assumption|lia]. }
  match goal with |- derivable_pt_lim _ _ ?v => replace v with (rsum (fun i => c i * dbs t l (S p) i x) n);
    [exact D|] end. clear D.
  unfold dbs.
  set (g := fun i => INR (S p) * ai t i (S p) * bs t l p i x).
  rewrite (rsum_ext _ (fun i => c i * g i - c i * g (i + 1)%nat)) by (intros; unfold g; ring).
  rewrite rsum_minus. destruct n as [|n]; [lia|].
  rewrite (rsum_shift (fun i => c i * g i)). rewrite (rsum_S (fun i => c i * g (i + 1)%nat)).
  assert (g 0%nat = 0) as G0 by (unfold g; rewrite bs_support by lia; ring).
  assert (g (n + 1)%nat = 0) as Gn by (unfold g; rewrite bs_support by lia; ring).
  rewrite G0, Gn, !Rmult_0_r, Rplus_0_l, Rplus_0_r, <- rsum_minus.
  replace (S n - 1)%nat with n by lia. apply rsum_ext. intros i Hi. unfold g.
  replace (S i) with (i + 1)%nat by lia. ring.
Qed.

Lemma bs_shift : forall t l k i x, bs (fun j => t (S j)) l k i x = bs t (S l) k (S i) x.
Proof.
  intros t l k. induction k as [|k IH]; intros i x; [reflexivity|].
  cbn [bs]. rewrite !IH. reflexivity.
Qed.

Lemma nth_removelast : forall (v : list R) i d, (i + 1 < length v)%nat -> nth i (removelast v) d = nth i v d.
Proof.
  induction v as [|a v IH]; intros i d Hi; [simpl in Hi; lia|].
  destruct v as [|b v]; [simpl in Hi; lia|]. change (removelast (a :: b :: v)) with (a :: removelast (b :: v)).
  destruct i; [reflexivity|]. cbn [nth]. apply IH. simpl in *. lia.
Qed.

Lemma removelast_length : forall (v : list R), length (removelast v) = (length v - 1)%nat.
Proof.
  induction v as [|a v IH]; [reflexivity|]. destruct v as [|b v]; [reflexivity|].
  change (removelast (a :: b :: v)) with (a :: removelast (b :: v)). cbn [length] in *. lia.
Qed.

Lemma nth_tl : forall (v : list R) i d, nth i (tl v) d = nth (S i) v d.
Proof. intros [|a v] i d; [destruct i; reflexivity|reflexivity]. Qed.

Lemma tl_length : forall (v : list R), length (tl v) = (length v - 1)%nat.
Proof. intros [|a v]; simpl; lia. Qed.

Lemma inner_length : forall k, length (inner_knots k) = (length k - 2)%nat.
Proof. intros. unfold inner_knots. rewrite removelast_length, tl_length. lia. Qed.

Lemma inner_tk : forall k i, (i + 2 < length k)%nat -> tk (inner_knots k) i = tk k (S i).
Proof.
  intros k i Hi. unfold tk, inner_knots. rewrite nth_removelast by (rewrite tl_length; lia). apply nth_tl.
Qed.

Definition der_entry (c knots : list R) (p i : nat) : R :=
  INR p / (nth (i + p + 1) knots 0 - nth (i + 1) knots 0) * (nth (i + 1) c 0 - nth i c 0).

Lemma der_coefs_ok : forall c knots p, length knots = (length c + p + 1)%nat ->
  (forall i, (1 <= i < length c)%nat -> tk knots i < tk knots (i + p)%nat) ->
  der_coefs c knots = Some (map (der_entry c knots p) (seq 0 (length c - 1))).
Proof.
  intros c knots p Hlen Hk. unfold der_coefs.
  replace (length knots - length c - 1)%nat with p by lia.
  apply map_opt_spec. intros i Hi. apply in_seq in Hi.
  rewrite (get_nth _ _ 0) by lia. cbn [bind]. rewrite (get_nth _ _ 0) by lia. cbn [bind].
  rewrite (get_nth _ _ 0) by lia. cbn [bind]. rewrite (get_nth _ _ 0) by lia. cbn [bind].
  assert (H := Hk (i + 1)%nat ltac:(lia)). unfold tk in H.
  replace (i + 1 + p)%nat with (i + p + 1)%nat in H by lia.
  destruct Req_EM_T; [lra|]. reflexivity.
Qed.

Lemma nth_map_seq : forall (f : nat -> R) n i d, (i < n)%nat -> nth i (map f (seq 0 n)) d = f i.
Proof.
  intros f n i d Hi. rewrite (nth_indep _ d (f 0%nat)) by (rewrite map_length, seq_length; assumption).
  rewrite map_nth, seq_nth by assumption. reflexivity.
Qed.

(** ** assembled statements *)
Definition regular_input (c knots : list R) (p : nat) (x : R) : Prop :=
  length knots = (length c + p + 1)%nat /\ (p < length c)%nat /\ nondecreasing knots
  /\ nth p knots 0 <= x < nth (length c) knots 0.

Lemma regular_admissible : forall c knots p x, regular_input c knots p x ->
  admissible c knots x /\ (length knots - length c - 1 = p)%nat.
Proof.
  intros c knots p x [Hl [Hp [Hm Hx]]].
  assert (E : (length knots - length c - 1 = p)%nat) by lia.
  split; [|assumption]. unfold admissible. rewrite E.
  split; [lia|]. split; [exact Hm|]. unfold tk. split; [lra|left; lra].
Qed.

Lemma spline_piece : forall c knots p x l, regular_input c knots p x -> (p <= l < length c)%nat ->
  tk knots l <= x < tk knots (l + 1)%nat ->
  spline knots c p x = rsum (fun i => nth i c 0 * bs (tk knots) l p i x) (length c).
Proof.
  intros c knots p x l [Hlen [Hp [Hm Hx]]] Hl Hxl. unfold spline. apply rsum_ext. intros i Hi.
  f_equal. apply (bs_eq (tk knots) (length knots)); [exact Hm|lia|assumption|lia].
Qed.

Lemma DeBoor_point_spline : forall maxdeg junk c knots p x, regular_input c knots p x ->
  (p <= maxdeg)%nat -> (maxdeg <= length junk)%nat ->
  DeBoor_point maxdeg junk c knots x = Some (spline knots c p x).
Proof.
  intros maxdeg junk c knots p x Hr Hp Hj.
  destruct (regular_admissible _ _ _ _ Hr) as [Ha Ep].
  destruct (DeBoor_point_tri maxdeg junk c knots x Ha) as [l [Hl [Hxl [Hlt [Hd E]]]]];
    [rewrite Ep; assumption|assumption|]. rewrite Ep in Hl, E. rewrite E. f_equal.
  destruct Hr as [Hlen [Hpn [Hm Hx]]].
  assert (Hx' : tk knots l <= x < tk knots (l + 1)%nat) by (split; [lra|apply Hlt; unfold tk; lra]).
  rewrite (tri_sum (tk knots) (length knots)); [|exact Hm|assumption|lia|lia].
  rewrite (spline_piece c knots p x l); [|repeat split; try assumption; lra|assumption|assumption].
  symmetry. apply (active_sum (tk knots) l x p (length c) (fun i => nth i c 0)); lia.
Qed.

Lemma DeBoor_list : forall junk c knots p pts,
  (forall x, In x pts -> regular_input c knots p x) -> (p <= 19)%nat -> (20 <= length junk)%nat ->
  DeBoor junk c knots pts = Some (map (spline knots c p) pts).
Proof.
  intros junk c knots p pts Hr Hp Hj. unfold DeBoor. apply map_opt_spec. intros x Hx.
  apply DeBoor_point_spline; [apply Hr; assumption|lia|lia].
Qed.

Lemma DeBoorMat_list : forall junk rows knots p pts,
  (forall row x, In row rows -> In x pts -> regular_input row knots p x) ->
  (p <= MaxP)%nat -> (MaxP <= length junk)%nat ->
  DeBoorMat junk rows knots pts = Some (map (fun row => map (spline knots row p) pts) rows).
Proof.
  intros junk rows knots p pts Hr Hp Hj. unfold DeBoorMat. apply map_opt_spec. intros row Hrow.
  apply map_opt_spec. intros x Hx. apply DeBoor_point_spline; [apply Hr; assumption|lia|lia].
Qed.

(** hull, constants; right end included *)
Definition closed_input (c knots : list R) (p : nat) (x : R) : Prop :=
  length knots = (length c + p + 1)%nat /\ (p < length c)%nat /\ nondecreasing knots
  /\ nth p knots 0 <= x
  /\ (x < nth (length c) knots 0
      \/ (x = nth (length c) knots 0 /\ nth (length c - 1) knots 0 < nth (length c) knots 0)).

Lemma closed_admissible : forall c knots p x, closed_input c knots p x ->
  admissible c knots x /\ (length knots - length c - 1 = p)%nat.
Proof.
  intros c knots p x [Hl [Hp [Hm [Hx1 Hx2]]]].
  assert (E : (length knots - length c - 1 = p)%nat) by lia.
  split; [|assumption]. unfold admissible. rewrite E.
  split; [lia|]. split; [exact Hm|]. split; assumption.
Qed.

Lemma DeBoor_hull : forall maxdeg junk c knots p x lo hi, closed_input c knots p x ->
  (p <= maxdeg)%nat -> (maxdeg <= length junk)%nat ->
  (forall y, In y c -> lo <= y <= hi) ->
  exists v, DeBoor_point maxdeg junk c knots x = Some v /\ lo <= v <= hi.
Proof.
  intros maxdeg junk c knots p x lo hi Hr Hp Hj Hc.
  destruct (closed_admissible _ _ _ _ Hr) as [Ha Ep].
  destruct (DeBoor_point_tri maxdeg junk c knots x Ha) as [l [Hl [Hxl [Hlt [Hd E]]]]];
    [rewrite Ep; assumption|assumption|]. rewrite Ep in Hl, E. rewrite E.
  eexists. split; [reflexivity|]. destruct Hr as [Hlen [Hpn [Hm Hx]]].
  apply (tri_hull (tk knots) (length knots)); try assumption; try lia.
  intros i Hi. apply Hc. apply nth_In. lia.
Qed.

Lemma tri_right : forall t N l x, mono t N -> t l < t (l + 1)%nat -> x = t (l + 1)%nat ->
  forall k f, (k <= l)%nat -> (l + k < N)%nat -> (forall i, (i < k)%nat -> t (l + 1 + i)%nat = x) ->
  tri t x l k f = f k.
Proof.
  intros t N l x Hm Hl Hx. induction k as [|k IH]; intros f Hk HN Ht; cbn [tri]; [reflexivity|].
  rewrite IH; [|lia|lia|intros; apply Ht; lia].
  assert (W : wt t x l (S k) k = 1).
  { assert (D := span_denominator t N l (S k) k Hm Hl ltac:(lia) ltac:(lia) ltac:(lia)).
    unfold wt. rewrite (Ht k) in * by lia. field. lra. }
  rewrite W. ring.
Qed.

Lemma tri_left : forall t N l x, mono t N -> t l < t (l + 1)%nat -> x = t l ->
  forall k f, (k <= l)%nat -> (l + k < N)%nat -> (forall i, (i < k)%nat -> t (l - i)%nat = x) ->
  tri t x l k f = f 0%nat.
Proof.
  intros t N l x Hm Hl Hx. induction k as [|k IH]; intros f Hk HN Ht; cbn [tri]; [reflexivity|].
  rewrite IH; [|lia|lia|intros; apply Ht; lia].
  assert (W : wt t x l (S k) 0 = 0).
  { unfold wt. replace (l - S k + 1 + 0)%nat with (l - k)%nat by lia. rewrite (Ht k) by lia.
    unfold Rdiv. ring. }
  rewrite W. ring.
Qed.

Lemma DeBoor_clamped : forall maxdeg junk c knots p, length knots = (length c + p + 1)%nat ->
  (p < length c)%nat -> nondecreasing knots -> (p <= maxdeg)%nat -> (maxdeg <= length junk)%nat ->
  (nth 0 knots 0 = nth p knots 0 -> nth p knots 0 < nth (p + 1) knots 0 ->
     DeBoor_point maxdeg junk c knots (nth p knots 0) = get c 0)
  /\ (nth (length c) knots 0 = nth (length c + p) knots 0 ->
      nth (length c - 1) knots 0 < nth (length c) knots 0 ->
     DeBoor_point maxdeg junk c knots (nth (length c) knots 0) = get c (length c - 1)%nat).
Proof.
  intros maxdeg junk c knots p Hlen Hp Hm Hpm Hj. split; intros H1 H2.
  - assert (Hlast : nth (p + 1) knots 0 <= nth (length c) knots 0) by (apply Hm; lia).
    assert (Hr : closed_input c knots p (nth p knots 0)).
    { repeat split; try assumption; try lra; try (left; lra). }
    destruct (closed_admissible _ _ _ _ Hr) as [Ha Ep].
    destruct (DeBoor_point_tri maxdeg junk c knots _ Ha) as [l [Hl [Hxl [Hlt [Hd E]]]]];
      [rewrite Ep; assumption|assumption|]. rewrite Ep in Hl, E. rewrite E.
    assert (l = p).
    { destruct (Nat.eq_dec l p); [assumption|]. exfalso.
      assert (nth (p + 1) knots 0 <= nth l knots 0) by (apply Hm; lia). unfold tk in *. lra. }
    subst l. rewrite (tri_left (tk knots) (length knots)); [|exact Hm|assumption|reflexivity|lia|lia|].
    + rewrite (get_nth _ _ 0) by lia. f_equal. f_equal. lia.
    + intros i Hi. assert (nth 0 knots 0 <= nth (p - i) knots 0) by (apply Hm; lia).
      assert (nth (p - i) knots 0 <= nth p knots 0) by (apply Hm; lia). unfold tk. lra.
  - assert (Hpn : nth p knots 0 <= nth (length c) knots 0) by (apply Hm; lia).
    assert (Hr : closed_input c knots p (nth (length c) knots 0)).
    { repeat split; try assumption; try lra; try (right; split; [reflexivity|assumption]). }
    destruct (closed_admissible _ _ _ _ Hr) as [Ha Ep].
    destruct (DeBoor_point_tri maxdeg junk c knots _ Ha) as [l [Hl [Hxl [Hlt [Hd E]]]]];
      [rewrite Ep; assumption|assumption|]. rewrite Ep in Hl, E. rewrite E.
    assert (l = length c - 1)%nat.
    { destruct (Nat.eq_dec l (length c - 1)); [assumption|]. exfalso.
      assert (nth (l + 1) knots 0 <= nth (length c - 1) knots 0) by (apply Hm; lia). unfold tk in *. lra. }
    subst l. rewrite (tri_right (tk knots) (length knots)); [|exact Hm|assumption| |lia|lia|].
    + rewrite (get_nth _ _ 0) by lia. f_equal. f_equal. lia.
    + unfold tk. f_equal. lia.
    + intros i Hi. replace (length c - 1 + 1 + i)%nat with (length c + i)%nat by lia.
      assert (nth (length c) knots 0 <= nth (length c + i) knots 0) by (apply Hm; lia).
      assert (nth (length c + i) knots 0 <= nth (length c + p) knots 0) by (apply Hm; lia).
      unfold tk. lra.
Qed.

Lemma bspline_partition : forall knots n p x, length knots = (n + p + 1)%nat -> (p < n)%nat ->
  nondecreasing knots -> nth p knots 0 <= x < nth n knots 0 -> (p <= 19)%nat ->
  rsum (fun i => bspline (fun j => nth j knots 0) p i x) n = 1.
Proof.
  intros knots n p x Hlen Hp Hm Hx H19.
  assert (Hr : regular_input (repeat 1 n) knots p x).
  { unfold regular_input. rewrite repeat_length. auto. }
  assert (Hc : closed_input (repeat 1 n) knots p x).
  { destruct Hr as [A1 [A2 [A3 A4]]]. unfold closed_input. repeat split; try assumption; try lra; try (left; lra). }
  destruct (DeBoor_hull 19 (repeat 0 19) (repeat 1 n) knots p x 1 1 Hc H19) as [v [E Hv]].
  { rewrite repeat_length. lia. }
  { intros y Hy. apply repeat_spec in Hy. lra. }
  rewrite (DeBoor_point_spline 19 _ _ _ p) in E; [|assumption|assumption|rewrite repeat_length; lia].
  injection E as E. unfold spline in E. rewrite repeat_length in E.
  rewrite (rsum_ext _ (fun i => nth i (repeat 1 n) 0 * bspline (fun j => nth j knots 0) p i x)); [lra|].
  intros i Hi. replace (nth i (repeat 1 n) 0) with 1; [ring|].
  symmetry. apply (repeat_spec n). apply nth_In. rewrite repeat_length. assumption.
Qed.

(** derivative *)
Lemma tri_ext_t : forall t t' x l k f,
  (forall i, (i < k)%nat -> forall j, (1 <= j <= k)%nat -> (i < j)%nat ->
     t (l - j + 1 + i)%nat = t' (l - j + 1 + i)%nat /\ t (l + 1 + i)%nat = t' (l + 1 + i)%nat) ->
  tri t x l k f = tri t' x l k f.
Proof.
  intros t t' x l k. induction k as [|k IH]; intros f H; cbn [tri]; [reflexivity|].
  rewrite IH by (intros; apply H; lia). apply tri_ext. intros i Hi. unfold wt.
  destruct (H i ltac:(lia) (S k) ltac:(lia) ltac:(lia)) as [E1 E2]. rewrite E1, E2. reflexivity.
Qed.

Lemma DeBoorDer_piece : forall junk c knots p x, regular_input c knots (S p) x ->
  (S p <= MaxP)%nat -> (MaxP <= length junk)%nat ->
  (forall i, (1 <= i < length c)%nat -> nth i knots 0 < nth (i + S p) knots 0) ->
  exists l d, (S p <= l < length c)%nat /\ nth l knots 0 <= x < nth (l + 1) knots 0
   /\ DeBoorDer_row junk c knots [x] = Some [d]
   /\ derivable_pt_lim (fun y => rsum (fun i => nth i c 0 * bs (tk knots) l (S p) i y) (length c)) x d.
Proof.
  intros junk c knots p x Hr Hp Hj Hk.
  destruct Hr as [Hlen [Hpn [Hm Hx]]].
  set (n := length c) in *.
  set (d := map (der_entry c knots (S p)) (seq 0 (n - 1))).
  assert (Ld : length d = (n - 1)%nat) by (unfold d; rewrite map_length, seq_length; reflexivity).
  assert (Lk : length (inner_knots knots) = (n - 1 + p + 1)%nat) by (rewrite inner_length; lia).
  assert (Hin : nondecreasing (inner_knots knots)).
  { intros i j Hij Hjl. change (tk (inner_knots knots) i <= tk (inner_knots knots) j).
    rewrite inner_length in Hjl. rewrite !inner_tk by lia. apply Hm; lia. }
  assert (Hri : regular_input d (inner_knots knots) p x).
  { unfold regular_input. rewrite Ld. split; [assumption|]. split; [lia|]. split; [assumption|].
    change (tk (inner_knots knots) p <= x < tk (inner_knots knots) (n - 1)%nat).
    rewrite !inner_tk by lia. replace (S (n - 1)) with n by lia. assumption. }
  destruct (regular_admissible _ _ _ _ Hri) as [Ha Ep].
  destruct (DeBoor_point_tri MaxP junk d (inner_knots knots) x Ha) as [l [Hl [Hxl [Hlt [Hd E]]]]];
    [rewrite Ep; lia|assumption|]. rewrite Ep in Hl, E. rewrite Ld in *.
  rewrite !inner_tk in * by lia.
  exists (S l). eexists. split; [lia|]. split.
  { split; [exact (proj1 Hxl)|]. apply Hlt. replace (S (n - 1)) with n by lia. unfold tk. lra. }
  split.
  { unfold DeBoorDer_row. rewrite (der_coefs_ok c knots (S p)); [|lia|exact Hk]. cbn [bind].
    fold n. fold d. cbn [map_opt]. rewrite E. reflexivity. }
  rewrite (tri_sum (tk (inner_knots knots)) (length (inner_knots knots))); [|exact Hin|rewrite !inner_tk by lia; assumption|lia|lia].
  assert (S1 := active_sum (tk (inner_knots knots)) l x p (n - 1) (fun i => nth i d 0) ltac:(lia) ltac:(lia)).
  cbv beta in S1. rewrite <- S1. clear S1.
  assert (D := spline_derivable (tk knots) (length knots) (S l) p n (fun i => nth i c 0) x Hm ltac:(lia) ltac:(lia)).
  match type of D with derivable_pt_lim _ _ ?v => match goal with |- derivable_pt_lim _ _ ?w => replace w with v; [exact D|] end end.
  apply rsum_ext. intros i Hi.
  assert (B : bs (tk (inner_knots knots)) l p i x = bs (tk knots) (S l) p (S i) x).
  { rewrite <- bs_shift. assert (G : forall k j, (j + k + 3 < length knots)%nat ->
      bs (tk (inner_knots knots)) l k j x = bs (fun j => tk knots (S j)) l k j x).
    { induction k as [|k IH]; intros j Hjk; [reflexivity|]. cbn [bs]. rewrite !inner_tk by lia.
      rewrite !IH by lia. reflexivity. }
    apply G. lia. }
  rewrite B. unfold d. rewrite nth_map_seq by assumption. unfold der_entry, ai.
  replace (S i) with (i + 1)%nat by lia. unfold tk.
  replace (i + 1 + S p)%nat with (i + S p + 1)%nat by lia.
  assert (Hki := Hk (i + 1)%nat ltac:(lia)). replace (i + 1 + S p)%nat with (i + S p + 1)%nat in Hki by lia.
  destruct Req_EM_T; [lra|]. unfold Rdiv. ring.
Qed.

Lemma DeBoorDer_derivative : forall junk c knots p x, regular_input c knots (S p) x ->
  (S p <= MaxP)%nat -> (MaxP <= length junk)%nat ->
  (forall i, (1 <= i < length c)%nat -> nth i knots 0 < nth (i + S p) knots 0) ->
  ~ In x knots ->
  exists d, DeBoorDer_row junk c knots [x] = Some [d]
   /\ derivable_pt_lim (spline knots c (S p)) x d.
Proof.
  intros junk c knots p x Hr Hp Hj Hk Hnot.
  destruct (DeBoorDer_piece junk c knots p x Hr Hp Hj Hk) as [l [d [Hl [Hx [E D]]]]].
  exists d. split; [assumption|]. destruct Hr as [Hlen [Hpn [Hm Hxx]]].
  assert (Hlx : nth l knots 0 < x).
  { destruct (Req_dec (nth l knots 0) x) as [Eq|]; [|lra]. exfalso. apply Hnot. rewrite <- Eq.
    apply nth_In. lia. }
  apply (derivable_pt_lim_locally_ext (fun y => rsum (fun i => nth i c 0 * bs (tk knots) l (S p) i y) (length c))
          (spline knots c (S p)) x (nth l knots 0) (nth (l + 1) knots 0)); [lra| |exact D].
  intros z Hz. symmetry. apply spline_piece.
  - unfold regular_input. repeat split; try assumption.
    + assert (nth (S p) knots 0 <= nth l knots 0) by (apply Hm; lia). lra.
    + assert (nth (l + 1) knots 0 <= nth (length c) knots 0) by (apply Hm; lia). lra.
  - assumption.
  - unfold tk. lra.
Qed.
