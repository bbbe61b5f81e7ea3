From Coq Require Import Reals Lra Lia Arith List.
From Verif Require Import RSum ModelBase ModelBernstein ModelDeBoor SpecDeBoor.
Import ListNotations.
Local Open Scope R_scope.

(** Non-decreasing on the first N indices. *)
Definition mono (t : nat -> R) (N : nat) : Prop :=
  forall i j, (i <= j)%nat -> (j < N)%nat -> t i <= t j.

(** Polynomial pieces: the Cox-de Boor recursion started with "i is the active span". *)
Fixpoint bs (t : nat -> R) (l k i : nat) (x : R) : R :=
  match k with
  | O => if (i =? l)%nat then 1 else 0
  | S m =>
      (if Req_EM_T (t (i + k)%nat) (t i) then 0
       else (x - t i) / (t (i + k)%nat - t i) * bs t l m i x)
      + (if Req_EM_T (t (i + k + 1)%nat) (t (i + 1)%nat) then 0
         else (t (i + k + 1)%nat - x) / (t (i + k + 1)%nat - t (i + 1)%nat) * bs t l m (i + 1) x)
  end.

Lemma bs_support : forall t l x k i, ~ (i <= l <= i + k)%nat -> bs t l k i x = 0.
Proof.
  intros t l x k. induction k as [|k IH]; intros i H; simpl bs.
  - destruct (Nat.eqb_spec i l); [lia|reflexivity].
  - rewrite (IH i) by lia. rewrite (IH (i + 1)%nat) by lia.
    destruct Req_EM_T; destruct Req_EM_T; ring.
Qed.

Lemma bs_eq : forall t N l x, mono t N -> (l + 1 < N)%nat -> t l <= x < t (l + 1)%nat ->
  forall k i, (i + k + 1 < N)%nat -> bspline t k i x = bs t l k i x.
Proof.
  intros t N l x Hm Hl Hx. induction k as [|k IH]; intros i Hi; simpl bs; simpl bspline.
  - replace (S i) with (i + 1)%nat by lia. destruct (Nat.eqb_spec i l) as [->|Hne].
    + destruct Rle_dec; [|lra]. destruct Rlt_dec; [reflexivity|lra].
    + destruct Rle_dec as [H1|]; [|reflexivity]. destruct Rlt_dec as [H2|]; [|reflexivity].
      exfalso. destruct (Nat.lt_ge_cases i l).
      * assert (t (i + 1)%nat <= t l) by (apply Hm; lia). lra.
      * assert (t (l + 1)%nat <= t i) by (apply Hm; lia). lra.
  - rewrite !IH by lia. reflexivity.
Qed.

(** de Boor weights *)
Definition wt (t : nat -> R) (x : R) (l k i : nat) : R :=
  (x - t (l - k + 1 + i)%nat) / (t (l + 1 + i)%nat - t (l - k + 1 + i)%nat).

(** The triangular scheme on functions. *)
Fixpoint tri (t : nat -> R) (x : R) (l k : nat) (f : nat -> R) : R :=
  match k with
  | O => f O
  | S m => tri t x l m (fun i => wt t x l k i * f (S i) + (1 - wt t x l k i) * f i)
  end.

Lemma tri_ext : forall t x l k f g, (forall i, (i <= k)%nat -> f i = g i) -> tri t x l k f = tri t x l k g.
Proof.
  intros t x l k. induction k as [|k IH]; intros f g H; simpl; [apply H; lia|].
  apply IH. intros i Hi. rewrite (H i), (H (S i)) by lia. reflexivity.
Qed.

Lemma span_denominator : forall t N l k i, mono t N -> t l < t (l + 1)%nat ->
  (k <= l)%nat -> (i < k)%nat -> (l + k < N)%nat ->
  0 < t (l + 1 + i)%nat - t (l - k + 1 + i)%nat.
Proof.
  intros t N l k i Hm Hl Hk Hi HN.
  assert (t (l - k + 1 + i)%nat <= t l) by (apply Hm; lia).
  assert (t (l + 1)%nat <= t (l + 1 + i)%nat) by (apply Hm; lia). lra.
Qed.

Lemma rsum_S : forall f n, rsum f (S n) = rsum f n + f n.
Proof. reflexivity. Qed.

Lemma tri_step : forall t N l x m f, mono t N -> t l < t (l + 1)%nat ->
  (S m <= l)%nat -> (l + S m < N)%nat ->
  rsum (fun i => f i * bs t l (S m) (l - S m + i) x) (S m + 1)
  = rsum (fun i => (wt t x l (S m) i * f (S i) + (1 - wt t x l (S m) i) * f i)
                   * bs t l m (l - m + i) x) (m + 1).
Proof.
  intros t N l x m f Hm Hl Hk HN.
  set (k := S m). set (w := wt t x l k).
  (* first part of the recursion *)
  set (A := fun i => if Req_EM_T (t (l - k + i + k)%nat) (t (l - k + i)%nat) then 0
       else (x - t (l - k + i)%nat) / (t (l - k + i + k)%nat - t (l - k + i)%nat)).
  set (B := fun i => if Req_EM_T (t (l - k + i + k + 1)%nat) (t (l - k + i + 1)%nat) then 0
       else (t (l - k + i + k + 1)%nat - x) / (t (l - k + i + k + 1)%nat - t (l - k + i + 1)%nat)).
  assert (E : forall i, bs t l k (l - k + i) x
     = A i * bs t l m (l - k + i) x + B i * bs t l m (l - k + i + 1) x).
  { intros i. unfold k at 1. simpl bs. fold k. unfold A, B. replace (S m) with k by reflexivity.
    destruct Req_EM_T; destruct Req_EM_T; ring. }
  assert (HA : forall i, (i < k)%nat -> A (S i) = w i).
  { intros i Hi. unfold A, w, wt.
    assert (D : 0 < t (l + 1 + i)%nat - t (l - k + 1 + i)%nat)
      by (apply (span_denominator t N); unfold k in *; assumption || lia).
    replace (l - k + S i + k)%nat with (l + 1 + i)%nat by (unfold k in *; lia).
    replace (l - k + S i)%nat with (l - k + 1 + i)%nat by lia.
    destruct Req_EM_T; [lra|reflexivity]. }
  assert (HB : forall i, (i < k)%nat -> B i = 1 - w i).
  { intros i Hi. unfold B, w, wt.
    assert (D : 0 < t (l + 1 + i)%nat - t (l - k + 1 + i)%nat)
      by (apply (span_denominator t N); unfold k in *; assumption || lia).
    replace (l - k + i + k + 1)%nat with (l + 1 + i)%nat by (unfold k in *; lia).
    replace (l - k + i + 1)%nat with (l - k + 1 + i)%nat by lia.
    destruct Req_EM_T; [lra|field; lra]. }
  rewrite (rsum_ext _ (fun i => f i * A i * bs t l m (l - k + i) x + f i * B i * bs t l m (l - k + i + 1) x)).
  2:{ intros i _. rewrite E. ring. }
  rewrite rsum_plus.
  replace (k + 1)%nat with (S k) by lia.
  rewrite (rsum_shift (fun i => f i * A i * bs t l m (l - k + i) x)).
  rewrite (rsum_S (fun i => f i * B i * bs t l m (l - k + i + 1) x) k).
  rewrite (bs_support t l x m (l - k + 0)) by (unfold k; lia).
  rewrite (bs_support t l x m (l - k + k + 1)) by (unfold k; lia).
  rewrite !Rmult_0_r, Rplus_0_l, Rplus_0_r, <- rsum_plus.
  replace (m + 1)%nat with k by (unfold k; lia). apply rsum_ext. intros i Hi.
  rewrite HA, HB by assumption.
  replace (l - k + S i)%nat with (l - m + i)%nat by (unfold k in *; lia).
  replace (l - k + i + 1)%nat with (l - m + i)%nat by (unfold k in *; lia).
  ring.
Qed.

Lemma tri_sum : forall t N l x, mono t N -> t l < t (l + 1)%nat ->
  forall k f, (k <= l)%nat -> (l + k < N)%nat ->
  tri t x l k f = rsum (fun i => f i * bs t l k (l - k + i) x) (k + 1).
Proof.
  intros t N l x Hm Hl. induction k as [|k IH]; intros f Hk HN.
  - simpl. replace (l - 0 + 0)%nat with l by lia. rewrite Nat.eqb_refl. ring.
  - cbn [tri]. rewrite (tri_step t N) by assumption. apply IH; lia.
Qed.

(** The sum over all control points reduces to the active ones. *)
Lemma active_sum : forall t l x p n (c : nat -> R), (p <= l)%nat -> (l < n)%nat ->
  rsum (fun i => c i * bs t l p i x) n
  = rsum (fun i => c (l - p + i)%nat * bs t l p (l - p + i) x) (p + 1).
Proof.
  intros t l x p n c Hp Hl.
  replace n with ((l - p) + ((p + 1) + (n - l - 1)))%nat by lia.
  rewrite rsum_split. rewrite rsum_zero.
  2:{ intros i Hi. rewrite bs_support by lia. ring. }
  rewrite rsum_split. rewrite (rsum_zero _ (n - l - 1)).
  2:{ intros i Hi. rewrite bs_support by lia. ring. }
  ring.
Qed.

(** hull *)
Lemma wt_bounds : forall t N l x k i, mono t N -> t l < t (l + 1)%nat ->
  t l <= x <= t (l + 1)%nat -> (k <= l)%nat -> (i < k)%nat -> (l + k < N)%nat ->
  0 <= wt t x l k i <= 1.
Proof.
  intros t N l x k i Hm Hl Hx Hk Hi HN. unfold wt.
  assert (D := span_denominator t N l k i Hm Hl Hk Hi HN).
  assert (t (l - k + 1 + i)%nat <= t l) by (apply Hm; lia).
  assert (t (l + 1)%nat <= t (l + 1 + i)%nat) by (apply Hm; lia).
  split.
  - apply Rmult_le_pos; [lra|]. left. apply Rinv_0_lt_compat. assumption.
  - apply (Rmult_le_reg_r (t (l + 1 + i)%nat - t (l - k + 1 + i)%nat)); [assumption|].
    unfold Rdiv. rewrite Rmult_assoc, Rinv_l by lra. lra.
Qed.

Lemma tri_hull : forall t N l x lo hi, mono t N -> t l < t (l + 1)%nat ->
  t l <= x <= t (l + 1)%nat ->
  forall k f, (k <= l)%nat -> (l + k < N)%nat -> (forall i, (i <= k)%nat -> lo <= f i <= hi) ->
  lo <= tri t x l k f <= hi.
Proof.
  intros t N l x lo hi Hm Hl Hx. induction k as [|k IH]; intros f Hk HN Hf; cbn [tri]; [apply Hf; lia|].
  apply IH; [lia|lia|]. intros i Hi.
  assert (W : 0 <= wt t x l (S k) i <= 1) by (apply (wt_bounds t N); assumption || lia).
  assert (F1 := Hf (S i)). assert (F0 := Hf i).
  assert (lo <= f (S i) <= hi) by (apply F1; lia). assert (lo <= f i <= hi) by (apply F0; lia).
  set (w := wt t x l (S k) i) in *. nra.
Qed.

(** ** the program computes [tri] *)
Definition tk (knots : list R) : nat -> R := fun i => nth i knots 0.

Lemma weight_ok : forall knots x l k i, mono (tk knots) (length knots) ->
  tk knots l < tk knots (l + 1)%nat -> (k <= l)%nat -> (i < k)%nat -> (l + k < length knots)%nat ->
  weight knots x l k i = Some (wt (tk knots) x l k i).
Proof.
  intros knots x l k i Hm Hl Hk Hi HN. unfold weight.
  rewrite (get_nth _ _ 0) by lia. cbn [bind]. rewrite (get_nth _ _ 0) by lia. cbn [bind].
  assert (D := span_denominator (tk knots) _ l k i Hm Hl Hk Hi HN). unfold tk in D.
  destruct Req_EM_T; [lra|]. reflexivity.
Qed.

Lemma step_ok : forall knots x l k ws temp, mono (tk knots) (length knots) ->
  tk knots l < tk knots (l + 1)%nat -> (k <= l)%nat -> (l + k < length knots)%nat ->
  (k <= length ws)%nat -> (k < length temp)%nat ->
  exists ws' temp', deboor_step knots x l k (ws, temp) = Some (ws', temp')
    /\ length ws' = length ws /\ length temp' = length temp
    /\ (forall i, (i < k)%nat -> nth i temp' 0 =
          wt (tk knots) x l k i * nth (S i) temp 0 + (1 - wt (tk knots) x l k i) * nth i temp 0).
Proof.
  intros knots x l k ws temp Hm Hl Hk HN Hws Ht. unfold deboor_step.
  destruct (for_opt_inv (fun i (v : list R) => length v = length ws /\
      forall j, (j < i)%nat -> nth j v 0 = wt (tk knots) x l k j) k
      (fun i ws => w <- weight knots x l k i ;; set ws i w) ws) as [ws' [E [L N]]].
  { split; [reflexivity|]. intros; lia. }
  { intros i v Hi [Lv Nv]. rewrite weight_ok by assumption. cbn [bind].
    destruct (set_spec v i (wt (tk knots) x l k i)) as [v' [E [L N]]]; [lia|].
    exists v'. split; [assumption|]. split; [congruence|].
    intros j Hj. rewrite N. destruct (Nat.eqb_spec j i) as [->|]; [reflexivity|]. apply Nv; lia. }
  rewrite E. cbn [bind].
  destruct (for_opt_inv (fun i (v : list R) => length v = length temp /\
      (forall j, (j < i)%nat -> nth j v 0 =
          wt (tk knots) x l k j * nth (S j) temp 0 + (1 - wt (tk knots) x l k j) * nth j temp 0) /\
      (forall j, (i <= j)%nat -> nth j v 0 = nth j temp 0)) k
      (fun i temp => w <- get ws' i ;; t1 <- get temp (1 + i)%nat ;; t0 <- get temp i ;;
            set temp i (w * t1 + (1 - w) * t0)) temp) as [temp' [E2 [L2 [N2 _]]]].
  { split; [reflexivity|]. split; [intros; lia|reflexivity]. }
  { intros i v Hi [Lv [Nv Ov]].
    rewrite (get_nth _ _ 0) by lia. cbn [bind]. rewrite (get_nth _ _ 0) by lia. cbn [bind].
    rewrite (get_nth _ _ 0) by lia. cbn [bind].
    match goal with |- exists s', set v i ?y = _ /\ _ => destruct (set_spec v i y) as [v' [E3 [L3 N3]]]; [lia|] end.
    exists v'. split; [assumption|]. split; [congruence|]. split.
    - intros j Hj. rewrite N3. destruct (Nat.eqb_spec j i) as [->|]; [|apply Nv; lia].
      rewrite N by assumption. rewrite !Ov by lia. reflexivity.
    - intros j Hj. rewrite N3. destruct (Nat.eqb_spec j i) as [->|]; [lia|]. apply Ov; lia. }
  rewrite E2. cbn [bind]. exists ws', temp'. auto.
Qed.

Lemma loop_ok : forall knots x l k ws temp, mono (tk knots) (length knots) ->
  tk knots l < tk knots (l + 1)%nat -> (k <= l)%nat -> (l + k < length knots)%nat ->
  (k <= length ws)%nat -> (k < length temp)%nat ->
  exists ws' temp', deboor_loop k knots x l (ws, temp) = Some (ws', temp')
    /\ get temp' 0 = Some (tri (tk knots) x l k (fun i => nth i temp 0)).
Proof.
  intros knots x l k. induction k as [|k IH]; intros ws temp Hm Hl Hk HN Hws Ht.
  - exists ws, temp. split; [reflexivity|]. cbn [tri]. apply get_nth. lia.
  - cbn [deboor_loop].
    destruct (step_ok knots x l (S k) ws temp) as [ws' [temp' [E [L1 [L2 Nt]]]]]; try assumption.
    rewrite E. cbn [bind].
    destruct (IH ws' temp') as [ws2 [temp2 [E2 G]]]; try assumption; try lia.
    exists ws2, temp2. split; [assumption|]. rewrite G. f_equal. cbn [tri].
    apply tri_ext. intros i Hi. apply Nt. lia.
Qed.

Lemma nth_firstn : forall (l : list R) n i d, (i < n)%nat -> nth i (firstn n l) d = nth i l d.
Proof.
  intros l. induction l as [|a l IH]; intros n i d Hi; [rewrite firstn_nil; reflexivity|].
  destruct n; [lia|]. destruct i; [reflexivity|]. simpl. apply IH. lia.
Qed.
Lemma nth_skipn : forall (l : list R) n i d, nth i (skipn n l) d = nth (n + i) l d.
Proof.
  intros l. induction l as [|a l IH]; intros n i d; [rewrite skipn_nil; destruct i, n; reflexivity|].
  destruct n; [reflexivity|]. simpl. apply IH.
Qed.

(** the span search *)
Lemma span_loop_ok : forall fuel knots x n l, mono (tk knots) (length knots) ->
  (n < length knots)%nat -> (l <= n)%nat -> (n < fuel + l)%nat ->
  (forall i, (i < l)%nat -> tk knots i <= x) ->
  exists l', span_loop fuel knots x n l = Some l' /\ (l <= l' <= n)%nat
    /\ (forall i, (i < l')%nat -> tk knots i <= x) /\ (l' = n \/ x < tk knots l').
Proof.
  induction fuel as [|fuel IH]; intros knots x n l Hm Hn Hl Hf Hle; [lia|].
  cbn [span_loop]. rewrite (get_nth _ _ 0) by lia. cbn [bind]. unfold Rleb.
  destruct (Rle_dec (nth l knots 0) x) as [H|H]; cbn [andb].
  - destruct (Nat.eqb_spec l n) as [->|Hne]; cbn [negb].
    + exists n. split; [reflexivity|]. split; [lia|]. split; [assumption|]. left; reflexivity.
    + destruct (IH knots x n (S l)) as [l' [E [B [P Q]]]]; try assumption; try lia.
      { intros i Hi. destruct (Nat.eq_dec i l) as [->|]; [exact H|apply Hle; lia]. }
      exists l'. split; [assumption|]. split; [lia|]. auto.
  - exists l. split; [reflexivity|]. split; [lia|]. split; [assumption|]. right. unfold tk. lra.
Qed.

(** Complete evaluation at an admissible point: there is a non-degenerate span l, p <= l < n,
    with t_l <= x <= t_{l+1}, and the result is the triangle on it. *)
Definition admissible (c knots : list R) (x : R) : Prop :=
  let n := length c in
  let p := (length knots - n - 1)%nat in
  (n + 1 <= length knots <= 2 * n)%nat /\ mono (tk knots) (length knots)
  /\ tk knots p <= x
  /\ (x < tk knots n \/ (x = tk knots n /\ tk knots (n - 1) < tk knots n)).

Lemma DeBoor_point_tri : forall maxdeg junk c knots x,
  let n := length c in
  let p := (length knots - n - 1)%nat in
  admissible c knots x -> (p <= maxdeg)%nat -> (maxdeg <= length junk)%nat ->
  exists l, (p <= l < n)%nat /\ tk knots l <= x <= tk knots (l + 1)%nat
    /\ (x < tk knots n -> x < tk knots (l + 1)%nat)
    /\ tk knots l < tk knots (l + 1)%nat
    /\ DeBoor_point maxdeg junk c knots x
       = Some (tri (tk knots) x l p (fun i => nth (l - p + i) c 0)).
Proof.
  intros maxdeg junk c knots x n p [Hlen [Hm [Hx1 Hx2]]] Hp Hj. fold n in Hlen, Hx1, Hx2. fold p in Hx1.
  assert (Hsz : length knots = (n + p + 1)%nat) by (unfold n, p in *; lia).
  assert (Hnp : (p < n)%nat) by lia.
  assert (Hxn : x <= tk knots n) by (destruct Hx2; lra).
  destruct (span_loop_ok (n + 1) knots x n 0) as [l1 [E [B [P Q]]]]; try assumption; try lia.
  assert (Hpl : (p + 1 <= l1)%nat).
  { destruct (Nat.le_gt_cases (p + 1) l1) as [|Hgt]; [assumption|]. exfalso.
    destruct Q as [Q|Q]; [lia|]. assert (tk knots l1 <= tk knots p) by (apply Hm; lia). lra. }
  set (l := (l1 - 1)%nat).
  assert (Hl : tk knots l <= x) by (apply P; unfold l; lia).
  assert (Hl1 : (l + 1 = l1)%nat) by (unfold l; lia).
  assert (Hr : x <= tk knots (l + 1)%nat /\ tk knots l < tk knots (l + 1)%nat
               /\ (x < tk knots n -> x < tk knots (l + 1)%nat)).
  { rewrite Hl1. destruct Q as [->|Q]; [|split; [|split]; try lra; intros; lra].
    split; [assumption|]. split; [|auto].
    destruct Hx2 as [H|[H1 H2]]; [lra|]. unfold l. assumption. }
  destruct Hr as [Hr1 [Hr2 Hr3]].
  exists l. split; [unfold l; lia|]. split; [lra|]. split; [assumption|]. split; [assumption|].
  unfold DeBoor_point. fold n. fold p.
  destruct (Nat.leb_spec (n + 1) (length knots)); [|lia]. cbn [assert bind].
  rewrite (get_nth knots p 0) by lia. cbn [bind].
  rewrite (get_nth knots (n + p) 0) by lia. cbn [bind].
  assert (Htn : tk knots n <= tk knots (n + p)) by (apply Hm; lia).
  unfold Rleb at 1 2. unfold tk in Hx1, Htn. destruct (Rle_dec (nth p knots 0) x); [|lra].
  destruct (Rle_dec x (nth (n + p) knots 0)); [|unfold tk in Hxn; lra]. cbn [andb assert bind].
  rewrite E. cbn [bind]. destruct (Nat.leb_spec 1 l1); [|lia]. cbn [assert bind]. fold l.
  destruct (Nat.leb_spec p l); [|unfold l in *; lia]. destruct (Nat.ltb_spec l n); [|unfold l in *; lia].
  cbn [andb assert bind]. destruct (Nat.leb_spec p maxdeg); [|lia]. cbn [assert bind].
  set (temp := firstn (p + 1) (skipn (l - p) c)).
  assert (Lt : length temp = (p + 1)%nat).
  { unfold temp. rewrite firstn_length, skipn_length. fold n. lia. }
  destruct (loop_ok knots x l p junk temp) as [ws' [temp' [E2 G]]]; try assumption; try lia.
  rewrite E2. cbn [bind snd]. rewrite G. f_equal. apply tri_ext. intros i Hi.
  unfold temp. rewrite nth_firstn by lia. apply nth_skipn.
Qed.
