From Coq Require Import Reals Lra Lia Arith List ZArith Sorting.
From Verif Require Import RSum ModelBernstein SpecBernstein ProofBernstein ModelKnots.
Import ListNotations.
Local Open Scope R_scope.

(** ** lists *)
Lemma push_const : forall n x out, for_loop n (fun _ o => push_back o x) out = out ++ repeat x n.
Proof.
  intros n x out. induction n as [|n IH]; simpl for_loop.
  - rewrite app_nil_r. reflexivity.
  - rewrite IH. unfold push_back. rewrite <- app_assoc. f_equal.
    rewrite <- repeat_cons. reflexivity.
Qed.

Definition blocks (h : R) (rep n : nat) : list R :=
  flat_map (fun k => repeat (INR (k + 1) * h) rep) (seq 0 n).

Lemma blocks_S : forall h rep n, blocks h rep (S n) = blocks h rep n ++ repeat (INR (n + 1) * h) rep.
Proof.
  intros. unfold blocks. rewrite seq_S, flat_map_app. simpl. rewrite app_nil_r. reflexivity.
Qed.

Lemma push_blocks : forall n h rep out,
  for_loop n (fun k out => for_loop rep (fun _ out => push_back out (INR (k + 1) * h)) out) out
  = out ++ blocks h rep n.
Proof.
  intros n h rep out. induction n as [|n IH]; simpl for_loop.
  - simpl. rewrite app_nil_r. reflexivity.
  - rewrite IH, push_const, blocks_S, app_assoc. reflexivity.
Qed.

Lemma uniform_eq : forall p interior rep,
  MakeUniformKnotVector p interior rep
  = repeat 0 p ++ blocks (1 / INR (interior + 1)) rep interior ++ repeat 1 p.
Proof.
  intros. unfold MakeUniformKnotVector. rewrite !push_const, push_blocks. simpl.
  rewrite <- app_assoc. reflexivity.
Qed.

Lemma blocks_length : forall h rep n, length (blocks h rep n) = (n * rep)%nat.
Proof.
  intros. induction n as [|n IH]; [reflexivity|].
  rewrite blocks_S, app_length, IH, repeat_length. lia.
Qed.

Lemma StronglySorted_app : forall {A} (Rel : A -> A -> Prop) l1 l2,
  StronglySorted Rel l1 -> StronglySorted Rel l2 ->
  (forall a b, In a l1 -> In b l2 -> Rel a b) -> StronglySorted Rel (l1 ++ l2).
Proof.
  intros A Rel l1 l2 H1 H2 H. induction H1 as [|a l1 H1 IH Hall]; simpl; [assumption|].
  constructor.
  - apply IH. intros; apply H; [right|]; assumption.
  - apply Forall_app. split; [assumption|]. apply Forall_forall. intros. apply H; [left; reflexivity|assumption].
Qed.

Lemma StronglySorted_repeat : forall x n, StronglySorted Rle (repeat x n).
Proof.
  intros. induction n; simpl; constructor; [assumption|].
  apply Forall_forall. intros y Hy. apply repeat_spec in Hy. subst. lra.
Qed.

Lemma In_blocks : forall h rep n x, In x (blocks h rep n) ->
  exists k, (k < n)%nat /\ x = INR (k + 1) * h.
Proof.
  intros h rep n x H. unfold blocks in H. apply in_flat_map in H. destruct H as [k [Hk Hx]].
  apply in_seq in Hk. apply repeat_spec in Hx. exists k. split; [lia|assumption].
Qed.

Lemma blocks_sorted : forall h rep n, 0 <= h -> StronglySorted Rle (blocks h rep n).
Proof.
  intros h rep n Hh. induction n as [|n IH]; [constructor|].
  rewrite blocks_S. apply StronglySorted_app; [assumption|apply StronglySorted_repeat|].
  intros a b Ha Hb. apply In_blocks in Ha. destruct Ha as [k [Hk ->]]. apply repeat_spec in Hb. subst b.
  apply Rmult_le_compat_r; [assumption|]. apply le_INR. lia.
Qed.

Lemma step_pos : forall n, 0 < 1 / INR (n + 1).
Proof.
  intros. unfold Rdiv. rewrite Rmult_1_l. apply Rinv_0_lt_compat. apply lt_0_INR. lia.
Qed.

Lemma step_lt1 : forall k n, (k < n)%nat -> INR (k + 1) * (1 / INR (n + 1)) < 1.
Proof.
  intros k n H. assert (0 < INR (n + 1)) by (apply lt_0_INR; lia).
  apply (Rmult_lt_reg_r (INR (n + 1))); [assumption|].
  replace (INR (k + 1) * (1 / INR (n + 1)) * INR (n + 1)) with (INR (k + 1)) by (field; lra).
  rewrite Rmult_1_l. apply lt_INR. lia.
Qed.

Lemma step_gt0 : forall k n, 0 < INR (k + 1) * (1 / INR (n + 1)).
Proof.
  intros. apply Rmult_lt_0_compat; [apply lt_0_INR; lia|apply step_pos].
Qed.

Lemma count_repeat_neq : forall x y n, x <> y -> count_occ Req_EM_T (repeat x n) y = 0%nat.
Proof.
  intros. induction n; simpl; [reflexivity|]. destruct (Req_EM_T x y); [contradiction|assumption].
Qed.
Lemma count_repeat_eq : forall x n, count_occ Req_EM_T (repeat x n) x = n.
Proof.
  intros. induction n; simpl; [reflexivity|]. destruct (Req_EM_T x x); [f_equal; assumption|congruence].
Qed.

Lemma count_blocks : forall h rep n i, 0 < h -> (i < n)%nat ->
  count_occ Req_EM_T (blocks h rep n) (INR (i + 1) * h) = rep.
Proof.
  intros h rep n i Hh Hi.
  assert (G : forall m, (m <= i)%nat -> count_occ Req_EM_T (blocks h rep m) (INR (i + 1) * h) = 0%nat).
  { intros m Hm. apply count_occ_not_In. intros Hin. apply In_blocks in Hin. destruct Hin as [k [Hk E]].
    apply Rmult_eq_reg_r in E; [|lra]. apply INR_eq in E. lia. }
  induction n as [|n IH]; [lia|]. rewrite blocks_S, count_occ_app.
  destruct (Nat.eq_dec i n) as [->|Hne].
  - rewrite G by lia. rewrite count_repeat_eq. lia.
  - rewrite IH by lia. rewrite count_repeat_neq; [lia|].
    intros E. apply Rmult_eq_reg_r in E; [|lra]. apply INR_eq in E. lia.
Qed.

Lemma uniform_shape : forall p interior rep,
  let v := MakeUniformKnotVector p interior rep in
  length v = (2 * p + interior * rep)%nat
  /\ StronglySorted Rle v
  /\ (forall x, In x v -> 0 <= x <= 1)
  /\ (forall k, (k < p)%nat -> nth_error v k = Some 0)
  /\ (forall k, (k < p)%nat -> nth_error v (p + interior * rep + k) = Some 1)
  /\ count_occ Req_EM_T v 0 = p
  /\ count_occ Req_EM_T v 1 = p
  /\ (forall i, (0 < i <= interior)%nat -> count_occ Req_EM_T v (INR i / INR (interior + 1)) = rep).
Proof.
  intros p n rep v. unfold v. rewrite uniform_eq. set (h := 1 / INR (n + 1)).
  assert (Hh : 0 < h) by apply step_pos.
  assert (HB : forall x, In x (blocks h rep n) -> 0 < x < 1).
  { intros x Hx. apply In_blocks in Hx. destruct Hx as [k [Hk ->]]. split; [apply step_gt0|apply step_lt1; assumption]. }
  assert (B0 : count_occ Req_EM_T (blocks h rep n) 0 = 0%nat).
  { apply count_occ_not_In. intros H. apply HB in H. lra. }
  assert (B1 : count_occ Req_EM_T (blocks h rep n) 1 = 0%nat).
  { apply count_occ_not_In. intros H. apply HB in H. lra. }
  split; [|split; [|split; [|split; [|split; [|split; [|split]]]]]].
  - rewrite !app_length, !repeat_length, blocks_length. lia.
  - apply StronglySorted_app; [apply StronglySorted_repeat| |].
    + apply StronglySorted_app; [apply blocks_sorted; lra|apply StronglySorted_repeat|].
      intros a b Ha Hb. apply HB in Ha. apply repeat_spec in Hb. lra.
    + intros a b Ha Hb. apply repeat_spec in Ha. apply in_app_or in Hb. destruct Hb as [Hb|Hb].
      * apply HB in Hb. lra.
      * apply repeat_spec in Hb. lra.
  - intros x Hx. apply in_app_or in Hx. destruct Hx as [Hx|Hx]; [apply repeat_spec in Hx; lra|].
    apply in_app_or in Hx. destruct Hx as [Hx|Hx]; [apply HB in Hx; lra|apply repeat_spec in Hx; lra].
  - intros k Hk. rewrite nth_error_app1 by (rewrite repeat_length; lia). apply nth_error_repeat. assumption.
  - intros k Hk. rewrite nth_error_app2 by (rewrite repeat_length; lia). rewrite repeat_length.
    rewrite nth_error_app2 by (rewrite blocks_length; lia). rewrite blocks_length.
    apply nth_error_repeat. lia.
  - rewrite !count_occ_app, B0, count_repeat_eq, count_repeat_neq by lra. lia.
  - rewrite !count_occ_app, B1, count_repeat_eq, count_repeat_neq by lra. lia.
  - intros i Hi. replace (INR i / INR (n + 1)) with (INR (i - 1 + 1) * h).
    2:{ unfold h. replace (i - 1 + 1)%nat with i by lia. unfold Rdiv. ring. }
    assert (0 < INR (i - 1 + 1) * h < 1).
    { split; [apply step_gt0|apply step_lt1; lia]. }
    rewrite !count_occ_app, count_blocks by (lra || lia).
    rewrite !count_repeat_neq by lra. lia.
Qed.

Lemma bezier_is_uniform : forall p,
  MakeBezierKnotVector p = MakeUniformKnotVector p 0 0
  /\ forall rep, MakeBezierKnotVector p = MakeUniformKnotVector p 0 rep.
Proof.
  intros p. split; [|intros rep]; rewrite uniform_eq; unfold MakeBezierKnotVector;
    rewrite !push_const; reflexivity.
Qed.

Lemma degree_scan_zeros : forall n v i, degree_scan (repeat 0 n ++ v) i = degree_scan v (n + i).
Proof.
  induction n as [|n IH]; intros v i; simpl; [reflexivity|].
  unfold degree_tol. destruct Rlt_dec; [lra|]. rewrite IH. f_equal. lia.
Qed.

Lemma degree_read_back : forall p interior rep, (1 <= p)%nat ->
  1 / INR (interior + 1) > 1 / 10000000 ->
  GetPolynomialDegreeFromKnotVector (MakeUniformKnotVector p interior rep) = p.
Proof.
  intros p n rep Hp Hh. rewrite uniform_eq. destruct p as [|q]; [lia|].
  unfold GetPolynomialDegreeFromKnotVector. cbn [repeat app tl].
  rewrite degree_scan_zeros.
  set (w := blocks (1 / INR (n + 1)) rep n ++ 1 :: repeat 1 q).
  assert (Hw : exists x w', w = x :: w' /\ degree_tol < x).
  { unfold w, degree_tol. destruct (blocks (1 / INR (n + 1)) rep n) as [|x l] eqn:E.
    - exists 1, (repeat 1 q). split; [reflexivity|]. lra.
    - exists x, (l ++ 1 :: repeat 1 q). split; [reflexivity|].
      assert (Hin : In x (blocks (1 / INR (n + 1)) rep n)) by (rewrite E; left; reflexivity).
      apply In_blocks in Hin. destruct Hin as [k [Hk ->]].
      assert (1 <= INR (k + 1)) by (change 1 with (INR 1); apply le_INR; lia).
      apply Rlt_le_trans with (1 * (1 / INR (n + 1))); [lra|].
      apply Rmult_le_compat_r; lra. }
  destruct Hw as [x [w' [-> Hx]]]. simpl. destruct Rlt_dec; [lia|contradiction].
Qed.

(** ** unique knots *)
Lemma unique_loop_spec : forall v prev out,
  StronglySorted (fun a b => a = b \/ a + generic_tolerance < b) (prev :: v) ->
  StronglySorted Rlt out -> In prev out -> (forall x, In x out -> x <= prev) ->
  StronglySorted Rlt (unique_loop prev v out)
  /\ (forall x, In x (unique_loop prev v out) <-> In x out \/ In x v).
Proof.
  induction v as [|x v IH]; intros prev out HS HO Hin Hle; simpl.
  - split; [assumption|]. intros; tauto.
  - inversion HS as [|? ? HS' Hall]; subst. inversion Hall as [|? ? Hx Hall']; subst.
    assert (Ht : 0 < generic_tolerance) by (unfold generic_tolerance; lra).
    destruct Rlt_dec as [Hlt|Hnlt].
    + destruct (IH x (push_back out x)) as [I1 I2].
      * assumption.
      * unfold push_back. apply StronglySorted_app; [assumption|repeat constructor|].
        intros a b Ha [<-|[]]. apply Hle in Ha. lra.
      * unfold push_back. apply in_or_app. right; left; reflexivity.
      * intros y Hy. unfold push_back in Hy. apply in_app_or in Hy. destruct Hy as [Hy|[<-|[]]]; [|lra].
        apply Hle in Hy. lra.
      * split; [assumption|]. intros y. rewrite I2. unfold push_back. rewrite in_app_iff. simpl. tauto.
    + destruct Hx as [<-|Hx]; [|lra].
      destruct (IH prev out) as [I1 I2]; [assumption|assumption|assumption|assumption|].
      split; [assumption|]. intros y. rewrite I2. split; [tauto|]. intros [H|[<-|H]]; tauto.
Qed.

Lemma unique_knots : forall v, v <> [] ->
  StronglySorted (fun a b => a = b \/ a + generic_tolerance < b) v ->
  exists u, ExtractUniqueKnotVector v = Some u
    /\ StronglySorted Rlt u
    /\ (forall x, In x u <-> In x v).
Proof.
  intros [|x v] Hne HS; [contradiction|]. eexists. split; [reflexivity|].
  destruct (unique_loop_spec v x (push_back [] x)) as [H1 H2]; try assumption.
  - unfold push_back. simpl. repeat constructor.
  - left; reflexivity.
  - intros y [<-|[]]. lra.
  - split; [assumption|]. intros y. rewrite H2. simpl. tauto.
Qed.

(** ** find location *)
Lemma find_loop_range : forall v x i d, (0 <= i)%Z ->
  (2 <= length v)%nat -> (d = i + Z.of_nat (length v) - 2)%Z ->
  (i <= find_loop x v i d <= d)%Z.
Proof.
  induction v as [|a v IH]; intros x i d Hi Hl Hd; simpl in Hl; [lia|].
  destruct v as [|b v]; [simpl in Hl; lia|]. cbn [find_loop].
  assert (R : (i <= find_loop x (b :: v) (i + 1) d <= d)%Z).
  { destruct v as [|c v].
    - simpl in *. lia.
    - assert (i + 1 <= find_loop x (b :: c :: v) (i + 1) d <= d)%Z by (apply IH; simpl length in *; lia). lia. }
  simpl length in Hd.
  destruct Rle_dec; [destruct Rlt_dec; [lia|exact R]|exact R].
Qed.

Lemma find_location_range : forall v x, (2 <= length v)%nat ->
  (0 <= FindLocationInKnotVector x v <= Z.of_nat (length v) - 2)%Z.
Proof.
  intros v x H. unfold FindLocationInKnotVector.
  assert (0 <= find_loop x v 0 (Z.of_nat (length v) - 2) <= Z.of_nat (length v) - 2)%Z
    by (apply find_loop_range; lia).
  destruct Rlt_dec; [destruct Rlt_dec; lia|lia].
Qed.

Lemma find_loop_spec : forall v x i dd d, (2 <= length v)%nat ->
  StronglySorted Rlt v -> nth 0 v dd <= x <= last v dd ->
  (d = i + Z.of_nat (length v) - 2)%Z ->
  exists k : nat, find_loop x v i d = (i + Z.of_nat k)%Z
    /\ (k + 1 < length v)%nat /\ nth k v dd <= x
    /\ (x < nth (k + 1) v dd \/ (k + 2 = length v /\ x = nth (k + 1) v dd)%nat).
Proof.
  induction v as [|a v IH]; intros x i dd d Hl HS Hx Hd; simpl in Hl; [lia|].
  destruct v as [|b v]; [simpl in Hl; lia|].
  cbn [find_loop]. cbn [nth] in Hx. destruct Rle_dec as [Ha|Ha]; [|lra].
  destruct Rlt_dec as [Hb|Hb].
  - exists 0%nat. split; [lia|]. split; [simpl; lia|]. split; [assumption|]. left; assumption.
  - inversion HS as [|? ? HS' Hall]; subst. destruct v as [|c v].
    + exists 0%nat. simpl in *. split; [lia|]. split; [lia|]. split; [assumption|]. right. split; [lia|lra].
    + destruct (IH x (i + 1)%Z dd (i + Z.of_nat (length (a :: b :: c :: v)) - 2)%Z) as [k [E [K1 [K2 K3]]]].
      * simpl; lia.
      * assumption.
      * cbn [nth]. split; [lra|]. exact (proj2 Hx).
      * simpl length. lia.
      * exists (S k). split; [etransitivity; [exact E|lia]|]. split; [simpl length in *; lia|]. split; [exact K2|].
        destruct K3 as [K3|[K3 K4]]; [left; exact K3|right; split; [simpl length in *; lia|exact K4]].
Qed.

Lemma find_location : forall v x d, (2 <= length v)%nat ->
  StronglySorted Rlt v -> nth 0 v d = 0 -> 0 <= x <= last v d ->
  exists i : nat, FindLocationInKnotVector x v = Z.of_nat i
    /\ (i + 1 < length v)%nat
    /\ nth i v d <= x
    /\ (x < nth (i + 1) v d
        \/ (i + 2 = length v /\ x = nth (i + 1) v d)%nat
        \/ (i = 0%nat /\ x < generic_tolerance)).
Proof.
  intros v x d Hl HS H0 Hx. unfold FindLocationInKnotVector.
  destruct (find_loop_spec v x 0%Z d (Z.of_nat (length v) - 2)%Z) as [k [E [K1 [K2 K3]]]];
    [assumption|assumption|rewrite H0; assumption|lia|].
  assert (G : exists i : nat, find_loop x v 0 (Z.of_nat (length v) - 2) = Z.of_nat i
    /\ (i + 1 < length v)%nat /\ nth i v d <= x
    /\ (x < nth (i + 1) v d \/ (i + 2 = length v /\ x = nth (i + 1) v d)%nat
        \/ (i = 0%nat /\ x < generic_tolerance))).
  { exists k. rewrite E. split; [lia|]. split; [assumption|]. split; [assumption|]. tauto. }
  destruct Rlt_dec as [H1|H1]; [|exact G]. destruct Rlt_dec as [H2|H2]; [|exact G].
  exists 0%nat. split; [reflexivity|]. split; [lia|]. split; [rewrite H0; lra|].
  right; right. split; [reflexivity|lra].
Qed.

(** ** Localize *)
Lemma rescale_eq : forall x a b, a < b -> Rescale x a b = (x - a) / (b - a).
Proof.
  intros x a b H. unfold Rescale. destruct (Req_EM_T a 0) as [->|]; [|reflexivity].
  destruct (Req_EM_T b 1) as [->|]; [|reflexivity]. field.
Qed.

Lemma rescale_spec : forall a b, a < b ->
  Rescale a a b = 0 /\ Rescale b a b = 1
  /\ (forall x, Rescale x a b = (x - a) / (b - a))
  /\ (forall x, a + Rescale x a b * (b - a) = x)
  /\ (forall x, a <= x <= b <-> 0 <= Rescale x a b <= 1).
Proof.
  intros a b H. split; [rewrite rescale_eq by assumption; field; lra|].
  split; [rewrite rescale_eq by assumption; field; lra|].
  split; [intros; apply rescale_eq; assumption|].
  assert (I : forall x, a + Rescale x a b * (b - a) = x).
  { intros. rewrite rescale_eq by assumption. field. lra. }
  split; [exact I|]. intros x. specialize (I x). set (r := Rescale x a b) in *. rewrite <- I.
  split; intros [H1 H2]; split; nra.
Qed.

Lemma mask_nth : forall p i d, (i < p)%nat ->
  nth i (MakeInterpolationMask p) d = INR (i + 1) / INR (p + 1).
Proof.
  intros p i d Hi. unfold MakeInterpolationMask.
  rewrite (nth_indep _ d ((fun i => INR (i + 1) * (1 / INR (p + 1))) 0%nat))
    by (rewrite map_length, seq_length; assumption).
  rewrite (map_nth (fun i => INR (i + 1) * (1 / INR (p + 1)))). rewrite seq_nth by assumption. simpl. unfold Rdiv. ring.
Qed.

Lemma StronglySorted_map_seq : forall (f : nat -> R) n s,
  (forall i j, (i < j)%nat -> f i < f j) -> StronglySorted Rlt (map f (seq s n)).
Proof.
  intros f n. induction n as [|n IH]; intros s H; simpl; constructor.
  - apply IH; assumption.
  - apply Forall_forall. intros y Hy. apply in_map_iff in Hy. destruct Hy as [j [<- Hj]].
    apply in_seq in Hj. apply H. lia.
Qed.

Lemma mask_spec : forall p,
  length (MakeInterpolationMask p) = p
  /\ StronglySorted Rlt (MakeInterpolationMask p)
  /\ (forall m, In m (MakeInterpolationMask p) -> 0 < m < 1)
  /\ (forall i d, (i < p)%nat -> nth i (MakeInterpolationMask p) d = INR (i + 1) / INR (p + 1)).
Proof.
  intros p. split; [unfold MakeInterpolationMask; rewrite map_length, seq_length; reflexivity|].
  split; [|split; [|apply mask_nth]].
  - apply StronglySorted_map_seq. intros i j Hij. apply Rmult_lt_compat_r; [apply step_pos|].
    apply lt_INR. lia.
  - intros m Hm. unfold MakeInterpolationMask in Hm. apply in_map_iff in Hm. destruct Hm as [i [<- Hi]].
    apply in_seq in Hi. split; [apply step_gt0|apply step_lt1; lia].
Qed.

Lemma fold_push : forall (f : R -> R) mask out,
  fold_left (fun out m => push_back out (f m)) mask out = out ++ map f mask.
Proof.
  intros f mask. induction mask as [|m mask IH]; intros out; simpl.
  - rewrite app_nil_r. reflexivity.
  - rewrite IH. unfold push_back. rewrite <- app_assoc. reflexivity.
Qed.

Fixpoint points (uniq mask : list R) : list R :=
  match uniq with
  | a :: ((b :: _) as u') => map (fun m => a + m * (b - a)) mask ++ points u' mask
  | _ => []
  end.

Lemma points_cons : forall a b u mask,
  points (a :: b :: u) mask = map (fun m => a + m * (b - a)) mask ++ points (b :: u) mask.
Proof. reflexivity. Qed.
Lemma points_loop_cons : forall a b u mask out,
  points_loop (a :: b :: u) mask out
  = points_loop (b :: u) mask (fold_left (fun out m => push_back out (a + m * (b - a))) mask out).
Proof. reflexivity. Qed.

Lemma points_loop_eq : forall uniq mask out, points_loop uniq mask out = out ++ points uniq mask.
Proof.
  induction uniq as [|a u IH]; intros mask out.
  - simpl. rewrite app_nil_r. reflexivity.
  - destruct u as [|b u]; [simpl; rewrite app_nil_r; reflexivity|].
    rewrite points_loop_cons, points_cons, IH. rewrite (fold_push (fun m => a + m * (b - a))).
    rewrite <- app_assoc. reflexivity.
Qed.

Lemma points_length : forall u mask, length (points u mask) = ((length u - 1) * length mask)%nat.
Proof.
  induction u as [|a u IH]; intros mask; [reflexivity|]. destruct u as [|b u]; [reflexivity|].
  rewrite points_cons. rewrite app_length, map_length, IH. cbn [length]. nia.
Qed.

Lemma points_nth : forall u mask d i j, (i + 1 < length u)%nat -> (j < length mask)%nat ->
  nth (i * length mask + j) (points u mask) d
  = nth i u d + nth j mask d * (nth (i + 1) u d - nth i u d).
Proof.
  induction u as [|a u IH]; intros mask d i j Hi Hj; [simpl in Hi; lia|].
  destruct u as [|b u]; [simpl in Hi; lia|]. rewrite points_cons. destruct i as [|i].
  - rewrite app_nth1 by (rewrite map_length; lia). simpl.
    rewrite (nth_indep _ d ((fun m => a + m * (b - a)) d)) by (rewrite map_length; lia).
    rewrite (map_nth (fun m => a + m * (b - a))). reflexivity.
  - rewrite app_nth2 by (rewrite map_length; simpl; lia). rewrite map_length.
    replace (S i * length mask + j - length mask)%nat with (i * length mask + j)%nat by (simpl; lia).
    rewrite IH by (simpl in *; lia). replace (S i + 1)%nat with (S (i + 1)) by lia. reflexivity.
Qed.

Lemma points_ge : forall u mask a, StronglySorted Rlt (a :: u) -> (forall m, In m mask -> 0 < m < 1) ->
  forall x, In x (points (a :: u) mask) -> a < x.
Proof.
  induction u as [|b u IH]; intros mask a HS Hm x Hx; [contradiction|].
  rewrite points_cons in Hx. inversion HS as [|? ? HS' Hall]; subst. inversion Hall; subst.
  apply in_app_or in Hx. destruct Hx as [Hx|Hx].
  - apply in_map_iff in Hx. destruct Hx as [m [<- H]]. apply Hm in H. nra.
  - apply (IH mask b) in Hx; [lra|assumption|assumption].
Qed.

Lemma points_sorted : forall u mask, StronglySorted Rlt u -> StronglySorted Rlt mask ->
  (forall m, In m mask -> 0 < m < 1) -> StronglySorted Rlt (points u mask).
Proof.
  induction u as [|a u IH]; intros mask HS HM Hm; [constructor|].
  destruct u as [|b u]; [constructor|]. rewrite points_cons.
  inversion HS as [|? ? HS' Hall]; subst. inversion Hall; subst.
  apply StronglySorted_app.
  - clear - HM H1. induction HM as [|m mask HM IHm Hm]; simpl; constructor; [assumption|].
    apply Forall_forall. intros y Hy. apply in_map_iff in Hy. destruct Hy as [m' [<- Hm']].
    rewrite Forall_forall in Hm. apply Hm in Hm'. nra.
  - apply IH; assumption.
  - intros x y Hx Hy. apply in_map_iff in Hx. destruct Hx as [m [<- H]]. apply Hm in H.
    apply (points_ge u mask b) in Hy; [nra|assumption|assumption].
Qed.

Lemma StronglySorted_nth_lt : forall u d i, StronglySorted Rlt u -> (i + 1 < length u)%nat ->
  nth i u d < nth (i + 1) u d.
Proof.
  induction u as [|a u IH]; intros d i HS Hi; [simpl in Hi; lia|].
  inversion HS as [|? ? HS' Hall]; subst. destruct i as [|i].
  - simpl. destruct u as [|b u]; [simpl in Hi; lia|]. inversion Hall; subst. simpl. assumption.
  - replace (S i + 1)%nat with (S (i + 1)) by lia. cbn [nth]. apply IH; [assumption|simpl in Hi; lia].
Qed.

Lemma points_spec : forall uniq mask d, uniq <> [] ->
  StronglySorted Rlt uniq -> StronglySorted Rlt mask -> (forall m, In m mask -> 0 < m < 1) ->
  exists pts, MakeInterpolationPoints uniq mask = Some pts
    /\ length pts = ((length uniq - 1) * length mask)%nat
    /\ StronglySorted Rlt pts
    /\ (forall i j, (i + 1 < length uniq)%nat -> (j < length mask)%nat ->
          nth i uniq d < nth (i * length mask + j) pts d < nth (i + 1) uniq d
          /\ nth (i * length mask + j) pts d
             = nth i uniq d + nth j mask d * (nth (i + 1) uniq d - nth i uniq d)).
Proof.
  intros uniq mask d Hne HS HM Hm. exists (points uniq mask). split.
  - unfold MakeInterpolationPoints. rewrite points_loop_eq. destruct uniq; [contradiction|]. reflexivity.
  - split; [apply points_length|]. split; [apply points_sorted; assumption|].
    intros i j Hi Hj. rewrite points_nth by assumption. split; [|reflexivity].
    assert (nth i uniq d < nth (i + 1) uniq d) by (apply StronglySorted_nth_lt; assumption).
    assert (0 < nth j mask d < 1) by (apply Hm, nth_In; assumption). nra.
Qed.

(** ** interpolation *)
Lemma write_loop : forall n b (f : arr) c k,
  for_loop n (fun j c => upd c (b + j)%nat (f j)) c k
  = if ((b <=? k) && (k <? b + n))%nat%bool then f (k - b)%nat else c k.
Proof.
  intros n b f c k. induction n as [|n IH]; simpl for_loop.
  - destruct (Nat.leb_spec b k); destruct (Nat.ltb_spec k (b + 0)); cbn [andb]; try lia; reflexivity.
  - unfold upd at 1. destruct (Nat.eqb_spec k (b + n)) as [->|Hne].
    + destruct (Nat.leb_spec b (b + n)); [|lia]. destruct (Nat.ltb_spec (b + n) (b + S n)); [|lia].
      cbn [andb]. replace (b + n - b)%nat with n by lia. reflexivity.
    + rewrite IH. destruct (Nat.leb_spec b k); cbn [andb]; [|reflexivity].
      destruct (Nat.ltb_spec k (b + n)); destruct (Nat.ltb_spec k (b + S n)); try lia; reflexivity.
Qed.

Lemma get_coef_value : forall im p incr values coefs i j, (i < incr)%nat -> (j <= p)%nat ->
  GetCoefficients im p incr values coefs (i * (p + 1) + j)%nat
  = rsum (fun l => im j l * values (i * (p + 1) + l)%nat) (p + 1).
Proof.
  intros im p incr values coefs i j Hi Hj. unfold GetCoefficients.
  induction incr as [|n IH]; [lia|]. simpl for_loop. rewrite write_loop.
  destruct (Nat.eq_dec i n) as [->|Hne].
  - destruct (Nat.leb_spec (n * (p + 1)) (n * (p + 1) + j)); [|lia].
    destruct (Nat.ltb_spec (n * (p + 1) + j) (n * (p + 1) + (p + 1))); [|lia].
    cbn [andb]. replace (n * (p + 1) + j - n * (p + 1))%nat with j by lia. reflexivity.
  - destruct (Nat.leb_spec (n * (p + 1)) (i * (p + 1) + j)) as [H|H]; [|cbn [andb]; apply IH; lia].
    exfalso. assert (i + 1 <= n)%nat by lia.
    assert ((i + 1) * (p + 1) <= n * (p + 1))%nat by (apply Nat.mul_le_mono_r; assumption). lia.
Qed.

Lemma get_coefficients_spec : forall junk p mask im incr values coefs, (p <= MaxP)%nat ->
  (forall j k, (j <= p)%nat -> (k <= p)%nat ->
     rsum (fun i => collocation junk p mask j i * im i k) (p + 1) = if (j =? k)%nat then 1 else 0) ->
  forall i j, (i < incr)%nat -> (j <= p)%nat ->
  bernstein_form p (fun l => GetCoefficients im p incr values coefs (i * (p + 1) + l)%nat) (mask j)
  = values (i * (p + 1) + j)%nat.
Proof.
  intros junk p mask im incr values coefs Hp Hinv i j Hi Hj. unfold bernstein_form.
  rewrite (rsum_ext _ (fun l => rsum (fun k => (collocation junk p mask j l * im l k)
                                        * values (i * (p + 1) + k)%nat) (p + 1))).
  2:{ intros l Hl. rewrite get_coef_value by lia.
      assert (E : collocation junk p mask j l = bern p l (mask j)).
      { unfold collocation, evalBasis. rewrite dispatch_le by assumption.
        rewrite EvalBernsteinBasis_spec. destruct (Nat.leb_spec l p); [reflexivity|lia]. }
      rewrite E, Rmult_comm, <- rsum_scal. apply rsum_ext. intros k _. ring. }
  rewrite rsum_swap.
  rewrite (rsum_ext _ (fun k => (if (j =? k)%nat then 1 else 0) * values (i * (p + 1) + k)%nat)).
  2:{ intros k Hk. rewrite rsum_scal_r. rewrite Hinv by lia. reflexivity. }
  rewrite (rsum_single _ _ j); [|lia|].
  - rewrite Nat.eqb_refl. ring.
  - intros k _ Hk. destruct (Nat.eqb_spec j k); [congruence|ring].
Qed.

Lemma sorted_snoc : forall (P : R -> R -> Prop) u x, StronglySorted P u -> (forall y, In y u -> P y x) -> StronglySorted P (u ++ [x]).
Proof.
  intros P u x H. induction H as [|a u H IH F]; intros Hx; simpl.
  - repeat constructor.
  - constructor; [apply IH; intros; apply Hx; right; assumption|]. apply Forall_app. split; [assumption|]. constructor; [apply Hx; left; reflexivity|constructor].
Qed.
Lemma unique_loop_sep : forall v prev out, StronglySorted Rle (prev :: v) ->
  StronglySorted (fun a b => a + generic_tolerance < b) out -> (forall y, In y out -> y <= prev) ->
  StronglySorted (fun a b => a + generic_tolerance < b) (unique_loop prev v out) /\
  (forall y, In y (unique_loop prev v out) -> In y out \/ In y v) /\
  (out <> [] -> hd_error (unique_loop prev v out) = hd_error out).
Proof.
  induction v as [|x v IH]; intros prev out Sv So Hp; simpl; [auto|].
  apply StronglySorted_inv in Sv. destruct Sv as [Sv F]. inversion F as [|? ? Fx Fv]; subst.
  destruct (Rlt_dec (prev + generic_tolerance) x) as [G|G].
  - destruct (IH x (push_back out x)) as [H1 [H2 H3]]; auto.
    + apply sorted_snoc; [assumption|]. intros y Hy. pose proof (Hp y Hy). lra.
    + intros y Hy. unfold push_back in Hy. apply in_app_or in Hy. destruct Hy as [Hy|[<-|[]]]; [pose proof (Hp y Hy); lra|lra].
    + split; [assumption|]. split.
      * intros y Hy. destruct (H2 y Hy) as [K|K]; [|auto]. unfold push_back in K. apply in_app_or in K. destruct K as [K|[<-|[]]]; auto.
      * intros Ne. unfold push_back in *. rewrite H3; [|intros Z; apply app_eq_nil in Z; tauto]. destruct out; [congruence|reflexivity].
  - destruct (IH x out) as [H1 [H2 H3]]; auto.
    + intros y Hy. pose proof (Hp y Hy). lra.
    + split; [assumption|]. split; [|assumption]. intros y Hy. destruct (H2 y Hy); auto.
Qed.
Lemma unique_knots_separated : forall v u, StronglySorted Rle v ->
  ExtractUniqueKnotVector v = Some u ->
  StronglySorted (fun a b => a + generic_tolerance < b) u /\ incl u v /\ hd_error u = hd_error v.
Proof.
  intros [|x v] u Sv E; [discriminate|]. injection E as <-.
  destruct (unique_loop_sep v x [x] Sv) as [H1 [H2 H3]].
  - repeat constructor.
  - intros y [<-|[]]. lra.
  - split; [exact H1|]. split; [|exact (H3 ltac:(discriminate))].
    intros y Hy. destruct (H2 y Hy) as [[<-|[]]|K]; [left; reflexivity|right; assumption].
Qed.
