(** Facts about the text model. *)
From Coq Require Import Bool Ascii String ZArith Reals List Arith Lia Lra.
From Verif Require Import ModelBase ModelText.
Import ListNotations.
Local Open Scope bool_scope.
Local Open Scope nat_scope.

(** ** span *)
Lemma span_all : forall f a b, Forall (fun c => f c = true) a -> span f (a ++ b) = (a ++ fst (span f b), snd (span f b)).
Proof.
  intros f a b H. induction H as [|c a Hc H IH]; [cbn; destruct (span f b); reflexivity|]. cbn [app span]. rewrite Hc, IH. reflexivity.
Qed.
Lemma span_stop : forall f a c r, Forall (fun c => f c = true) a -> f c = false -> span f (a ++ c :: r) = (a, c :: r).
Proof. intros f a c r H Hc. rewrite span_all by assumption. cbn [span]. rewrite Hc. cbn [fst snd]. rewrite app_nil_r. reflexivity. Qed.
Lemma span_end : forall f a, Forall (fun c => f c = true) a -> span f a = (a, []).
Proof. intros f a H. rewrite <- (app_nil_r a) at 1. rewrite span_all by assumption. cbn. rewrite app_nil_r. reflexivity. Qed.
Lemma span_none : forall f c r, f c = false -> span f (c :: r) = ([], c :: r).
Proof. intros f c r H. cbn [span]. rewrite H. reflexivity. Qed.

(** ** character classes *)
Definition spaces (l : text) : Prop := Forall (fun c => is_space c = true) l.
Definition word_ok (w : text) : Prop := w <> [] /\ Forall (fun c => is_space c = false) w.
Definition digits (l : text) : Prop := Forall (fun c => is_digit c = true) l.
Definition no_newline (l : text) : Prop := Forall (fun c => Ascii.eqb c newline = false) l.

Lemma digit_code : forall d, (0 <= d < 10)%Z -> code (digit d) = 48 + Z.to_nat d.
Proof. intros d H. unfold code, digit. apply nat_ascii_embedding. lia. Qed.
Lemma digit_is_digit : forall d, (0 <= d < 10)%Z -> is_digit (digit d) = true.
Proof. intros d H. unfold is_digit. rewrite digit_code by assumption. apply andb_true_iff. split; apply Nat.leb_le; lia. Qed.
Lemma digit_value_digit : forall d, (0 <= d < 10)%Z -> digit_value (digit d) = d.
Proof. intros d H. unfold digit_value. rewrite digit_code by assumption. lia. Qed.
Lemma is_digit_code : forall c, is_digit c = true -> 48 <= code c <= 57.
Proof. intros c H. apply andb_true_iff in H. destruct H as [A B]. apply Nat.leb_le in A, B. lia. Qed.
Lemma digit_not_space : forall c, is_digit c = true -> is_space c = false.
Proof.
  intros c H. apply is_digit_code in H. unfold is_space. apply orb_false_iff. split; [apply Nat.eqb_neq; lia|].
  apply andb_false_iff. right. apply Nat.leb_gt. lia.
Qed.
Lemma is_digit_neq : forall c x, is_digit c = true -> is_digit x = false -> Ascii.eqb c x = false.
Proof. intros c x H Hx. apply Ascii.eqb_neq. intros ->. congruence. Qed.
Lemma not_space_no_newline : forall l, Forall (fun c => is_space c = false) l -> no_newline l.
Proof. intros l H. eapply Forall_impl; [|exact H]. cbn. intros c Hc. apply Ascii.eqb_neq. intros ->. discriminate. Qed.

(** ** values *)
Lemma value_from : forall l v, fold_left (fun v c => 10 * v + digit_value c)%Z l v = (v * 10 ^ Z.of_nat (length l) + value l)%Z.
Proof.
  unfold value. induction l as [|c l IH]; intros v; [cbn; lia|]. cbn [fold_left]. rewrite IH, (IH (10 * 0 + digit_value c)%Z).
  cbn [length]. rewrite Nat2Z.inj_succ, Z.pow_succ_r by lia. ring.
Qed.
Lemma value_app : forall a b, value (a ++ b) = (value a * 10 ^ Z.of_nat (length b) + value b)%Z.
Proof. intros. unfold value at 1. rewrite fold_left_app. apply value_from. Qed.
Lemma value_single : forall c, value [c] = digit_value c.
Proof. intros. unfold value. cbn [fold_left]. lia. Qed.

Lemma dec_loop_ok : forall fuel z acc, (0 <= z < 2 ^ Z.of_nat fuel)%Z -> fuel <> 0 ->
  exists ds, dec_loop fuel z acc = ds ++ acc /\ digits ds /\ ds <> [] /\ value ds = z.
Proof.
  induction fuel as [|f IH]; intros z acc Hz Hf; [congruence|]. cbn [dec_loop].
  pose proof (Z.mod_pos_bound z 10 ltac:(lia)) as Hm. pose proof (Z.div_mod z 10 ltac:(lia)) as Hd.
  destruct (Z.eqb_spec (z / 10) 0) as [E|E].
  - exists [digit (z mod 10)]. split; [reflexivity|]. split; [constructor; [apply digit_is_digit; lia|constructor]|].
    split; [discriminate|]. rewrite value_single, digit_value_digit by lia. lia.
  - rewrite Nat2Z.inj_succ, Z.pow_succ_r in Hz by lia.
    assert (Hf' : f <> 0). { intros ->. cbn in Hz. apply E. apply Z.div_small. lia. }
    destruct (IH (z / 10)%Z (digit (z mod 10) :: acc)) as [ds [Eq [D [N V]]]]; [|assumption|].
    + split; [apply Z.div_pos; lia|]. apply Z.div_lt_upper_bound; lia.
    + exists (ds ++ [digit (z mod 10)]). rewrite Eq, <- app_assoc. split; [reflexivity|].
      split; [apply Forall_app; split; [assumption|constructor; [apply digit_is_digit; lia|constructor]]|].
      split; [destruct ds; discriminate|]. rewrite value_app, value_single, digit_value_digit, V by lia. cbn [length]. cbn. lia.
Qed.
Lemma dec_ok : forall z, (0 <= z)%Z -> digits (dec z) /\ dec z <> [] /\ value (dec z) = z.
Proof.
  intros z Hz. unfold dec. destruct (dec_loop_ok (S (Z.to_nat (Z.log2 z))) z []) as [ds [E H]]; [|discriminate|rewrite E, app_nil_r; exact H].
  split; [assumption|]. rewrite Nat2Z.inj_succ, Z2Nat.id by apply Z.log2_nonneg.
  destruct (Z.eq_dec z 0) as [->|]; [cbn; lia|]. apply Z.log2_spec. lia.
Qed.
Lemma pad_ok : forall n z acc, (0 <= z)%Z ->
  exists ds, pad n z acc = ds ++ acc /\ digits ds /\ length ds = n /\ value ds = (z mod 10 ^ Z.of_nat n)%Z.
Proof.
  induction n as [|n IH]; intros z acc Hz.
  - exists []. cbn. split; [reflexivity|]. split; [constructor|]. split; [reflexivity|]. rewrite Z.mod_1_r. reflexivity.
  - cbn [pad]. pose proof (Z.mod_pos_bound z 10 ltac:(lia)) as Hm.
    destruct (IH (z / 10)%Z (digit (z mod 10) :: acc)) as [ds [E [D [L V]]]]; [apply Z.div_pos; lia|].
    exists (ds ++ [digit (z mod 10)]). rewrite E, <- app_assoc. split; [reflexivity|].
    split; [apply Forall_app; split; [assumption|constructor; [apply digit_is_digit; lia|constructor]]|].
    split; [rewrite app_length, L; cbn; lia|]. rewrite value_app, value_single, digit_value_digit, V by lia. cbn [length].
    change (10 ^ Z.of_nat 1)%Z with 10%Z. rewrite Nat2Z.inj_succ, Z.pow_succ_r by lia.
    rewrite Z.rem_mul_r by (try apply Z.pow_pos_nonneg; lia). ring.
Qed.

(** ** printing and parsing integers *)
Lemma digits_words : forall l, digits l -> Forall (fun c => is_space c = false) l.
Proof. intros l H. eapply Forall_impl; [|exact H]. apply digit_not_space. Qed.
Lemma scan_sign_digits : forall l t, digits l -> l <> [] -> scan_sign (l ++ t) = (1%Z, l ++ t).
Proof.
  intros [|c l] t H N; [congruence|]. inversion_clear H as [|? ? Hc _]. cbn [app scan_sign].
  rewrite (is_digit_neq c "-"%char), (is_digit_neq c "+"%char) by (assumption || reflexivity). reflexivity.
Qed.
Lemma print_int_word : forall z, word_ok (print_int z).
Proof.
  intros z. unfold print_int. destruct (Z.ltb_spec z 0).
  - destruct (dec_ok (- z) ltac:(lia)) as [D [N _]]. split; [discriminate|]. constructor; [reflexivity|]. apply digits_words. assumption.
  - destruct (dec_ok z ltac:(lia)) as [D [N _]]. split; [assumption|]. apply digits_words. assumption.
Qed.
Lemma stoi_print : forall z, (- 2 ^ 31 <= z <= 2 ^ 31 - 1)%Z -> stoi (print_int z) = Some z.
Proof.
  intros z Hz. unfold stoi, print_int. destruct (Z.ltb_spec z 0) as [Hn|Hn].
  - destruct (dec_ok (- z) ltac:(lia)) as [D [N V]]. change (lit "-" ++ dec (- z)) with ("-"%char :: dec (- z)).
    rewrite span_none by reflexivity. cbn [snd scan_sign]. change (Ascii.eqb "-" "-") with true. cbn [scan_sign].
    rewrite span_end by assumption. destruct (dec (- z)) eqn:E; [congruence|]. rewrite <- E in *. rewrite V.
    replace (-1 * - z)%Z with z by lia. replace (- 2 ^ 31 <=? z)%Z with true by (symmetry; apply Z.leb_le; lia).
    replace (z <=? 2 ^ 31 - 1)%Z with true by (symmetry; apply Z.leb_le; lia). reflexivity.
  - destruct (dec_ok z ltac:(lia)) as [D [N V]].
    assert (S0 : snd (span is_space (dec z)) = dec z).
    { destruct (dec z) as [|c l] eqn:E; [reflexivity|]. rewrite span_none; [reflexivity|]. inversion_clear D. apply digit_not_space. assumption. }
    rewrite S0. rewrite <- (app_nil_r (dec z)) at 1. rewrite scan_sign_digits by assumption. rewrite app_nil_r, span_end by assumption.
    destruct (dec z) eqn:E; [congruence|]. rewrite <- E in *. rewrite V.
    replace (1 * z)%Z with z by lia. replace (- 2 ^ 31 <=? z)%Z with true by (symmetry; apply Z.leb_le; lia).
    replace (z <=? 2 ^ 31 - 1)%Z with true by (symmetry; apply Z.leb_le; lia). reflexivity.
Qed.

(** ** printing and parsing doubles with 15 decimals *)
Local Open Scope R_scope.
Definition rounded15 (v : R) : Z := Int_part (Rabs v * IZR scale15 + / 2).
Lemma rounded15_nonneg : forall v, (0 <= rounded15 v)%Z.
Proof.
  intros v. unfold rounded15. set (x := Rabs v * IZR scale15 + / 2). destruct (base_Int_part x) as [_ H].
  assert (0 <= x). { unfold x. pose proof (Rabs_pos v). assert (0 < IZR scale15) by (apply IZR_lt; reflexivity). nra. }
  assert (-1 < IZR (Int_part x)) by lra. apply lt_IZR in H1. lia.
Qed.
Lemma fixed15_shape : forall v, exists a b, fixed15 v = (if Rlt_dec v 0 then lit "-" else []) ++ a ++ lit "." ++ b
  /\ digits a /\ a <> [] /\ digits b /\ length b = 15%nat /\ value (a ++ b) = rounded15 v.
Proof.
  intros v. unfold fixed15. fold (rounded15 v). pose proof (rounded15_nonneg v) as Hn. set (n := rounded15 v) in *.
  destruct (dec_ok (n / scale15)) as [D [N V]]; [apply Z.div_pos; [assumption|reflexivity]|].
  destruct (pad_ok 15 (n mod scale15)%Z []) as [ds [E [D' [L V']]]]; [apply Z.mod_pos_bound; reflexivity|].
  exists (dec (n / scale15)), ds. rewrite E, app_nil_r. split; [reflexivity|]. repeat split; auto.
  rewrite value_app, V, V', L. change (10 ^ Z.of_nat 15)%Z with scale15. rewrite Zmod_mod. rewrite (Z.div_mod n scale15) at 3 by discriminate. ring.
Qed.
Lemma lit_dot : forall x, lit "." ++ x = "."%char :: x. Proof. reflexivity. Qed.
Lemma fixed15_word : forall v, word_ok (fixed15 v).
Proof.
  intros v. destruct (fixed15_shape v) as [a [b [E [Da [Na [Db _]]]]]]. rewrite E. split.
  - destruct Rlt_dec; [discriminate|]. destruct a; [congruence|discriminate].
  - apply Forall_app. split; [destruct Rlt_dec; repeat constructor|]. apply Forall_app. split; [apply digits_words; assumption|].
    rewrite lit_dot. constructor; [reflexivity|]. apply digits_words. assumption.
Qed.
Lemma scan_fixed : forall v, scan_number (fixed15 v) = ((if Rlt_dec v 0 then - rounded15 v else rounded15 v)%Z, (- 15)%Z).
Proof.
  intros v. destruct (fixed15_shape v) as [a [b [E [Da [Na [Db [Lb V]]]]]]]. rewrite E. unfold scan_number.
  assert (S0 : scan_sign (snd (span is_space ((if Rlt_dec v 0 then lit "-" else []) ++ a ++ lit "." ++ b)))
           = ((if Rlt_dec v 0 then -1 else 1)%Z, a ++ lit "." ++ b)).
  { destruct (Rlt_dec v 0); [reflexivity|]. cbn [app]. destruct a as [|c a]; [congruence|].
    cbn [app]. rewrite span_none by (inversion_clear Da; apply digit_not_space; assumption). cbn [snd].
    change (c :: a ++ lit "." ++ b) with ((c :: a) ++ lit "." ++ b). apply scan_sign_digits; [assumption|discriminate]. }
  rewrite S0. rewrite lit_dot, span_stop by (assumption || reflexivity). change (Ascii.eqb "." ".") with true. cbv iota.
  rewrite span_end by assumption. destruct (a ++ b) as [|c l] eqn:Eab; [destruct a; [congruence|discriminate]|].
  rewrite <- Eab in *. rewrite V, Lb. f_equal. destruct Rlt_dec; lia.
Qed.

(** the error of writing and reading a number *)
Lemma atof_fixed : forall v, Rabs (atof (fixed15 v) - v) <= / 2 * / IZR scale15.
Proof.
  intros v. unfold atof. rewrite scan_fixed. change (powerRZ 10 (-15)) with (/ (10 ^ 15)).
  assert (S15 : 10 ^ 15 = IZR scale15) by (rewrite (pow_IZR 10 15); reflexivity).
  rewrite S15. assert (Hs : 0 < IZR scale15) by (apply IZR_lt; reflexivity). set (s := IZR scale15) in *.
  destruct (base_Int_part (Rabs v * s + / 2)) as [U L]. fold (rounded15 v) in U, L. unfold s in U at 2, L at 2.
  fold (rounded15 v) in U, L. change (Int_part (Rabs v * s + / 2)) with (rounded15 v) in *.
  assert (B : Rabs (IZR (rounded15 v) * / s - Rabs v) <= / 2 * / s).
  { replace (IZR (rounded15 v) * / s - Rabs v) with ((IZR (rounded15 v) - Rabs v * s) * / s) by (field; lra).
    rewrite Rabs_mult, (Rabs_right (/ s)) by (left; apply Rinv_0_lt_compat; assumption).
    apply Rmult_le_compat_r; [left; apply Rinv_0_lt_compat; assumption|]. apply Rabs_le. unfold s in *. lra. }
  destruct (Rlt_dec v 0).
  - rewrite opp_IZR. replace (- IZR (rounded15 v) * / s - v) with (- (IZR (rounded15 v) * / s - Rabs v)) by (rewrite (Rabs_left v) by assumption; ring).
    rewrite Rabs_Ropp. exact B.
  - rewrite (Rabs_right v) in B by lra. exact B.
Qed.
(** numbers with at most 15 decimals are reproduced exactly *)
Lemma atof_exact : forall n : Z, atof (fixed15 (IZR n * / IZR scale15)) = IZR n * / IZR scale15.
Proof.
  intros n. assert (Hs : 0 < IZR scale15) by (apply IZR_lt; reflexivity). set (v := IZR n * / IZR scale15).
  assert (Hv : Rabs v * IZR scale15 = IZR (Z.abs n)).
  { unfold v. rewrite Rabs_mult, (Rabs_right (/ IZR scale15)) by (left; apply Rinv_0_lt_compat; assumption).
    rewrite abs_IZR. field. lra. }
  assert (Rn : rounded15 v = Z.abs n).
  { unfold rounded15. rewrite Hv. destruct (base_Int_part (IZR (Z.abs n) + / 2)) as [U L].
    set (k := Int_part (IZR (Z.abs n) + / 2)) in *. assert (IZR k < IZR (Z.abs n) + 1) by lra. assert (IZR (Z.abs n) - 1 < IZR k) by lra.
    rewrite <- plus_IZR in H. rewrite <- minus_IZR in H0. apply lt_IZR in H, H0. lia. }
  unfold atof. rewrite scan_fixed, Rn. change (powerRZ 10 (-15)) with (/ (10 ^ 15)).
  assert (S15 : 10 ^ 15 = IZR scale15) by (rewrite (pow_IZR 10 15); reflexivity). rewrite S15.
  destruct (Rlt_dec v 0) as [H|H]; unfold v in H |- *; f_equal.
  - assert (IZR n < 0). { assert (0 < / IZR scale15) by (apply Rinv_0_lt_compat; assumption). nra. } apply lt_IZR in H0. f_equal. lia.
  - assert (0 <= IZR n). { assert (0 < / IZR scale15) by (apply Rinv_0_lt_compat; assumption). nra. } apply le_IZR in H0. f_equal. lia.
Qed.
Lemma atof_int : forall n : Z, atof (fixed15 (IZR n)) = IZR n.
Proof.
  intros n. assert (Hs : 0 < IZR scale15) by (apply IZR_lt; reflexivity).
  replace (IZR n) with (IZR (n * scale15) * / IZR scale15) by (rewrite mult_IZR; field; lra). apply atof_exact.
Qed.

(** ** streams *)
Local Open Scope nat_scope.
Lemma extract_word : forall ws w c r old, spaces ws -> word_ok w -> is_space c = true ->
  extract (Stream (ws ++ w ++ c :: r) false false) old = (Stream (c :: r) false false, w).
Proof.
  intros ws w c r old Hws [Nw Hw] Hc. unfold extract, good. cbn [eofbit failbit negb andb rest].
  rewrite span_all by assumption. destruct w as [|x w]; [congruence|]. cbn [app].
  inversion_clear Hw as [|? ? Hx Hw']. rewrite span_none by assumption. cbn [fst snd].
  change (x :: w ++ c :: r) with ((x :: w) ++ c :: r).
  rewrite span_stop; [reflexivity| |rewrite Hc; reflexivity].
  constructor; [rewrite Hx; reflexivity|]. eapply Forall_impl; [|exact Hw']. cbn. intros a ->. reflexivity.
Qed.
Lemma extract_last : forall ws w old, spaces ws -> word_ok w ->
  extract (Stream (ws ++ w) false false) old = (Stream [] true false, w).
Proof.
  intros ws w old Hws [Nw Hw]. unfold extract, good. cbn [eofbit failbit negb andb rest].
  rewrite span_all by assumption. destruct w as [|x w]; [congruence|].
  inversion_clear Hw as [|? ? Hx Hw']. rewrite span_none by assumption. cbn [fst snd].
  rewrite span_end; [reflexivity|]. constructor; [rewrite Hx; reflexivity|]. eapply Forall_impl; [|exact Hw']. cbn. intros a ->. reflexivity.
Qed.
Lemma extract_blank : forall ws old, spaces ws -> extract (Stream ws false false) old = (Stream [] true true, old).
Proof. intros ws old H. unfold extract, good. cbn [eofbit failbit negb andb rest]. rewrite span_end by assumption. reflexivity. Qed.
Lemma getline_delim_ok : forall d l r old, Forall (fun c => Ascii.eqb c d = false) l ->
  getline_delim d (Stream (l ++ d :: r) false false) old = (Stream r false false, l).
Proof.
  intros d l r old H. unfold getline_delim, good. cbn [eofbit failbit negb andb rest].
  rewrite span_stop; [reflexivity| |rewrite Ascii.eqb_refl; reflexivity].
  eapply Forall_impl; [|exact H]. cbn. intros a ->. reflexivity.
Qed.
Lemma getline_ok : forall l r old, no_newline l -> getline (Stream (l ++ newline :: r) false false) old = (Stream r false false, l).
Proof. intros. apply getline_delim_ok. assumption. Qed.
