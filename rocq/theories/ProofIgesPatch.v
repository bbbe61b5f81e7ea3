(** Reading the parameter section of IGES files. *)
From Coq Require Import Bool Ascii String ZArith Reals List Arith Lia Lra.
From Verif Require Import ModelBase ModelText ModelKnots ModelPatch ModelDat ModelIges SpecPatch SpecDat SpecIges ProofText ProofPatchInit ProofDat ProofIges.
Import ListNotations.
Local Open Scope bool_scope.
Local Open Scope nat_scope.

(** ** the lines of a section *)
Definition comma (d : text) : text := d ++ lit ",".
Lemma terminated_cons : forall d e r, terminated (d :: e :: r) = comma d :: terminated (e :: r).
Proof. reflexivity. Qed.
Lemma terminated_snoc : forall a z, terminated (a ++ [z]) = map comma a ++ [z ++ lit ";"].
Proof.
  induction a as [|d a IH]; intros z; [reflexivity|]. cbn [app map].
  destruct (a ++ [z]) as [|e r] eqn:E; [destruct a; discriminate|]. rewrite terminated_cons, <- E, IH. reflexivity.
Qed.
Lemma split_terminated : forall g rest ds, g ++ rest = terminated ds ->
  exists d1 d2, ds = d1 ++ d2 /\ rest = terminated d2 /\ (d2 <> [] -> g = map comma d1) /\ (d2 = [] -> g = terminated d1).
Proof.
  induction g as [|x g IH]; intros rest ds E.
  - exists [], ds. cbn in E. split; [reflexivity|]. split; [assumption|]. split; reflexivity.
  - destruct ds as [|d [|e r]]; [discriminate| |].
    + cbn [app terminated] in E. apply (f_equal (fun l => (hd [] l, tl l))) in E. cbn [hd tl] in E.
      apply (f_equal fst) in E as E1. apply (f_equal snd) in E as E2. cbn [fst snd] in E1, E2. subst x.
      destruct g; [|discriminate]. cbn in E2. subst rest. exists [d], []. split; [reflexivity|]. split; [reflexivity|]. split; [congruence|reflexivity].
    + rewrite terminated_cons in E. cbn [app] in E. apply (f_equal (fun l => (hd [] l, tl l))) in E. cbn [hd tl] in E.
      apply (f_equal fst) in E as E1. apply (f_equal snd) in E as E2. cbn [fst snd] in E1, E2. subst x.
      destruct (IH rest (e :: r) E2) as [d1 [d2 [H1 [H2 [H3 H4]]]]]. exists (d :: d1), d2. split; [cbn; congruence|]. split; [assumption|]. split.
      * intros H. cbn [map]. rewrite H3 by assumption. reflexivity.
      * intros H. rewrite H4 by assumption. subst d2. rewrite app_nil_r in H1. subst d1. reflexivity.
Qed.

Lemma plain_no_comma : forall d, plain_item d -> no_comma d.
Proof. intros d H. apply Forall_forall. intros c Hc. apply Ascii.eqb_neq. apply H. assumption. Qed.
Lemma filter_id : forall (f : ascii -> bool) l, (forall c, In c l -> f c = true) -> filter f l = l.
Proof. intros f l H. induction l as [|c l IH]; [reflexivity|]. cbn. rewrite (H c (or_introl eq_refl)), IH; [reflexivity|]. intros; apply H; right; assumption. Qed.
Lemma filter_blanks : forall n, filter not_blank (repeat " "%char n) = [].
Proof. induction n; [reflexivity|]. cbn. assumption. Qed.

(** the text before column 64 *)
Lemma raw_line : forall line tail, length line <= 64 -> (forall c, In c line -> c <> " "%char) ->
  filter not_blank (firstn 64 (left_w 64 line ++ tail)) = line.
Proof.
  intros line tail HL Hb. rewrite firstn_app. rewrite (left_w_length 64 line HL). rewrite Nat.sub_diag, firstn_O, app_nil_r.
  rewrite firstn_all2 by (rewrite left_w_length by assumption; lia). unfold left_w. rewrite filter_app, filter_blanks, app_nil_r.
  apply filter_id. intros c Hc. unfold not_blank. apply negb_true_iff, Ascii.eqb_neq. auto.
Qed.

Lemma group_chars : forall gs ds grp c, concat gs = terminated ds -> In grp gs -> In c (concat grp) -> Forall plain_item ds ->
  c <> " "%char /\ c <> newline.
Proof.
  intros gs ds grp c E Hg Hc Hp. apply in_concat in Hc. destruct Hc as [x [Hx Hc]].
  assert (Ht : In x (terminated ds)) by (rewrite <- E; apply in_concat; eauto).
  destruct (in_terminated ds x Ht) as [d [Hd Hxd]]. rewrite Forall_forall in Hp. specialize (Hp d Hd).
  destruct Hxd as [-> | ->]; apply in_app_or in Hc; destruct Hc as [Hc|[<-|[]]]; try (destruct (Hp c Hc) as [_ [A B]]; split; assumption);
    split; discriminate.
Qed.

(** one group of items *)
Lemma read_group : forall gs ds d1 d2 g old data, Forall plain_item ds -> ds = d1 ++ d2 -> g ++ concat gs = terminated ds ->
  (d2 <> [] -> g = map comma d1) -> (d2 = [] -> g = terminated d1) ->
  exists old', read_items (S (length (concat g))) (open_stream (concat g)) old data = Some (old', data ++ map atof d1).
Proof.
  intros gs ds d1 d2 g old data Hp E _ H1 H2.
  assert (P1 : Forall no_comma d1).
  { apply Forall_forall. intros d Hd. apply plain_no_comma. rewrite Forall_forall in Hp. apply Hp. rewrite E. apply in_or_app. left. assumption. }
  destruct d2 as [|x d2].
  - rewrite (H2 eq_refl). destruct (list_eq_dec (list_eq_dec Ascii.ascii_dec) d1 []) as [->|Ne].
    + cbn. eexists. rewrite app_nil_r. reflexivity.
    + destruct (exists_last Ne) as [a [z Ez]]. subst d1. rewrite terminated_snoc, concat_app. cbn [concat]. rewrite app_nil_r.
      apply Forall_app in P1. destruct P1 as [Pa Pz]. inversion_clear Pz. apply read_last_line; assumption.
  - rewrite H1 by discriminate. apply read_line_items. assumption.
Qed.

Lemma param_row_newline : forall idx first lines r, (forall l, In l lines -> no_newline l) -> In r (parameter_rows idx first lines) -> no_newline r.
Proof.
  intros idx first lines. revert first. induction lines as [|l lines IH]; intros first r H Hr; [destruct Hr|]. destruct Hr as [<-|Hr].
  - apply Forall_app. split; [apply no_newline_left, H; left; reflexivity|]. nonl.
  - apply (IH (S first)); auto. intros; apply H; right; assumption.
Qed.
Lemma param_row_char : forall idx first lines r, (forall l, In l lines -> length l <= 64) -> (Z.of_nat idx < 10 ^ 8)%Z ->
  In r (parameter_rows idx first lines) -> char72 r = Some "P"%char.
Proof.
  intros idx first lines. revert first. induction lines as [|l lines IH]; intros first r H Hi Hr; [destruct Hr|]. destruct Hr as [<-|Hr].
  - rewrite app_assoc. apply char72_ok. rewrite app_length, left_w_length by (apply H; left; reflexivity).
    rewrite right_w_length by (apply print_nat_length; [exact Hi|lia]). reflexivity.
  - apply (IH (S first)); auto. intros; apply H; right; assumption.
Qed.

Lemma read_lines_groups : forall gs ds idx first rN rest old data row0 rows, Forall plain_item ds -> concat gs = terminated ds ->
  (forall grp, In grp gs -> length (concat grp) <= 64) -> no_newline rN ->
  parameter_rows idx first (map (@concat ascii) gs) ++ rN :: rest = row0 :: rows ->
  exists w, read_lines (length gs) (Stream (as_text rows) false false) row0 old data
    = Some (Stream (as_text rest) false false, rN, data ++ map atof ds) /\ w = 0.
Proof.
  induction gs as [|g gs IH]; intros ds idx first rN rest old data row0 rows Hp E Hl Hn Er.
  - cbn in E. destruct ds as [|d [|e r]]; try discriminate. cbn in Er. injection Er as <- <-. exists 0. cbn. rewrite app_nil_r. auto.
  - cbn [concat] in E. destruct (split_terminated g (concat gs) ds E) as [d1 [d2 [H1 [H2 [H3 H4]]]]].
    cbn [map parameter_rows app] in Er. apply (f_equal (fun l => (hd [] l, tl l))) in Er. cbn [hd tl] in Er.
    apply (f_equal fst) in Er as E1. apply (f_equal snd) in Er as E2. cbn [fst snd] in E1, E2. subst row0. clear Er.
    cbn [length read_lines].
    rewrite raw_line; [|apply Hl; left; reflexivity|intros c Hc; apply (group_chars (g :: gs) ds g c); auto; left; reflexivity].
    destruct (read_group gs ds d1 d2 g old data Hp H1 E H3 H4) as [old' Eg]. rewrite Eg. cbn [bind].
    assert (Hp2 : Forall plain_item d2) by (rewrite H1 in Hp; apply Forall_app in Hp; tauto).
    destruct rows as [|r0 rows]; [destruct (parameter_rows idx (S first) (map (@concat ascii) gs)); discriminate|].
    assert (Nr : no_newline r0).
    { destruct (parameter_rows idx (S first) (map (@concat ascii) gs)) as [|q qs] eqn:Eq; cbn [app] in E2; injection E2 as -> _; [assumption|].
      apply (param_row_newline idx (S first) (map (@concat ascii) gs)); [|rewrite Eq; left; reflexivity].
      intros l Hl'. apply in_map_iff in Hl'. destruct Hl' as [grp [<- Hg]]. apply Forall_forall. intros c Hc. apply Ascii.eqb_neq.
      apply (group_chars gs d2 grp c); auto. }
    rewrite rows_getline by assumption.
    destruct (IH d2 idx (S first) rN rest old' (data ++ map atof d1) r0 rows Hp2 H2) as [w [Ew Hw]]; auto.
    { intros; apply Hl; right; assumption. }
    rewrite Ew. exists 0. split; [|reflexivity]. rewrite H1, map_app, app_assoc. reflexivity.
Qed.

Lemma read_lines_ok : forall ds idx first rN rest old row0 rows, Forall plain_item ds -> (forall d, In d ds -> length d <= 63) -> no_newline rN ->
  parameter_rows idx first (makeSection ds 64) ++ rN :: rest = row0 :: rows ->
  read_lines (length (makeSection ds 64)) (Stream (as_text rows) false false) row0 old [] = Some (Stream (as_text rest) false false, rN, map atof ds).
Proof.
  intros ds idx first rN rest old row0 rows Hp Hl Hn E. destruct (makeSection_made ds 64) as [gs [E1 [E2 E3]]].
  rewrite E2 in *. rewrite map_length.
  destruct (read_lines_groups gs ds idx first rN rest old [] row0 rows Hp E1) as [w [Ew _]]; auto.
  intros grp Hg. apply (E3 64); [lia| |apply in_map; assumption]. intros d Hd. specialize (Hl d Hd). lia.
Qed.

(** ** numbers *)
Lemma atof_print_int : forall z, (0 <= z)%Z -> atof (print_int z) = IZR z.
Proof.
  intros z Hz. unfold atof, print_int. replace (z <? 0)%Z with false by (symmetry; apply Z.ltb_ge; lia).
  destruct (dec_ok z Hz) as [D [N V]]. assert (E : scan_number (dec z) = (z, 0%Z)).
  { unfold scan_number.
    assert (S0 : snd (span is_space (dec z)) = dec z).
    { destruct (dec z) as [|c l] eqn:E; [reflexivity|]. rewrite span_none; [reflexivity|]. inversion_clear D. apply digit_not_space. assumption. }
    rewrite S0. rewrite <- (app_nil_r (dec z)) at 1. rewrite scan_sign_digits by assumption. rewrite app_nil_r, span_end by assumption.
    rewrite app_nil_r. destruct (dec z) eqn:E; [congruence|]. rewrite <- E in *. rewrite V. cbn [scan_exponent length]. f_equal; lia. }
  rewrite E. cbn [powerRZ]. ring.
Qed.
Lemma to_int_IZR : forall z, (0 <= z)%Z -> to_int (IZR z) = z.
Proof.
  intros z Hz. unfold to_int. destruct (Rlt_dec (IZR z) 0) as [H|_]; [apply lt_IZR in H; lia|].
  destruct (base_Int_part (IZR z)) as [U L]. set (k := Int_part (IZR z)) in *. apply le_IZR in U.
  assert (IZR z - 1 < IZR k)%R by lra. rewrite <- minus_IZR in H. apply lt_IZR in H. lia.
Qed.

(** ** knots *)
Lemma iges_knots_strict : forall p, iges_knots false p = None.
Proof.
  intros p. unfold iges_knots. replace (p + 1) with (S p) by lia. cbn [for_opt].
  destruct (for_opt p (fun i v => write_slack false v (p + i) 1%R) (repeat 0%R (2 * p))) as [v|] eqn:E; [|reflexivity]. cbn [bind].
  assert (L : length v = 2 * p).
  { assert (X : forall k u w, for_opt k (fun i v => write_slack false v (p + i) 1%R) u = Some w -> length w = length u).
    { induction k as [|k IH]; intros u w H; [injection H as <-; reflexivity|]. cbn [for_opt] in H. apply bind_some in H. destruct H as [y [Hy H]].
      unfold write_slack in H. cbn [andb] in H. destruct (le_lt_dec (length y) (p + k)) as [Hle|Hlt]; [rewrite set_none in H by assumption; discriminate|].
      destruct (set_spec y (p + k) 1%R Hlt) as [y' [Ey [Ly _]]]. rewrite Ey in H. injection H as <-. rewrite Ly. eauto. }
    rewrite (X _ _ _ E). apply repeat_length. }
  unfold write_slack. cbn [andb]. apply set_none. lia.
Qed.
Lemma iges_knots_slack : forall p, iges_knots true p = Some (repeat 0%R p ++ repeat 1%R p).
Proof.
  intros p. unfold iges_knots.
  destruct (for_opt_inv (fun i (v : list R) => i <= p + 1 -> v = repeat 0%R p ++ repeat 1%R (min i p) ++ repeat 0%R (p - i)) (p + 1)
    (fun i v => write_slack true v (p + i) 1%R) (repeat 0%R (2 * p))) as [v [E H]].
  - intros _. cbn [Nat.min repeat app]. rewrite <- repeat_app. f_equal. lia.
  - intros i s Hi H. rewrite H by lia. clear H. unfold write_slack. rewrite !app_length, !repeat_length. cbn [andb].
    destruct (Nat.eqb_spec (p + i) (p + (Nat.min i p + (p - i)))) as [Q|Q].
    + eexists. split; [reflexivity|]. intros _. replace (Nat.min i p) with p by lia. replace (Nat.min (S i) p) with p by lia.
      replace (p - i) with 0 by lia. replace (p - S i) with 0 by lia. reflexivity.
    + assert (Hip : i < p) by lia.
      assert (S0 : forall (a b : list R) x y, set (a ++ y :: b) (length a) x = Some (a ++ x :: b)).
      { induction a as [|c a IH]; intros; [reflexivity|]. cbn [app set length]. rewrite IH. reflexivity. }
      replace (p - i) with (S (p - S i)) by lia. cbn [repeat]. rewrite app_assoc.
      specialize (S0 (repeat 0%R p ++ repeat 1%R (Nat.min i p)) (repeat 0%R (p - S i)) 1%R 0%R).
      rewrite app_length, !repeat_length in S0. replace (Nat.min i p) with i in S0 |- * by lia. rewrite S0.
      eexists. split; [reflexivity|]. intros _. replace (Nat.min (S i) p) with (S i) by lia.
      change (repeat 1%R (S i)) with (1%R :: repeat 1%R i). rewrite repeat_cons, <- !app_assoc. reflexivity.
  - rewrite E, (H (le_n _)). replace (Nat.min (p + 1) p) with p by lia. replace (p - (p + 1)) with 0 by lia. cbn [repeat]. rewrite app_nil_r. reflexivity.
Qed.

(** ** rearranged control points *)
Lemma rearranged_ok : forall npx npy f g, 1 <= npy -> (forall i, i < npx * npy -> f i = Some (g i)) ->
  exists v, rearranged (npx * npy) npx npy f = Some v /\ length v = npx * npy
    /\ forall r c, r < npy -> c < npx -> nth (r * npx + c) v 0%R = g (c * npy + r).
Proof.
  intros npx npy f g Hy Hf. unfold rearranged.
  destruct (for_opt_inv (fun i (v : list R) => length v = npx * npy /\ forall r c, r < npy -> c < npx -> c * npy + r < i ->
     nth (r * npx + c) v 0%R = g (c * npy + r)) (npx * npy) (fun i v => x <- f i ;; set v ((i mod npy) * npx + i / npy) x) (repeat 0%R (npx * npy))) as [v [E [L I]]].
  - split; [apply repeat_length|]. intros; lia.
  - intros i s Hi [L I]. rewrite Hf by assumption. cbn [bind].
    pose proof (Nat.mod_upper_bound i npy ltac:(lia)) as Hm.
    assert (Hd : i / npy < npx) by (apply Nat.div_lt_upper_bound; lia).
    pose proof (Nat.div_mod i npy ltac:(lia)) as Hdm.
    destruct (set_spec s ((i mod npy) * npx + i / npy) (g i)) as [v [E [L' N]]]; [rewrite L; nia|].
    exists v. split; [assumption|]. split; [lia|]. intros r c Hr Hc Hlt. rewrite N.
    destruct (Nat.eqb_spec (r * npx + c) ((i mod npy) * npx + i / npy)) as [Q|Q].
    + f_equal. assert (r = i mod npy /\ c = i / npy).
      { assert (r = i mod npy) by nia. subst r. split; [reflexivity|]. nia. }
      destruct H as [-> ->]. lia.
    + apply I; try assumption. enough (c * npy + r <> i) by lia. intros Z. apply Q. subst i.
      rewrite (Nat.add_comm (c * npy) r), Nat.div_add, Nat.div_small, Nat.mod_add, Nat.mod_small by lia. lia.
  - exists v. split; [assumption|]. split; [assumption|]. intros r c Hr Hc. apply I; try assumption. nia.
Qed.

(** ** slices and products *)
Lemma slice_mid : forall a b c, slice (a ++ b ++ c) (length a) (length b) = Some b.
Proof.
  intros a b c. unfold slice. rewrite !app_length. replace (length a + length b <=? length a + (length b + length c)) with true by (symmetry; apply Nat.leb_le; lia).
  rewrite skipn_app, skipn_all, Nat.sub_diag. cbn [app skipn]. rewrite firstn_app, firstn_all, Nat.sub_diag, firstn_O, app_nil_r. reflexivity.
Qed.
Lemma product_rect : forall M N A B, rectangular M N A -> rectangular M N B -> rectangular M N (product A B).
Proof.
  intros M N A B [LA HA] [LB HB]. split; [unfold product; rewrite map_length, combine_length; lia|].
  intros row Hr. apply in_map_iff in Hr. destruct Hr as [[ra rb] [<- Hin]]. cbn [fst snd]. rewrite map_length, combine_length.
  rewrite HA by (apply in_combine_l in Hin; assumption). rewrite HB by (apply in_combine_r in Hin; assumption). lia.
Qed.
Lemma product_entry : forall M N A B i j, rectangular M N A -> rectangular M N B -> i < M -> j < N ->
  entry (product A B) i j = (entry A i j * entry B i j)%R.
Proof.
  intros M N A B i j [LA HA] [LB HB] Hi Hj. unfold entry, product.
  rewrite (nth_indep _ [] ((fun rs : list R * list R => map (fun xy => (fst xy * snd xy)%R) (combine (fst rs) (snd rs))) ([], []))) by (rewrite map_length, combine_length; lia).
  rewrite (map_nth (fun rs : list R * list R => map (fun xy => (fst xy * snd xy)%R) (combine (fst rs) (snd rs))) (combine A B) ([], []) i).
  rewrite combine_nth by lia. cbn [fst snd].
  assert (La : length (nth i A []) = N) by (apply HA, nth_In; lia). assert (Lb : length (nth i B []) = N) by (apply HB, nth_In; lia).
  rewrite (nth_indep _ 0%R ((fun xy : R * R => (fst xy * snd xy)%R) (0%R, 0%R))) by (rewrite map_length, combine_length; lia).
  rewrite (map_nth (fun xy : R * R => (fst xy * snd xy)%R) (combine (nth i A []) (nth i B [])) (0%R, 0%R) j).
  rewrite combine_nth by lia. reflexivity.
Qed.
Lemma triples_nth : forall (f : nat -> nat -> R) n i k, i < n -> k < 3 ->
  nth (3 * i + k) (flat_map (fun i => [f 0 i; f 1 i; f 2 i]) (seq 0 n)) 0%R = f k i.
Proof.
  intros f n i k Hi Hk. assert (X : forall m a i, i < m -> nth (3 * i + k) (flat_map (fun i => [f 0 i; f 1 i; f 2 i]) (seq a m)) 0%R = f k (a + i)).
  { clear i Hi. induction m as [|m IH]; intros a i Hi; [lia|]. cbn [seq flat_map]. destruct i as [|i].
    - rewrite app_nth1 by (cbn; lia). rewrite Nat.add_0_r. destruct k as [|[|[|]]]; [reflexivity|reflexivity|reflexivity|lia].
    - rewrite app_nth2 by (cbn; lia). cbn [length]. replace (3 * S i + k - 3) with (3 * i + k) by lia. rewrite IH by lia. f_equal. lia. }
  apply (X n 0 i Hi).
Qed.
Lemma triples_length : forall (f : nat -> nat -> R) n, length (flat_map (fun i => [f 0 i; f 1 i; f 2 i]) (seq 0 n)) = 3 * n.
Proof. intros f n. generalize 0 at 4. induction n as [|n IH]; intros a; [reflexivity|]. cbn [seq flat_map]. rewrite app_length, IH. cbn. lia. Qed.
