(** Properties C45 and C58: IGES files. *)
From Coq Require Import Bool Ascii String ZArith Reals List Arith Lia Lra.
From Verif Require Import ModelBase ModelText ModelKnots ModelPatch ModelDat ModelIges SpecPatch SpecDat SpecIges ProofText ProofPatchInit ProofDat ProofIges ProofIgesPatch ProofIgesFile PropDat.
Import ListNotations.
Local Open Scope bool_scope.
Local Open Scope nat_scope.

(** ** C45 *)
(** Every item stays in one piece, with its separator, and all of them are there in order. *)
Theorem C45_no_item_split : forall data width, made_of (terminated data) (makeSection data width).
Proof. intros data width. destruct (makeSection_made data width) as [g [E1 [E2 _]]]. exists g. split; assumption. Qed.
Theorem C45_lines_joined : forall data width, concat (makeSection data width) = concat (terminated data).
Proof.
  intros data width. destruct (makeSection_made data width) as [g [E1 [E2 _]]]. rewrite E2, <- E1. clear.
  induction g as [|x g IH]; [reflexivity|]. cbn [map concat]. rewrite concat_app, IH. reflexivity.
Qed.
(** No line is longer than the width if no item with its separator is. *)
Theorem C45_line_width : forall data width, (forall d, In d data -> length d + 1 <= width) ->
  forall line, In line (makeSection data width) -> length line <= width.
Proof. intros data width H line Hl. destruct (makeSection_made data width) as [g [_ [_ E3]]]. apply (E3 width); auto. Qed.
(** An item as long as the width, without its separator, gives a line that is too long. *)
Theorem C45_item_of_full_width_refuted : forall d width, length d = width -> exists line, In line (makeSection [d] width) /\ width < length line.
Proof.
  intros d width <-. unfold makeSection. cbn [section_loop length Nat.add app]. rewrite app_length. cbn [length lit].
  assert (L : length (lit ";") = 1) by reflexivity. rewrite L.
  replace (length d <? length d + 1) with true by (symmetry; apply Nat.ltb_lt; lia).
  exists (d ++ lit ";"). split; [right; left; reflexivity|]. rewrite app_length, L. lia.
Qed.
(** The reader recovers the number of every item from the lines of a parameter section. *)
Theorem C45_items_recovered : forall items idx first next rest row0 rows,
  (forall d, In d items -> plain_item d /\ length d <= 63) -> one_line next ->
  parameter_rows idx first (makeSection items 64) ++ next :: rest = row0 :: rows ->
  read_lines (length (makeSection items 64)) (open_stream (as_text rows)) row0 [] []
    = Some (open_stream (as_text rest), next, map atof items).
Proof.
  intros items idx first next rest row0 rows H Hn E. apply (read_lines_ok items idx first next rest [] row0 rows); auto.
  - apply Forall_forall. intros d Hd. apply H. assumption.
  - intros d Hd. apply H. assumption.
  - apply Forall_forall. intros c Hc. apply Ascii.eqb_neq. intros ->. exact (Hn Hc).
Qed.

(** five items on two lines *)
Example C45_demo : makeSection [lit "128"; lit "1.5"; lit "-0.25"; lit "7"; lit "0"] 12 = [lit "128,1.5,"; lit "-0.25,7,0;"].
Proof. reflexivity. Qed.

(** ** C58 *)
Lemma section_loop_length : forall width data line out, length (section_loop width data line out) <= length out + 1 + length data.
Proof.
  intros width data. induction data as [|d r IH]; intros line out; cbn [section_loop]; [rewrite app_length; cbn; lia|].
  destruct (_ <? _); etransitivity; try apply IH; [rewrite app_length; cbn; lia|cbn; lia].
Qed.
Lemma items_number : forall show P ds, iges_writable show P -> writePatchData show true P = Some ds -> length ds + 1 = iges_items P.
Proof.
  intros show P ds [HB [HW _]] E. destruct (write_data show P HB HW) as [w [c [E' [Lw _]]]]. cbv zeta in E', Lw. rewrite E' in E. apply some_eq in E. subst ds.
  assert (L : forall n, length (flat_map (fun i => [show (nth i (c 0) 0%R); show (nth i (c 1) 0%R); show (nth i (c 2) 0%R)]) (seq 0 n)) = 3 * n).
  { intros n. generalize 0 at 4. induction n as [|n IH]; intros a; [reflexivity|]. cbn [seq flat_map]. rewrite app_length, IH. cbn. lia. }
  repeat rewrite app_length. rewrite L, !map_length, Lw. repeat rewrite app_length. rewrite !repeat_length. cbn [length]. unfold iges_items. lia.
Qed.

(** A written file is read back, if the write directly behind the end of the knot vectors (lines 402-405) has no
    effect: same degrees and knots; weights and quotients as the decimal printing reproduces them. *)
Theorem C58_round_trip_with_slack : forall inv junk show G name date,
  let rd v := atof (show v) in
  rd 0%R = 0%R -> rd 1%R = 1%R -> G <> [] -> Forall (iges_writable show) G ->
  length name <= 71 -> length date <= 71 -> one_line name -> one_line date ->
  (Z.of_nat (1 + fold_right Nat.add 0%nat (map iges_items G)) < 10 ^ 7)%Z ->
  exists t G', writeIGSFile show true G name date = Some t /\ LoadGeometryFileIGS inv junk t = Some G' /\ Forall2 (reread_patch rd) G G'.
Proof.
  intros inv junk show G name date rd R0 R1 NG HG Ln Ld On Od Hsum.
  apply (load_written_igs show inv junk G name date R0 R1 NG HG Ln Ld On Od).
  intros secs F. enough (lsum_nat (map (@length text) secs) <= fold_right Nat.add 0 (map iges_items G)) by lia.
  clear - F HG. induction F as [|P sec G secs H F IH]; [cbn; lia|]. inversion_clear HG as [|? ? HP HG']. specialize (IH HG').
  cbn [map fold_right lsum_nat]. unfold lsum_nat in *. cbn [fold_right]. destruct H as [ds [E ->]].
  pose proof (items_number show P ds HP E) as N. pose proof (section_loop_length 64 ds [] []) as L. fold (makeSection ds 64) in L. cbn [length] in L. lia.
Qed.

(** If all printed numbers are reproduced exactly, so is the geometry. *)
Theorem C58_exact_with_slack : forall inv junk show G name date,
  (forall P v, In P G -> printed_value P v -> atof (show v) = v) -> G <> [] -> Forall (iges_writable show) G ->
  length name <= 71 -> length date <= 71 -> one_line name -> one_line date ->
  (Z.of_nat (1 + fold_right Nat.add 0%nat (map iges_items G)) < 10 ^ 7)%Z ->
  exists t, writeIGSFile show true G name date = Some t /\ LoadGeometryFileIGS inv junk t = Some G.
Proof.
  intros inv junk show G name date HX NG HG Ln Ld On Od Hsum.
  assert (HP : exists P, In P G) by (destruct G as [|P G]; [congruence|]; exists P; left; reflexivity). destruct HP as [P0 HP0].
  destruct (C58_round_trip_with_slack inv junk show G name date) as [t [G' [E [E' F]]]]; try assumption.
  { apply (HX P0); [assumption|]. left. reflexivity. }
  { apply (HX P0); [assumption|]. right. left. reflexivity. }
  exists t. split; [assumption|]. rewrite E'. f_equal. clear E E' Hsum Ln Ld On Od NG HP0 P0.
  induction F as [|P Q G G' H F IH]; [reflexivity|]. inversion_clear HG as [|? ? HP HG']. f_equal.
  2:{ apply IH; [|assumption]. intros P' v Hin. apply HX. right. assumption. }
  destruct H as [H1 [H2 [H3 [H4 [H5 H6]]]]]. specialize (HX P). destruct HP as [[_ [_ [_ [_ [HL _]]]]] [HW _]].
  destruct P as [d dx dy kx ky], Q as [d' dx' dy' kx' ky']. cbn [p_data p_degx p_degy p_knx p_kny] in *. subst. f_equal.
  apply (nth_ext _ _ 0%R 0%R); [assumption|]. intros n Hn. rewrite H5, HL in Hn.
  pose proof (Nat.div_mod n 4 ltac:(lia)) as D4. pose proof (Nat.mod_upper_bound n 4 ltac:(lia)) as M4.
  assert (Hd : n / 4 < dx * dy) by (apply Nat.div_lt_upper_bound; lia).
  set (i := n / 4) in *. set (k := n mod 4) in *. rewrite D4. rewrite H6 by assumption.
  destruct (Nat.eqb_spec k 3) as [Ek|Ek].
  - rewrite Ek. apply HX; [left; reflexivity|]. right. right. exists i, 0. cbn [p_data p_degx p_degy]. split; [assumption|]. split; [lia|]. left. reflexivity.
  - rewrite !HX; try (left; reflexivity).
    + field. apply HW. assumption.
    + right. right. exists i, 0. cbn [p_data p_degx p_degy]. split; [assumption|]. split; [lia|]. left. reflexivity.
    + right. right. exists i, k. cbn [p_data p_degx p_degy]. split; [assumption|]. split; [lia|]. right. reflexivity.
Qed.

(** If the printing has relative error eps, control points have relative error 2 eps + eps^2, weights eps. *)
Theorem C58_accuracy_with_slack : forall inv junk show G name date eps,
  (forall P v, In P G -> printed_value P v -> Rabs (atof (show v) - v) <= eps * Rabs v)%R -> (0 <= eps)%R ->
  atof (show 1%R) = 1%R -> G <> [] -> Forall (iges_writable show) G ->
  length name <= 71 -> length date <= 71 -> one_line name -> one_line date ->
  (Z.of_nat (1 + fold_right Nat.add 0%nat (map iges_items G)) < 10 ^ 7)%Z ->
  exists t G', writeIGSFile show true G name date = Some t /\ LoadGeometryFileIGS inv junk t = Some G' /\
    Forall2 (fun P Q => p_degx Q = p_degx P /\ p_degy Q = p_degy P /\ p_knx Q = p_knx P /\ p_kny Q = p_kny P /\
      length (p_data Q) = length (p_data P) /\
      forall n, n < length (p_data P) ->
        (Rabs (nth n (p_data Q) 0 - nth n (p_data P) 0) <= (2 * eps + eps * eps) * Rabs (nth n (p_data P) 0))%R) G G'.
Proof.
  intros inv junk show G name date eps HX He R1 NG HG Ln Ld On Od Hsum.
  assert (HP : exists P, In P G) by (destruct G as [|P G]; [congruence|]; exists P; left; reflexivity). destruct HP as [P0 HP0].
  destruct (C58_round_trip_with_slack inv junk show G name date) as [t [G' [E [E' F]]]]; try assumption.
  { pose proof (HX P0 0%R HP0 (or_introl eq_refl)) as H0. rewrite Rabs_R0, Rmult_0_r, Rminus_0_r in H0.
    pose proof (Rabs_pos (atof (show 0%R))). destruct (Req_dec (atof (show 0%R)) 0) as [Z|Z]; [exact Z|].
    apply Rabs_pos_lt in Z. lra. }
  exists t, G'. split; [assumption|]. split; [assumption|]. clear E E' Hsum Ln Ld On Od NG HP0 P0 R1.
  induction F as [|P Q G G' H F IH]; [constructor|]. inversion_clear HG as [|? ? HP HG']. constructor.
  2:{ apply IH; [|assumption]. intros P' v Hin. apply HX. right. assumption. }
  destruct H as [H1 [H2 [H3 [H4 [H5 H6]]]]]. specialize (HX P). destruct HP as [[_ [_ [_ [_ [HL _]]]]] [HW _]].
  repeat (split; [assumption|]). intros n Hn. rewrite HL in Hn.
  pose proof (Nat.div_mod n 4 ltac:(lia)) as D4. pose proof (Nat.mod_upper_bound n 4 ltac:(lia)) as M4.
  assert (Hd : n / 4 < p_degx P * p_degy P) by (apply Nat.div_lt_upper_bound; lia).
  set (i := n / 4) in *. set (k := n mod 4) in *. rewrite D4. rewrite H6 by assumption. clear H6.
  assert (Hw := HW i Hd). set (w := nth (4 * i + 3) (p_data P) 0%R) in *.
  assert (Bw : (Rabs (atof (show w) - w) <= eps * Rabs w)%R).
  { apply HX; [left; reflexivity|]. right. right. exists i, 0. split; [assumption|]. split; [lia|]. left. reflexivity. }
  destruct (Nat.eqb_spec k 3) as [Ek|Ek].
  - rewrite Ek. fold w. eapply Rle_trans; [exact Bw|]. apply Rmult_le_compat_r; [apply Rabs_pos|]. nra.
  - set (x := nth (4 * i + k) (p_data P) 0%R).
    assert (Bq : (Rabs (atof (show (x / w)) - x / w) <= eps * Rabs (x / w))%R).
    { apply HX; [left; reflexivity|]. right. right. exists i, k. split; [assumption|]. split; [lia|]. right. reflexivity. }
    set (a := atof (show (x / w)%R)) in *. set (b := atof (show w)) in *. set (q := (x / w)%R) in *.
    assert (Ex : x = (q * w)%R) by (unfold q; field; assumption). rewrite Ex.
    replace (a * b - q * w)%R with ((a - q) * (b - w) + (a - q) * w + q * (b - w))%R by ring.
    assert (T : (Rabs ((a - q) * (b - w) + (a - q) * w + q * (b - w)) <= Rabs (a - q) * Rabs (b - w) + Rabs (a - q) * Rabs w + Rabs q * Rabs (b - w))%R).
    { rewrite <- !Rabs_mult. eapply Rle_trans; [apply Rabs_triang|]. apply Rplus_le_compat_r. apply Rabs_triang. }
    eapply Rle_trans; [exact T|]. rewrite Rabs_mult.
    pose proof (Rabs_pos (a - q)) as P1. pose proof (Rabs_pos (b - w)) as P2. pose proof (Rabs_pos q) as P3. pose proof (Rabs_pos w) as P4.
    set (A := Rabs (a - q)) in *. set (B := Rabs (b - w)) in *. set (C := Rabs q) in *. set (D := Rabs w) in *. clearbody A B C D.
    assert (X1 : (A * B <= eps * C * (eps * D))%R) by (apply Rmult_le_compat; assumption).
    assert (X2 : (A * D <= eps * C * D)%R) by (apply Rmult_le_compat_r; assumption).
    assert (X3 : (C * B <= C * (eps * D))%R) by (apply Rmult_le_compat_l; assumption).
    replace ((2 * eps + eps * eps) * (C * D))%R with (eps * C * (eps * D) + eps * C * D + C * (eps * D))%R by ring. lra.
Qed.

(** In the C++ language the writer has no defined result for any geometry: it writes behind the end of a vector. *)
Theorem C58_writer_out_of_bounds_refuted : forall show G name date, G <> [] -> writeIGSFile show false G name date = None.
Proof.
  intros show [|P G] name date H; [congruence|]. unfold writeIGSFile. cbn [map_opt].
  assert (E : writePatchData show false P = None).
  { unfold writePatchData. destruct (length (p_knx P) =? 2); [|reflexivity]. cbn [assert bind]. destruct (length (p_kny P) =? 2); [|reflexivity]. cbn [assert bind].
    rewrite iges_knots_strict. reflexivity. }
  rewrite E. reflexivity.
Qed.

(** The file of an empty geometry cannot be read. *)
Theorem C58_empty_geometry_refuted : forall inv junk show, exists name date t,
  writeIGSFile show false [] name date = Some t /\ LoadGeometryFileIGS inv junk t = None.
Proof.
  intros inv junk show. exists (lit "empty.igs"), (lit "2026-01-01"). eexists. split; [reflexivity|]. vm_compute. reflexivity.
Qed.

(** A path of 73 or more characters shifts the section letter: here the reader takes a line of the global section for
    the directory, whatever the geometry. *)
Theorem C58_long_path_refuted : exists name date, one_line name /\ one_line date /\
  forall inv junk show slack G t, writeIGSFile show slack G name date = Some t -> LoadGeometryFileIGS inv junk t = None.
Proof.
  exists (lit "/home/anna/project/boundary-element-methods/geometries/examples/spheres/Dense.igs"), (lit "2026-01-01").
  split; [cbn; intros H; repeat destruct H as [H|H]; solve [discriminate|exact H]|].
  split; [cbn; intros H; repeat destruct H as [H|H]; solve [discriminate|exact H]|].
  intros inv junk show slack G t E. unfold writeIGSFile in E. apply bind_some in E. destruct E as [secs [_ E]]. apply some_eq in E. subst t.
  match goal with |- context [header_rows ++ ?g ++ ?d] => set (gl := g); set (tail := d) end. clearbody tail.
  set (hd5 := header_rows ++ [nth 0 gl []]). set (row := nth 1 gl []). set (more := skipn 2 gl ++ tail).
  assert (Er : header_rows ++ gl ++ tail = hd5 ++ row :: more).
  { unfold hd5, more. rewrite <- app_assoc. reflexivity. }
  rewrite Er. clear Er. assert (C : char72 row = Some "D"%char) by (vm_compute; reflexivity).
  assert (NN : no_newline row) by (vm_compute; repeat constructor).
  assert (RI : read_ints (length row) (open_stream row) [] [] = None) by (vm_compute; reflexivity).
  assert (H5 : exists h0 hs, hd5 = h0 :: hs /\ length hs = 4 /\ char72 h0 = Some "S"%char /\ forallb (fun r => match char72 r with Some c => negb (Ascii.eqb c "D") | None => false end) hd5 = true
     /\ forallb (forallb (fun c => negb (Ascii.eqb c newline))) hd5 = true).
  { eexists. eexists. split; [vm_compute; reflexivity|]. split; [reflexivity|]. split; [vm_compute; reflexivity|]. split; vm_compute; reflexivity. }
  destruct H5 as [h0 [hs [E5 [L4 [C0 [FC FN]]]]]]. clearbody hd5 row more. subst hd5.
  rewrite forallb_forall in FC, FN.
  assert (NL : forall r, In r (h0 :: hs) -> no_newline r).
  { intros r Hr. apply Forall_forall. intros c Hc. specialize (FN r Hr). rewrite forallb_forall in FN. specialize (FN c Hc). apply negb_true_iff in FN. exact FN. }
  unfold LoadGeometryFileIGS, open_stream. change ((h0 :: hs) ++ row :: more) with (h0 :: hs ++ row :: more).
  rewrite rows_getline by (apply NL; left; reflexivity). rewrite C0. cbn [bind]. change (Ascii.eqb "S" "S") with true. cbn [assert bind].
  assert (Lf : exists f, length (as_text (h0 :: hs ++ row :: more)) = 5 + f).
  { destruct hs as [|h1 [|h2 [|h3 [|h4 [|h5 hs]]]]]; try discriminate. exists (length (as_text (h0 :: [h1; h2; h3; h4] ++ row :: more)) - 5).
    unfold as_text. cbn [app flat_map]. rewrite !app_length. cbn [length]. lia. }
  destruct Lf as [f Ef]. rewrite Ef.
  rewrite (skip_rows_ok hs h0 row more (5 + f)); [| | |exact NN|exact C|rewrite L4; lia].
  - cbn [bind]. cbn [Nat.add read_directory]. rewrite C. cbn [bind]. change (Ascii.eqb "D" "P") with false. cbv iota. unfold open_stream in RI. unfold open_stream. rewrite RI. reflexivity.
  - intros r Hr. specialize (FC r Hr). destruct (char72 r) as [c|]; [|discriminate]. exists c. split; [reflexivity|]. apply negb_true_iff, Ascii.eqb_neq in FC. exact FC.
  - intros r Hr. apply NL. right. assumption.
Qed.

(** ** the hypotheses can be met: printing with 15 decimals *)
Lemma fixed15_plain : forall v, (Rabs v < 10 ^ 9)%R -> plain_item (fixed15 v) /\ length (fixed15 v) <= 63.
Proof.
  intros v Hv. unfold fixed15. set (n := Int_part (Rabs v * IZR scale15 + / 2)).
  assert (S15 : IZR scale15 = (10 ^ 15)%R) by (rewrite (pow_IZR 10 15); reflexivity).
  destruct (base_Int_part (Rabs v * IZR scale15 + / 2)) as [U L]. fold n in U, L. pose proof (Rabs_pos v) as Pv.
  assert (Hs : (0 < IZR scale15)%R) by (apply IZR_lt; reflexivity).
  assert (Hn0 : (0 <= n)%Z) by (apply le_IZR; apply Rnot_lt_le; intros C; assert (IZR n <= -1)%R by (apply (IZR_le n (-1)); apply lt_IZR in C; lia); nra).
  assert (Hn1 : (n / scale15 < 10 ^ 10)%Z).
  { apply Z.div_lt_upper_bound; [reflexivity|]. apply lt_IZR. rewrite mult_IZR. eapply Rle_lt_trans; [exact U|].
    assert (E10 : IZR (10 ^ 10) = (10 * 10 ^ 9)%R) by (rewrite (pow_IZR 10 9), <- mult_IZR; reflexivity). rewrite E10.
    assert (Rabs v * IZR scale15 < 10 ^ 9 * IZR scale15)%R by (apply Rmult_lt_compat_r; assumption).
    assert (1 <= IZR scale15)%R by (apply (IZR_le 1); discriminate).
    assert (1 < 10 ^ 9)%R by (apply Rlt_pow_R1; [lra|lia]). nra. }
  assert (Hd0 : (0 <= n / scale15)%Z) by (apply Z.div_pos; [assumption|reflexivity]).
  destruct (dec_ok (n / scale15) Hd0) as [D1 _].
  destruct (pad_ok 15 (n mod scale15) [] ltac:(apply Z.mod_pos_bound; reflexivity)) as [ds [Ep [D2 [L2 _]]]]. rewrite app_nil_r in Ep. rewrite Ep.
  split.
  - intros c Hc. assert (Dg : forall l, digits l -> In c l -> c <> ","%char /\ c <> " "%char /\ c <> newline).
    { intros l Dl Hl. unfold digits in Dl. rewrite Forall_forall in Dl. specialize (Dl c Hl). repeat split; intros ->; discriminate. }
    repeat (apply in_app_or in Hc; destruct Hc as [Hc|Hc]); eauto.
    + destruct (Rlt_dec v 0); [destruct Hc as [<-|[]]; repeat split; discriminate|destruct Hc].
    + destruct Hc as [<-|[]]. repeat split; discriminate.
  - rewrite !app_length, L2. assert (L1 : length (dec (n / scale15)) <= 10).
    { unfold dec. etransitivity; [apply (dec_loop_length _ _ _ 10); [lia|lia]|cbn; lia]. }
    assert (L0 : length (if Rlt_dec v 0 then lit "-" else []) <= 1) by (destruct (Rlt_dec v 0); cbn; lia). change (length (lit ".")) with 1. lia.
Qed.
Lemma demo_values : forall v, printed_value demo_patch v -> (v = 0 \/ v = 1 \/ v = / 2)%R.
Proof.
  intros v [->|[->|[i [k [Hi [Hk H]]]]]]; [lra|lra|]. cbv zeta in H. cbn [demo_patch p_degx p_degy p_data Nat.mul Nat.add] in *.
  destruct i as [|[|[|[|i]]]]; [| | | |lia]; destruct k as [|[|[|k]]]; try lia; cbn [Nat.mul Nat.add nth] in H; destruct H as [->| ->]; lra.
Qed.
Example C58_demo : Forall (iges_writable fixed15) [demo_patch; demo_patch] /\ [demo_patch; demo_patch] <> []
  /\ (forall P v, In P [demo_patch; demo_patch] -> printed_value P v -> atof (fixed15 v) = v)
  /\ (Z.of_nat (1 + fold_right Nat.add 0%nat (map iges_items [demo_patch; demo_patch])) < 10 ^ 7)%Z.
Proof.
  assert (W : iges_writable fixed15 demo_patch).
  { split; [unfold bezier_patch, demo_patch; cbn; repeat split; lia|]. split.
    - intros i Hi. cbn [demo_patch p_degx p_degy p_data Nat.mul Nat.add] in *. destruct i as [|[|[|[|i]]]]; [| | | |lia]; cbn [Nat.mul Nat.add nth]; lra.
    - intros v Hv. apply fixed15_plain. assert (1 < 10 ^ 9)%R by (apply Rlt_pow_R1; [lra|lia]). destruct (demo_values v Hv) as [->|[->| ->]]; rewrite Rabs_right; lra. }
  split; [constructor; [exact W|constructor; [exact W|constructor]]|]. split; [discriminate|]. split; [|reflexivity].
  intros P v HP Hv. assert (P = demo_patch) by (destruct HP as [<-|[<-|[]]]; reflexivity). subst P.
  destruct (demo_values v Hv) as [->|[->| ->]]; [apply (atof_int 0)|apply (atof_int 1)|].
  assert (E : (/ 2 = IZR (5 * 10 ^ 14) * / IZR scale15)%R).
  { change scale15 with (2 * (5 * 10 ^ 14))%Z. rewrite (mult_IZR 2). field. apply IZR_neq. discriminate. }
  rewrite E. apply atof_exact.
Qed.

(* BEGIN ASSUMPTIONS *)
Print Assumptions C45_no_item_split.
Print Assumptions C45_lines_joined.
Print Assumptions C45_line_width.
Print Assumptions C45_item_of_full_width_refuted.
Print Assumptions C45_items_recovered.
Print Assumptions C58_round_trip_with_slack.
Print Assumptions C58_exact_with_slack.
Print Assumptions C58_accuracy_with_slack.
Print Assumptions C58_writer_out_of_bounds_refuted.
Print Assumptions C58_empty_geometry_refuted.
Print Assumptions C58_long_path_refuted.
