(** Round trip of patches and files in the IGES format. *)
From Coq Require Import Bool Ascii String ZArith Reals List Arith Lia Lra.
From Verif Require Import ModelBase ModelText ModelKnots ModelPatch ModelDat ModelIges SpecPatch SpecDat SpecIges ProofText ProofPatchInit ProofDat ProofIges ProofIgesPatch.
Import ListNotations.
Local Open Scope bool_scope.
Local Open Scope nat_scope.

Section Show.
Variable show : R -> text.
Let rd (v : R) : R := atof (show v).

(** ** the numbers of a patch *)
Lemma write_data : forall P, bezier_patch P -> (forall i, i < p_degx P * p_degy P -> nth (4 * i + 3) (p_data P) 0%R <> 0%R) ->
  let p := p_degx P in let q := p_degy P in
  exists w c, writePatchData show true P = Some ([lit "128"; print_int (Z.of_nat p - 1); print_int (Z.of_nat q - 1);
         print_int (Z.of_nat p - 1); print_int (Z.of_nat q - 1); lit "0"; lit "0"; lit "0"; lit "0"; lit "0"]
        ++ map show (repeat 0%R p ++ repeat 1%R p) ++ map show (repeat 0%R q ++ repeat 1%R q) ++ map show w
        ++ flat_map (fun i => [show (nth i (c 0) 0%R); show (nth i (c 1) 0%R); show (nth i (c 2) 0%R)]) (seq 0 (p * q))
        ++ [lit "0.000000"; lit "1.000000"; lit "0.000000"; lit "1.000000"; lit "0"; lit "0"])
  /\ length w = p * q /\ (forall k, k < 3 -> length (c k) = p * q)
  /\ (forall r s, r < q -> s < p -> nth (r * p + s) w 0%R = nth (4 * (s * q + r) + 3) (p_data P) 0%R)
  /\ (forall k r s, k < 3 -> r < q -> s < p -> nth (r * p + s) (c k) 0%R
       = (nth (4 * (s * q + r) + k) (p_data P) 0 / nth (4 * (s * q + r) + 3) (p_data P) 0)%R).
Proof.
  intros P HP Hw p q. pose proof HP as [Kx [Ky [Hp [Hq [HL _]]]]]. fold p in Hp, HL, Hw. fold q in Hq, HL, Hw.
  unfold writePatchData. rewrite Kx, Ky. cbn [length Nat.eqb assert bind]. fold p q. rewrite !iges_knots_slack. cbn [bind].
  rewrite !app_length, !repeat_length. replace (p + p - p) with p by lia. replace (q + q - q) with q by lia.
  replace (length (p_data P) / 4) with (p * q) by (rewrite HL, (Nat.mul_comm 4), Nat.div_mul; lia).
  destruct (rearranged_ok p q (fun i => get (p_data P) (i * 4 + 3)) (fun i => nth (4 * i + 3) (p_data P) 0%R) Hq) as [w [Ew [Lw Nw]]].
  { intros i Hi. rewrite (get_nth _ _ 0%R) by lia. do 2 f_equal. lia. }
  assert (X : forall k, k < 3 -> exists v, rearranged (p * q) p q (ModelIges.coordinate P k) = Some v /\ length v = p * q /\
     forall r s, r < q -> s < p -> nth (r * p + s) v 0%R = (nth (4 * (s * q + r) + k) (p_data P) 0 / nth (4 * (s * q + r) + 3) (p_data P) 0)%R).
  { intros k Hk. apply (rearranged_ok p q (ModelIges.coordinate P k) (fun i => (nth (4 * i + k) (p_data P) 0 / nth (4 * i + 3) (p_data P) 0)%R) Hq).
    intros i Hi. unfold ModelIges.coordinate. rewrite (get_nth _ (i * 4 + 3) 0%R) by lia. rewrite (get_nth _ (i * 4 + k) 0%R) by lia. cbn [bind].
    rewrite (Nat.mul_comm i 4). unfold quotient. destruct (Req_EM_T _ 0) as [Z|_]; [exfalso; exact (Hw i Hi Z)|reflexivity]. }
  destruct (X 0 ltac:(lia)) as [x [Ex [Lx Nx]]]. destruct (X 1 ltac:(lia)) as [y [Ey [Ly Ny]]]. destruct (X 2 ltac:(lia)) as [z [Ez [Lz Nz]]].
  rewrite Ew. cbn [bind]. rewrite Ex, Ey, Ez. cbn [bind].
  exists w, (fun k => match k with 0 => x | 1 => y | _ => z end). split; [reflexivity|]. split; [assumption|]. split; [|split; [assumption|]].
  - intros [|[|k]] _; assumption.
  - intros [|[|[|k]]] r s Hk; [apply Nx|apply Ny|apply Nz|lia].
Qed.

Lemma slice_at : forall D a b c n m, D = a ++ b ++ c -> length a = n -> length b = m -> slice D n m = Some b.
Proof. intros. subst. apply slice_mid. Qed.

Lemma patch_back : forall inv junk P ds, bezier_patch P -> (forall i, i < p_degx P * p_degy P -> nth (4 * i + 3) (p_data P) 0%R <> 0%R) ->
  rd 0 = 0%R -> rd 1 = 1%R -> writePatchData show true P = Some ds ->
  exists Q, patch_of_data inv junk (map atof ds) = Some Q /\ reread_patch rd P Q.
Proof.
  intros inv junk P ds HP Hw R0 R1 E. destruct (write_data P HP Hw) as [w [c [E' [Lw [Lc [Nw Nc]]]]]]. cbv zeta in *.
  set (p := p_degx P) in *. set (q := p_degy P) in *. rewrite E' in E. apply some_eq in E. subst ds. clear E'.
  pose proof HP as [Kx [Ky [Hp [Hq [HL _]]]]]. fold p in Hp, HL. fold q in Hq, HL.
  assert (Mk : forall n, map atof (map show (repeat 0%R n ++ repeat 1%R n)) = repeat 0%R n ++ repeat 1%R n).
  { intros n. rewrite map_map, map_app. f_equal; induction n as [|n IH]; cbn [repeat map]; [reflexivity|f_equal; assumption|reflexivity|f_equal; assumption]. }
  set (six := [atof (lit "0.000000"); atof (lit "1.000000"); atof (lit "0.000000"); atof (lit "1.000000"); atof (lit "0"); atof (lit "0")]).
  set (ten := [atof (lit "128"); IZR (Z.of_nat p - 1); IZR (Z.of_nat q - 1); IZR (Z.of_nat p - 1); IZR (Z.of_nat q - 1);
     atof (lit "0"); atof (lit "0"); atof (lit "0"); atof (lit "0"); atof (lit "0")]).
  set (pts := flat_map (fun i => [rd (nth i (c 0) 0%R); rd (nth i (c 1) 0%R); rd (nth i (c 2) 0%R)]) (seq 0 (p * q))).
  set (kx := repeat 0%R p ++ repeat 1%R p) in *. set (ky := repeat 0%R q ++ repeat 1%R q) in *.
  assert (Ed : map atof ([lit "128"; print_int (Z.of_nat p - 1); print_int (Z.of_nat q - 1);
         print_int (Z.of_nat p - 1); print_int (Z.of_nat q - 1); lit "0"; lit "0"; lit "0"; lit "0"; lit "0"]
        ++ map show kx ++ map show ky ++ map show w
        ++ flat_map (fun i => [show (nth i (c 0) 0%R); show (nth i (c 1) 0%R); show (nth i (c 2) 0%R)]) (seq 0 (p * q))
        ++ [lit "0.000000"; lit "1.000000"; lit "0.000000"; lit "1.000000"; lit "0"; lit "0"])
     = ten ++ (kx ++ ky ++ map rd w ++ pts ++ six)).
  { rewrite !map_app. unfold kx at 1, ky at 1. rewrite !Mk. rewrite (map_map show atof w). fold kx ky. f_equal.
    - unfold ten. cbn [map]. rewrite !atof_print_int by lia. reflexivity.
    - do 3 f_equal. f_equal. unfold pts. clear. induction (seq 0 (p * q)) as [|i l IH]; [reflexivity|]. cbn [flat_map map app]. rewrite IH. reflexivity. }
  rewrite Ed. clear Ed.
  set (rest := kx ++ ky ++ map rd w ++ pts ++ six).
  assert (Lkx : length kx = 2 * p) by (unfold kx; rewrite app_length, !repeat_length; lia).
  assert (Lky : length ky = 2 * q) by (unfold ky; rewrite app_length, !repeat_length; lia).
  assert (Lrw : length (map rd w) = p * q) by (rewrite map_length; assumption).
  assert (Lpts : length pts = 3 * (p * q)) by (apply (triples_length (fun k i => rd (nth i (c k) 0%R)))).
  unfold patch_of_data.
  change (get (ten ++ rest) 1) with (Some (IZR (Z.of_nat p - 1))). change (get (ten ++ rest) 2) with (Some (IZR (Z.of_nat q - 1))).
  change (get (ten ++ rest) 3) with (Some (IZR (Z.of_nat p - 1))). change (get (ten ++ rest) 4) with (Some (IZR (Z.of_nat q - 1))).
  cbn [bind]. rewrite !to_int_IZR by lia.
  match goal with |- context [assert ?b] => replace b with true by (symmetry; rewrite !andb_true_iff; repeat split; apply Z.leb_le; lia) end.
  cbn [assert bind].
  rewrite (slice_at (ten ++ rest) ten rest [] 10 (length (ten ++ rest) - 10)); [|rewrite app_nil_r; reflexivity|reflexivity|rewrite app_length; change (length ten) with 10; lia].
  cbn [bind].
  replace (Z.to_nat (1 + (Z.of_nat p - 1) - (Z.of_nat p - 1) + 2 * (Z.of_nat p - 1))) with (2 * p - 1) by lia.
  replace (Z.to_nat (1 + (Z.of_nat q - 1) - (Z.of_nat q - 1) + 2 * (Z.of_nat q - 1))) with (2 * q - 1) by lia.
  replace (Z.to_nat ((1 + (Z.of_nat p - 1)) * (1 + (Z.of_nat q - 1)))) with (p * q) by nia.
  replace (Z.to_nat (Z.of_nat q - 1 + 1)) with q by lia. replace (Z.to_nat (Z.of_nat p - 1 + 1)) with p by lia.
  rewrite (slice_at rest [] kx (ky ++ map rd w ++ pts ++ six) 0 (2 * p - 1 + 1)); [|reflexivity|reflexivity|lia]. cbn [bind].
  rewrite (slice_at rest kx ky (map rd w ++ pts ++ six) (2 * p - 1 + 1) (2 * q - 1 + 1)); [|reflexivity|lia|lia]. cbn [bind].
  rewrite (slice_at rest (kx ++ ky) (map rd w) (pts ++ six) (2 * p - 1 + (2 * q - 1) + 2) (p * q));
    [|unfold rest; rewrite <- !app_assoc; reflexivity|rewrite app_length; lia|assumption]. cbn [bind].
  rewrite (slice_at rest (kx ++ ky ++ map rd w) pts six (2 * p - 1 + (2 * q - 1) + 2 + p * q) (3 * (p * q)));
    [|unfold rest; rewrite <- !app_assoc; reflexivity|rewrite !app_length; lia|assumption]. cbn [bind].
  set (W := by_rows q p (map rd w)).
  set (comp := fun k => product (by_rows q p (map (fun i => nth (3 * i + k) pts 0%R) (seq 0 (p * q)))) W).
  change (exists Q, init_Patch inv junk [comp 0; comp 1; comp 2; W] kx ky = Some Q /\ reread_patch rd P Q).
  assert (HW : rectangular q p W) by apply by_rows_rect.
  assert (HC : forall k, rectangular q p (comp k)) by (intros; apply product_rect; [apply by_rows_rect|assumption]).
  destruct (init_bezier inv junk [comp 0; comp 1; comp 2; W] kx ky p q) as [data [E6 [L6 N6]]]; auto.
  - intros M [<-|[<-|[<-|[<-|[]]]]]; auto.
  - unfold kx. rewrite <- bezier_knots. apply unique_bezier. assumption.
  - unfold ky. rewrite <- bezier_knots. apply unique_bezier. assumption.
  - rewrite E6. eexists. split; [reflexivity|]. unfold reread_patch. cbn [p_degx p_degy p_knx p_kny p_data]. fold p q.
    repeat (split; [first [reflexivity|congruence|lia]|]).
    intros i k Hi Hk.
    assert (Di : i = q * (i / q) + i mod q) by (apply Nat.div_mod; lia). pose proof (Nat.mod_upper_bound i q ltac:(lia)) as Hmq.
    assert (Hdp : i / q < p) by (apply Nat.div_lt_upper_bound; lia).
    set (s := i / q) in *. set (r := i mod q) in *. replace i with (s * q + r) by lia. rewrite N6 by lia.
    assert (EW : entry W r s = rd (nth (4 * (s * q + r) + 3) (p_data P) 0%R)).
    { unfold W. rewrite by_rows_entry by lia. rewrite (nth_indep _ 0%R (rd 0%R)) by (rewrite Lrw; nia). rewrite map_nth, Nw by lia. reflexivity. }
    assert (EC : forall k, k < 3 -> entry (comp k) r s = (rd (nth (4 * (s * q + r) + k) (p_data P) 0 / nth (4 * (s * q + r) + 3) (p_data P) 0)
        * rd (nth (4 * (s * q + r) + 3) (p_data P) 0))%R).
    { intros k' Hk'. unfold comp. rewrite (product_entry q p) by (auto; apply by_rows_rect). rewrite EW. f_equal.
      rewrite by_rows_entry by lia. assert (Hrs : r * p + s < p * q) by nia.
      rewrite (nth_indep _ 0%R (nth (3 * 0 + k') pts 0%R)) by (rewrite map_length, seq_length; assumption).
      rewrite (map_nth (fun i => nth (3 * i + k') pts 0%R) (seq 0 (p * q)) 0), seq_nth by assumption. cbn [Nat.add].
      unfold pts. rewrite (triples_nth (fun k i => rd (nth i (c k) 0%R)) (p * q) (r * p + s) k' Hrs Hk'). rewrite Nc by lia. reflexivity. }
    destruct k as [|[|[|[|k]]]]; cbn [nth Nat.eqb]; [apply EC; lia|apply EC; lia|apply EC; lia|exact EW|lia].
Qed.

(** ** the items of a patch are plain *)
Definition printable (P : patch) : Prop := forall v, printed_value P v -> plain_item (show v) /\ length (show v) <= 63.

Lemma lit_plain : forall s, forallb (fun c => negb (Ascii.eqb c ","%char) && negb (Ascii.eqb c " "%char) && negb (Ascii.eqb c newline)) s = true -> plain_item s.
Proof.
  intros s H c Hc. rewrite forallb_forall in H. specialize (H c Hc). rewrite !andb_true_iff, !negb_true_iff, !Ascii.eqb_neq in H. tauto.
Qed.
Lemma print_nat_plain : forall n, plain_item (print_nat n).
Proof.
  intros n c Hc. unfold print_nat, print_int in Hc. replace (Z.of_nat n <? 0)%Z with false in Hc by (symmetry; apply Z.ltb_ge; lia).
  destruct (dec_ok (Z.of_nat n) ltac:(lia)) as [D _]. unfold digits in D. rewrite Forall_forall in D. specialize (D c Hc).
  repeat split; intros ->; discriminate.
Qed.

Lemma items_plain : forall P ds, bezier_patch P -> (forall i, i < p_degx P * p_degy P -> nth (4 * i + 3) (p_data P) 0%R <> 0%R) ->
  printable P -> writePatchData show true P = Some ds -> Forall plain_item ds /\ forall d, In d ds -> length d <= 63.
Proof.
  intros P ds HP Hw Hs E. destruct (write_data P HP Hw) as [w [c [E' [Lw [Lc [Nw Nc]]]]]]. cbv zeta in *.
  set (p := p_degx P) in *. set (q := p_degy P) in *. rewrite E' in E. apply some_eq in E. subst ds. clear E'.
  pose proof HP as [_ [_ [Hp [Hq [HL [Bx By]]]]]]. fold p in Hp, HL, Bx. fold q in Hq, HL, By.
  assert (X : forall l, (forall d, In d l -> plain_item d /\ length d <= 63) -> Forall plain_item l /\ forall d, In d l -> length d <= 63).
  { intros l H. split; [apply Forall_forall|]; intros d Hd; apply H; assumption. }
  apply X. clear X.
  assert (Hpn : forall n, (Z.of_nat n <= 2 ^ 31 - 1)%Z -> plain_item (print_int (Z.of_nat n)) /\ length (print_int (Z.of_nat n)) <= 63).
  { intros n Hn. split; [apply print_nat_plain|]. transitivity 10; [|lia]. apply (print_nat_length n 10); [|lia].
    eapply Z.le_lt_trans; [exact Hn|]. reflexivity. }
  assert (Hk : forall n d, In d (map show (repeat 0%R n ++ repeat 1%R n)) -> plain_item d /\ length d <= 63).
  { intros n d Hd. apply in_map_iff in Hd. destruct Hd as [v [<- Hv]]. apply Hs. apply in_app_or in Hv. unfold printed_value.
    destruct Hv as [Hv|Hv]; apply repeat_spec in Hv; subst v; auto. }
  assert (Hidx : forall i, i < p * q -> exists r s, i = r * p + s /\ r < q /\ s < p /\ s * q + r < p * q).
  { intros i Hi. exists (i / p), (i mod p). assert (Hd : i / p < q) by (apply Nat.div_lt_upper_bound; lia).
    pose proof (Nat.mod_upper_bound i p ltac:(lia)) as Hm. pose proof (Nat.div_mod i p ltac:(lia)) as Hdm. repeat split; try lia. nia. }
  intros d Hd. repeat (apply in_app_or in Hd; destruct Hd as [Hd|Hd]).
  - assert (L : forall s, forallb (fun c => negb (Ascii.eqb c ","%char) && negb (Ascii.eqb c " "%char) && negb (Ascii.eqb c newline)) s = true ->
      length s <= 63 -> plain_item s /\ length s <= 63) by (intros s H1 H2; split; [apply lit_plain|]; assumption).
    replace (Z.of_nat p - 1)%Z with (Z.of_nat (p - 1)) in Hd by lia. replace (Z.of_nat q - 1)%Z with (Z.of_nat (q - 1)) in Hd by lia.
    destruct Hd as [<-|[<-|[<-|[<-|[<-|[<-|[<-|[<-|[<-|[<-|[]]]]]]]]]]];
      first [apply Hpn; lia | apply L; [reflexivity|cbn; lia]].
  - exact (Hk p d Hd).
  - exact (Hk q d Hd).
  - apply in_map_iff in Hd. destruct Hd as [v [<- Hv]]. apply Hs. destruct (In_nth _ _ 0%R Hv) as [i [Hi Ei]]. rewrite Lw in Hi.
    destruct (Hidx i Hi) as [r [s [Er [Hr [Hss Hrs]]]]]. subst i. rewrite Nw in Ei by assumption. right. right.
    exists (s * q + r), 0. fold p q. split; [assumption|]. split; [lia|]. left. symmetry. exact Ei.
  - apply in_flat_map in Hd. destruct Hd as [i [Hi Hd]]. apply in_seq in Hi.
    destruct (Hidx i ltac:(lia)) as [r [s [Er [Hr [Hss Hrs]]]]]. subst i.
    assert (Y : forall k, k < 3 -> plain_item (show (nth (r * p + s) (c k) 0%R)) /\ length (show (nth (r * p + s) (c k) 0%R)) <= 63).
    { intros k Hk3. apply Hs. rewrite Nc by assumption. right. right. exists (s * q + r), k. fold p q. split; [assumption|]. split; [assumption|]. right. reflexivity. }
    destruct Hd as [<-|[<-|[<-|[]]]]; apply Y; lia.
  - destruct Hd as [<-|[<-|[<-|[<-|[<-|[<-|[]]]]]]]; (split; [apply lit_plain; reflexivity|cbn; lia]).
Qed.

(** ** all parameter sections *)
Definition file_patch (P : patch) : Prop :=
  bezier_patch P /\ (forall i, i < p_degx P * p_degy P -> nth (4 * i + 3) (p_data P) 0%R <> 0%R) /\ printable P.
Definition section_of (P : patch) (sec : list text) : Prop := exists ds, writePatchData show true P = Some ds /\ sec = makeSection ds 64.

Lemma section_nonempty : forall data width, makeSection data width <> [].
Proof.
  intros data width. unfold makeSection. assert (X : forall d line out, section_loop width d line out <> []).
  { induction d as [|x d IH]; intros line out; cbn [section_loop]; [destruct out; discriminate|]. destruct (_ <? _); apply IH. }
  apply X.
Qed.

Lemma section_lines : forall P sec l, file_patch P -> section_of P sec -> In l sec -> length l <= 64 /\ no_newline l.
Proof.
  intros P sec l [HP [Hw Hs]] [ds [E ->]] Hl. destruct (items_plain P ds HP Hw Hs E) as [Pl Ln].
  destruct (makeSection_made ds 64) as [gs [E1 [E2 E3]]]. split.
  - apply (E3 64); auto. intros d Hd. specialize (Ln d Hd). lia.
  - apply Forall_forall. intros c Hc. apply Ascii.eqb_neq. destruct (line_chars ds 64 l c Hl Hc) as [->|[->|[d [Hd Hcd]]]]; try discriminate.
    rewrite Forall_forall in Pl. apply (Pl d Hd c Hcd).
Qed.

Lemma all_rows_cons : forall sections i first rN rest, no_newline rN -> (forall sec l, In sec sections -> In l sec -> no_newline l) ->
  (forall sec, In sec sections -> sec <> []) ->
  exists r rs, all_parameter_rows i first sections ++ rN :: rest = r :: rs /\ no_newline r.
Proof.
  intros [|sec sections] i first rN rest Hn Hl Hs; [exists rN, rest; auto|]. cbn [all_parameter_rows].
  assert (Ne : sec <> []) by (apply Hs; left; reflexivity).
  destruct (parameter_rows (1 + 2 * i) first sec) as [|r rs] eqn:Er; [destruct sec; [congruence|discriminate]|]. cbn [app].
  do 2 eexists. split; [reflexivity|]. apply (param_row_newline (1 + 2 * i) first sec); [intros; eapply Hl; [left; reflexivity|assumption]|rewrite Er; left; reflexivity].
Qed.

Lemma read_parameters_ok : forall inv junk, rd 0 = 0%R -> rd 1 = 1%R -> forall G sections i first rN rest out row0 rows,
  Forall file_patch G -> Forall2 section_of G sections -> no_newline rN ->
  all_parameter_rows i first sections ++ rN :: rest = row0 :: rows ->
  exists G', read_parameters inv junk (map Z.of_nat (map (@length text) sections)) (Stream (as_text rows) false false) row0 out = Some (out ++ G')
    /\ Forall2 (reread_patch rd) G G'.
Proof.
  intros inv junk R0 R1 G. induction G as [|P G IH]; intros sections i first rN rest out row0 rows HG HS Hn Er.
  - inversion HS. subst sections. exists []. cbn. rewrite app_nil_r. split; [reflexivity|constructor].
  - inversion HS as [|? sec ? secs Hsec Hsecs]. subst. inversion_clear HG as [|? ? HP HG'].
    cbn [all_parameter_rows] in Er. rewrite <- app_assoc in Er.
    destruct (all_rows_cons secs (S i) (first + length sec) rN rest Hn) as [r2 [rs2 [E2 N2]]].
    { clear - HG' Hsecs. induction Hsecs as [|P sec G secs H Hs IH]; intros s l Hi Hl; [destruct Hi|]. inversion_clear HG' as [|? ? HP HG].
      destruct Hi as [<-|Hi]; [apply (section_lines P sec); assumption|eauto]. }
    { clear - Hsecs. induction Hsecs as [|P sec G secs H Hs IH]; intros s Hi; [destruct Hi|]. destruct Hi as [<-|Hi]; [|auto].
      destruct H as [ds [_ ->]]. apply section_nonempty. }
    rewrite E2 in Er. destruct HP as [HB [HW HPr]]. destruct Hsec as [ds [Ed Es]]. 
    destruct (items_plain P ds HB HW HPr Ed) as [Pl Ln]. cbn [map read_parameters]. rewrite Nat2Z.id. subst sec.
    rewrite (read_lines_ok ds (1 + 2 * i) first r2 rs2 [] row0 rows Pl Ln N2 Er). cbn [bind].
    destruct (patch_back inv junk P ds HB HW R0 R1 Ed) as [Q [EQ HQ]]. rewrite EQ. cbn [bind].
    destruct (IH secs (S i) (first + length (makeSection ds 64)) rN rest (out ++ [Q]) r2 rs2 HG' Hsecs Hn E2) as [G' [E' F]].
    rewrite E'. exists (Q :: G'). rewrite <- app_assoc. split; [reflexivity|constructor; assumption].
Qed.

Lemma sections_exist : forall G, Forall file_patch G -> exists secs,
  map_opt (fun P => d <- writePatchData show true P ;; Some (makeSection d 64)) G = Some secs /\ Forall2 section_of G secs.
Proof.
  intros G H. induction H as [|P G [HB [HW HPr]] H IH]; [exists []; split; [reflexivity|constructor]|].
  destruct IH as [secs [E F]]. destruct (write_data P HB HW) as [w [c [Ew _]]]. cbv zeta in Ew. cbn [map_opt]. rewrite Ew. cbn [bind]. rewrite E. cbn [bind].
  eexists. split; [reflexivity|]. constructor; [|assumption]. eexists. split; [exact Ew|reflexivity].
Qed.

Lemma terminate_newline : forall a b c, no_newline (terminate_row a b c).
Proof.
  intros a b c. unfold terminate_row. apply Forall_app. split; [|nonl]. apply no_newline_left. nonl.
Qed.

Lemma global_lines : forall name date l, length name <= 71 -> length date <= 71 -> one_line name -> one_line date ->
  In l (makeSection (global_items name date) 72) -> length l <= 72 /\ no_newline l.
Proof.
  intros name date l Ln Ld On Od Hl. destruct (makeSection_made (global_items name date) 72) as [gs [E1 [E2 E3]]].
  assert (X : forall d, In d (global_items name date) -> length d <= 71 /\ ~ In newline d).
  { intros d Hd. unfold global_items in Hd. repeat destruct Hd as [Hd|Hd]; try subst d; try (split; assumption); try (split; [cbn; lia|cbn; intros H; repeat destruct H as [H|H]; solve [discriminate|exact H]]).
    destruct Hd. }
  split.
  - apply (E3 72); auto. intros d Hd. destruct (X d Hd). lia.
  - apply Forall_forall. intros c Hc. apply Ascii.eqb_neq. destruct (line_chars _ 72 l c Hl Hc) as [->|[->|[d [Hd Hcd]]]]; try discriminate.
    intros ->. destruct (X d Hd) as [_ N]. exact (N Hcd).
Qed.

(** ** the file *)
Lemma load_rows : forall inv junk G secs h0 hs T, rd 0 = 0%R -> rd 1 = 1%R -> G <> [] -> Forall file_patch G -> Forall2 section_of G secs ->
  no_newline T -> (Z.of_nat (1 + lsum_nat (map (@length text) secs)) < 10 ^ 7)%Z ->
  char72 h0 = Some "S"%char -> no_newline h0 -> (forall r, In r hs -> no_newline r /\ exists c, char72 r = Some c /\ c <> "D"%char) ->
  exists G', LoadGeometryFileIGS inv junk (as_text (h0 :: hs ++ directory_rows 0 1 (map (@length text) secs) ++ all_parameter_rows 0 1 secs ++ [T])) = Some G'
    /\ Forall2 (reread_patch rd) G G'.
Proof.
  intros inv junk G secs h0 hs T R0 R1 NG HG F NT Hsum Ch0 Nh0 Hhs.
  set (sizes := map (@length text) secs) in *.
  assert (LGs : length G = length secs) by (clear - F; induction F; cbn; congruence).
  assert (Lsz : length sizes <= lsum_nat sizes).
  { unfold sizes. clear - F. induction F as [|P sec G secs H F IH]; [cbn; lia|]. cbn [map length]. unfold lsum_nat. cbn [fold_right]. fold (lsum_nat (map (@length text) secs)).
    destruct H as [ds [_ ->]]. pose proof (section_nonempty ds 64). destruct (makeSection ds 64); [congruence|]. cbn [length]. lia. }
  destruct (all_rows_cons secs 0 1 T []) as [rP [restP [EP NP]]]; [assumption| | |].
  { clear - HG F. induction F as [|P sec G secs H Hs IH]; intros s l Hi Hl; [destruct Hi|]. inversion_clear HG as [|? ? HP HG'].
    destruct Hi as [<-|Hi]; [apply (section_lines P sec); assumption|eauto]. }
  { clear - F. induction F as [|P sec G secs H Hs IH]; intros s Hi; [destruct Hi|]. destruct Hi as [<-|Hi]; [|auto].
    destruct H as [ds [_ ->]]. apply section_nonempty. }
  assert (CP : char72 rP = Some "P"%char).
  { destruct F as [|P sec G secs H Hs]; [congruence|]. inversion_clear HG as [|? ? HP HG']. cbn [all_parameter_rows] in EP.
    assert (Ne : sec <> []) by (destruct H as [ds [_ ->]]; apply section_nonempty).
    apply (param_row_char (1 + 2 * 0) 1 sec); [intros l Hl; apply (section_lines P sec); assumption|lia|].
    destruct sec as [|l sec]; [congruence|]. cbn [parameter_rows app] in EP |- *. left. 
    apply (f_equal (hd [])) in EP. cbn [hd] in EP. exact EP. }
  destruct (read_parameters_ok inv junk R0 R1 G secs 0 1 T [] [] rP restP HG F NT EP) as [G' [EG FG]]. fold sizes in EG.
  exists G'. split; [|exact FG].
  assert (ED : exists rD restD, directory_rows 0 1 sizes = rD :: restD /\ rD = directory_row1 0 1).
  { unfold sizes. destruct secs; [destruct G; [congruence|discriminate]|]. cbn [map directory_rows]. eexists; eexists; split; reflexivity. }
  clearbody sizes. rewrite EP. clear EP.
  destruct ED as [rD [restD [ED ErD]]]. rewrite ED.
  destruct (row1_ok 0 1) as [CD [ND _]]; [lia|lia|]. rewrite <- ErD in CD, ND. clear ErD.
  unfold LoadGeometryFileIGS. unfold open_stream.
  replace (h0 :: hs ++ (rD :: restD) ++ rP :: restP) with (h0 :: hs ++ rD :: (restD ++ rP :: restP)) by reflexivity.
  rewrite rows_getline by assumption.
  rewrite Ch0. cbn [bind]. change (Ascii.eqb "S" "S") with true. cbn [assert bind].
  assert (Lc : forall rows, length rows <= length (as_text rows)).
  { clear. induction rows as [|r rows IH]; [cbn; lia|]. unfold as_text in *. cbn [flat_map length]. rewrite !app_length. cbn [length]. lia. }
  assert (Lct : length (h0 :: hs ++ rD :: (restD ++ rP :: restP)) <= length (as_text (h0 :: hs ++ rD :: (restD ++ rP :: restP)))) by apply Lc.
  set (fuel := length (as_text (h0 :: hs ++ rD :: (restD ++ rP :: restP)))) in *. clearbody fuel. clear Lc.
  rewrite (skip_rows_ok hs h0 rD (restD ++ rP :: restP) fuel); [| | |exact ND|exact CD|].
  - cbn [bind].
    rewrite (read_directory_ok sizes 0 1 rP restP [] fuel rD (restD ++ rP :: restP)); [exact EG| | | | |exact CP|exact NP].
    + rewrite ED. reflexivity.
    + assert (LD : length sizes <= length (rD :: restD)).
      { rewrite <- ED. clear. generalize 0, 1. induction sizes as [|n s IH]; intros a b; cbn [directory_rows length]; [lia|]. specialize (IH (S a) (b + n)). lia. }
      cbn [length] in Lct, LD. rewrite !app_length in Lct. cbn [length] in Lct. rewrite app_length in Lct. cbn [length] in Lct. lia.
    + exact Hsum.
    + lia.
  - intros r [<-|Hr]; [eexists; split; [exact Ch0|discriminate]|]. apply Hhs. assumption.
  - intros r Hr. apply Hhs. assumption.
  - cbn [length] in Lct. rewrite app_length in Lct. cbn [length] in Lct. lia.
Qed.

Lemma header_facts : forall r, In r header_rows -> char72 r = Some "S"%char /\ no_newline r.
Proof.
  unfold header_rows. intros r Hr. apply (section_row_facts "S"%char) in Hr; [exact Hr|discriminate|].
  intros s [<-|[<-|[<-|[<-|[]]]]]; (split; [apply Nat.leb_le; reflexivity|repeat constructor]).
Qed.
Lemma global_eq : forall name date, global_rows name date = section_rows "G"%char 0 (makeSection (global_items name date) 72).
Proof. reflexivity. Qed.
Lemma global_facts : forall name date r, length name <= 71 -> length date <= 71 -> one_line name -> one_line date ->
  In r (global_rows name date) -> char72 r = Some "G"%char /\ no_newline r.
Proof.
  intros name date r Ln Ld On Od Hr. rewrite global_eq in Hr. pose proof (global_lines name date) as GL.
  generalize dependent (makeSection (global_items name date) 72). intros sec Hr GL. apply (section_row_facts "G"%char sec 0 r); [discriminate|auto|exact Hr].
Qed.
Lemma header_some : header_rows <> [].
Proof. discriminate. Qed.
Lemma load_written_igs : forall inv junk G name date, rd 0 = 0%R -> rd 1 = 1%R -> G <> [] -> Forall file_patch G ->
  length name <= 71 -> length date <= 71 -> one_line name -> one_line date ->
  (forall secs, Forall2 section_of G secs -> (Z.of_nat (1 + lsum_nat (map (@length text) secs)) < 10 ^ 7)%Z) ->
  exists t G', writeIGSFile show true G name date = Some t /\ LoadGeometryFileIGS inv junk t = Some G' /\ Forall2 (reread_patch rd) G G'.
Proof.
  intros inv junk G name date R0 R1 NG HG Ln Ld On Od Hsum. destruct (sections_exist G HG) as [secs [E F]].
  unfold writeIGSFile. rewrite E. cbn [bind].
  set (T := terminate_row _ _ _). assert (NT : no_newline T) by apply terminate_newline. clearbody T.
  pose proof header_facts as FH. pose proof (fun r => global_facts name date r Ln Ld On Od) as FGl. pose proof header_some as NH.
  generalize dependent (global_rows name date). generalize dependent header_rows. intros Hd FH NH Gl FGl.
  destruct Hd as [|h0 hs]; [congruence|]. destruct (FH h0 (or_introl eq_refl)) as [C0 N0].
  destruct (load_rows inv junk G secs h0 (hs ++ Gl) T R0 R1 NG HG F NT (Hsum secs F) C0 N0) as [G' [EG FG]].
  { intros r Hr. apply in_app_or in Hr. destruct Hr as [Hr|Hr].
    - destruct (FH r (or_intror Hr)) as [C N]. split; [exact N|]. eexists. split; [exact C|discriminate].
    - destruct (FGl r Hr) as [C N]. split; [exact N|]. eexists. split; [exact C|discriminate]. }
  eexists. exists G'. split; [reflexivity|]. split; [|exact FG].
  rewrite <- EG. f_equal. f_equal. cbn [app]. rewrite <- app_assoc. reflexivity.
Qed.
End Show.
