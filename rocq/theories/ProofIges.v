(** Sections, rows and directory of IGES files. *)
From Coq Require Import Bool Ascii String ZArith Reals List Arith Lia Lra.
From Verif Require Import ModelBase ModelText ModelKnots ModelPatch ModelDat ModelIges SpecPatch SpecDat SpecIges ProofText ProofPatchInit ProofDat.
Import ListNotations.
Local Open Scope bool_scope.
Local Open Scope nat_scope.

(** ** makeSection *)
Lemma section_loop_made : forall width data line out g,
  line = concat g ->
  exists groups, concat groups = g ++ terminated data /\ section_loop width data line out = out ++ map (@concat ascii) groups
    /\ (forall n, length line <= n -> width <= n -> (forall d, In d data -> length d + 1 <= n) ->
        forall grp, In grp groups -> length (concat grp) <= n).
Proof.
  intros width data. induction data as [|d r IH]; intros line out g Hg.
  - exists [g]. cbn. rewrite !app_nil_r. split; [reflexivity|]. split; [rewrite Hg; reflexivity|].
    intros n Hn _ _ grp [<-|[]]. rewrite <- Hg. assumption.
  - cbn [section_loop]. set (item := d ++ match r with [] => lit ";" | _ => lit "," end).
    assert (Ht : terminated (d :: r) = item :: terminated r) by (unfold item; destruct r; reflexivity). rewrite Ht.
    assert (Li : length item = length d + 1) by (unfold item; rewrite app_length; destruct r; reflexivity).
    destruct (Nat.ltb_spec width (length line + length item)) as [Hw|Hw].
    + destruct (IH item (out ++ [line]) [item] ltac:(cbn; rewrite app_nil_r; reflexivity)) as [gr [E1 [E2 E3]]].
      exists (g :: gr). cbn [concat map]. rewrite E1. split; [reflexivity|]. split; [etransitivity; [exact E2|]; rewrite <- app_assoc, Hg; reflexivity|].
      intros n Hn Hwn Hd grp [<-|Hin]; [rewrite <- Hg; assumption|]. apply E3; auto.
      * rewrite Li. apply Hd. left. reflexivity.
      * intros; apply Hd. right. assumption.
    + destruct (IH (line ++ item) out (g ++ [item])) as [gr [E1 [E2 E3]]].
      * rewrite concat_app, Hg. cbn. rewrite app_nil_r. reflexivity.
      * exists gr. rewrite E1, <- app_assoc. split; [reflexivity|]. split; [exact E2|].
        intros n Hn Hwn Hd grp Hin. apply E3; auto; [rewrite app_length; lia|]. intros; apply Hd. right. assumption.
Qed.
Lemma makeSection_made : forall data width, exists groups, concat groups = terminated data /\
  makeSection data width = map (@concat ascii) groups /\
  forall n, width <= n -> (forall d, In d data -> length d + 1 <= n) -> forall l, In l (makeSection data width) -> length l <= n.
Proof.
  intros data width. destruct (section_loop_made width data [] [] [] eq_refl) as [g [E1 [E2 E3]]].
  exists g. split; [exact E1|]. split; [exact E2|]. intros n Hw Hd l Hl. unfold makeSection in Hl. rewrite E2 in Hl. cbn [app] in Hl.
  apply in_map_iff in Hl. destruct Hl as [grp [<- Hg]]. apply E3; auto. cbn. lia.
Qed.
Lemma in_terminated : forall data x, In x (terminated data) -> exists d, In d data /\ (x = d ++ lit "," \/ x = d ++ lit ";").
Proof.
  induction data as [|d r IH]; intros x Hx; [destruct Hx|]. destruct r as [|e r].
  - destruct Hx as [<-|[]]. exists d. split; [left|]; auto.
  - change (terminated (d :: e :: r)) with ((d ++ lit ",") :: terminated (e :: r)) in Hx. destruct Hx as [<-|Hx].
    + exists d. split; [left|]; auto.
    + destruct (IH x Hx) as [y [Hy E]]. exists y. split; [right|]; assumption.
Qed.
(** a character of a line is a separator or belongs to an item *)
Lemma line_chars : forall data width l c, In l (makeSection data width) -> In c l ->
  c = ","%char \/ c = ";"%char \/ exists d, In d data /\ In c d.
Proof.
  intros data width l c Hl Hc. destruct (makeSection_made data width) as [g [E1 [E2 _]]]. rewrite E2 in Hl.
  apply in_map_iff in Hl. destruct Hl as [grp [<- Hg]]. apply in_concat in Hc. destruct Hc as [x [Hx Hc]].
  assert (Ht : In x (terminated data)) by (rewrite <- E1; apply in_concat; eauto).
  destruct (in_terminated data x Ht) as [d [Hd [->| ->]]]; apply in_app_or in Hc; destruct Hc as [Hc|[<-|[]]]; eauto.
Qed.

(** ** the terminating semicolon is not part of the number *)
Lemma span_semi : forall f s, f ";"%char = false -> span f (s ++ [";"%char]) = (fst (span f s), snd (span f s) ++ [";"%char]).
Proof.
  intros f s H. induction s as [|c s IH]; [cbn; rewrite H; reflexivity|]. cbn [app span]. destruct (f c); [rewrite IH; destruct (span f s)|]; reflexivity.
Qed.
Lemma scan_sign_semi : forall s, scan_sign (s ++ [";"%char]) = (fst (scan_sign s), snd (scan_sign s) ++ [";"%char]).
Proof. intros [|c s]; [reflexivity|]. cbn [app scan_sign]. destruct Ascii.eqb; [reflexivity|]. destruct Ascii.eqb; reflexivity. Qed.
Lemma scan_exponent_semi : forall s, scan_exponent (s ++ [";"%char]) = scan_exponent s.
Proof.
  intros [|c s]; [reflexivity|]. cbn [app scan_exponent]. destruct (_ || _); [|reflexivity].
  rewrite scan_sign_semi. destruct (scan_sign s) as [sg t]. cbn [fst snd]. rewrite span_semi by reflexivity. reflexivity.
Qed.
Lemma scan_number_semi : forall s, scan_number (s ++ lit ";") = scan_number s.
Proof.
  intros s. change (lit ";") with [";"%char]. unfold scan_number. rewrite span_semi by reflexivity. cbn [snd]. rewrite scan_sign_semi.
  destruct (scan_sign (snd (span is_space s))) as [sg t]. cbn [fst snd]. rewrite span_semi by reflexivity.
  destruct (span is_digit t) as [ip t1]. cbn [fst snd].
  destruct t1 as [|c r]; cbn [app].
  - change (Ascii.eqb ";" ".") with false. cbv iota. destruct (ip ++ []); reflexivity.
  - destruct (Ascii.eqb c "."); [|destruct (ip ++ []); [reflexivity|]].
    + rewrite span_semi by reflexivity. destruct (span is_digit r) as [fp t2]. cbn [fst snd]. destruct (ip ++ fp); [reflexivity|].
      rewrite scan_exponent_semi. reflexivity.
    + change (c :: r ++ [";"%char]) with ((c :: r) ++ [";"%char]). rewrite scan_exponent_semi. reflexivity.
Qed.
Lemma atof_semi : forall s, atof (s ++ lit ";") = atof s.
Proof. intros. unfold atof. rewrite scan_number_semi. reflexivity. Qed.

(** ** reading the items of a line *)
Definition no_comma (s : text) : Prop := Forall (fun c => Ascii.eqb c ","%char = false) s.
Lemma getline_tail : forall d s old, Forall (fun c => Ascii.eqb c d = false) s -> s <> [] ->
  getline_delim d (Stream s false false) old = (Stream [] true false, s).
Proof.
  intros d s old H N. unfold getline_delim, good. cbn [eofbit failbit negb andb rest]. rewrite span_end.
  - destruct s; [congruence|reflexivity].
  - eapply Forall_impl; [|exact H]. cbn. intros c ->. reflexivity.
Qed.
Lemma read_commas : forall ws fuel old data, Forall no_comma ws -> length (concat (map (fun w => w ++ lit ",") ws)) < fuel ->
  exists old' fuel', 0 < fuel' /\ forall tail, length (concat (map (fun w => w ++ lit ",") ws)) + length tail < fuel -> length tail < fuel' /\
   read_items fuel (Stream (concat (map (fun w => w ++ lit ",") ws) ++ tail) false false) old data
   = read_items fuel' (Stream tail false false) old' (data ++ map atof ws).
Proof.
  induction ws as [|w ws IH]; intros fuel old data H Hf.
  - exists old, fuel. split; [cbn in Hf; lia|]. intros tail Ht. cbn in Ht |- *. rewrite app_nil_r. split; [lia|reflexivity].
  - inversion_clear H as [|? ? Hw Hws]. cbn [map concat] in Hf |- *. rewrite !app_length in Hf. change (length (lit ",")) with 1 in Hf.
    destruct fuel as [|fuel]; [lia|].
    destruct (IH fuel w (data ++ [atof w]) Hws) as [old' [f' [Hf' E]]]; [lia|].
    exists old', f'. split; [assumption|]. intros tail Ht. rewrite !app_length in Ht. change (length (lit ",")) with 1 in Ht.
    destruct (E tail) as [E1 E2]; [lia|]. split; [assumption|]. cbn [read_items].
    rewrite <- !app_assoc. change (lit "," ++ concat (map (fun w => w ++ lit ",") ws) ++ tail) with (","%char :: (concat (map (fun w => w ++ lit ",") ws) ++ tail)).
    rewrite getline_delim_ok by assumption. cbn [failbit]. rewrite E2, <- app_assoc. reflexivity.
Qed.
Lemma read_items_end : forall fuel old data, read_items fuel (Stream [] false false) old data = Some ([], data).
Proof. intros. destruct fuel; reflexivity. Qed.
Lemma read_line_items : forall ws old data, Forall no_comma ws ->
  exists old', read_items (S (length (concat (map (fun w => w ++ lit ",") ws)))) (open_stream (concat (map (fun w => w ++ lit ",") ws))) old data
    = Some (old', data ++ map atof ws).
Proof.
  intros ws old data H. destruct (read_commas ws (S (length (concat (map (fun w => w ++ lit ",") ws)))) old data H) as [o [f [Hf E]]]; [lia|].
  destruct (E []) as [_ E']; [cbn; lia|]. rewrite app_nil_r in E'. unfold open_stream. rewrite E'. rewrite read_items_end. eauto.
Qed.
Lemma read_last_line : forall ws w old data, Forall no_comma ws -> no_comma w ->
  exists old', read_items (S (length (concat (map (fun w => w ++ lit ",") ws) ++ w ++ lit ";")))
     (open_stream (concat (map (fun w => w ++ lit ",") ws) ++ w ++ lit ";")) old data = Some (old', data ++ map atof (ws ++ [w])).
Proof.
  intros ws w old data H Hw.
  destruct (read_commas ws (S (length (concat (map (fun w => w ++ lit ",") ws) ++ w ++ lit ";"))) old data H) as [o [f [Hf E]]]; [rewrite app_length; lia|].
  destruct (E (w ++ lit ";")) as [E1 E']; [rewrite !app_length; lia|]. unfold open_stream. rewrite E'. clear E E'.
  destruct f as [|[|f]]; [lia| rewrite app_length in E1; cbn in E1; lia|]. cbn [read_items].
  rewrite getline_tail; [|apply Forall_app; split; [assumption|repeat constructor]|destruct w; discriminate]. cbn [failbit].
  change (getline_delim ","%char (Stream [] true false) (w ++ lit ";")) with (Stream [] true true, w ++ lit ";"). cbn [failbit].
  eexists. rewrite map_app, app_assoc. cbn [map]. rewrite atof_semi. reflexivity.
Qed.

(** ** rows *)
Lemma rows_getline : forall r rs old, no_newline r -> getline (Stream (as_text (r :: rs)) false false) old = (Stream (as_text rs) false false, r).
Proof. intros r rs old H. unfold as_text. cbn [flat_map]. rewrite <- app_assoc. apply getline_ok. assumption. Qed.
Lemma left_w_length : forall w s, length s <= w -> length (left_w w s) = w.
Proof. intros. unfold left_w. rewrite app_length, repeat_length. lia. Qed.
Lemma right_w_length : forall w s, length s <= w -> length (right_w w s) = w.
Proof. intros. unfold right_w. rewrite app_length, repeat_length. lia. Qed.
Lemma char72_ok : forall a c b, length a = 72 -> char72 (a ++ c :: b) = Some c.
Proof.
  intros a c b H. unfold char72, get. rewrite <- app_assoc. rewrite nth_error_app2 by lia. rewrite H, Nat.sub_diag. reflexivity.
Qed.
Lemma no_newline_repeat : forall n, no_newline (repeat " "%char n).
Proof. induction n; constructor; [reflexivity|assumption]. Qed.
Lemma no_newline_right : forall w s, no_newline s -> no_newline (right_w w s).
Proof. intros. apply Forall_app. split; [apply no_newline_repeat|assumption]. Qed.
Lemma no_newline_left : forall w s, no_newline s -> no_newline (left_w w s).
Proof. intros. apply Forall_app. split; [assumption|apply no_newline_repeat]. Qed.
Lemma no_newline_nat : forall n, no_newline (print_nat n).
Proof. intros. apply not_space_no_newline, print_int_word. Qed.

Lemma section_row_facts : forall ch sec index r, ch <> newline -> (forall s, In s sec -> length s <= 72 /\ no_newline s) ->
  In r (section_rows ch index sec) -> char72 r = Some ch /\ no_newline r.
Proof.
  intros ch sec. induction sec as [|s sec IH]; intros index r Hch H Hr; [destruct Hr|]. destruct Hr as [<-|Hr].
  - destruct (H s (or_introl eq_refl)) as [Hl Hn]. split; [apply char72_ok, left_w_length; assumption|].
    apply Forall_app. split; [apply no_newline_left; assumption|]. constructor; [apply Ascii.eqb_neq; assumption|].
    apply no_newline_right, no_newline_nat.
  - apply (IH (S index)); auto. intros; apply H; right; assumption.
Qed.

(** skipping rows that are not of the directory *)
Lemma skip_rows_ok : forall rows r0 rD rest fuel, (forall r, In r (r0 :: rows) -> exists c, char72 r = Some c /\ c <> "D"%char) ->
  (forall r, In r rows -> no_newline r) -> no_newline rD -> char72 rD = Some "D"%char -> length rows + 1 <= fuel ->
  skip_to_D fuel (Stream (as_text (rows ++ rD :: rest)) false false) r0 = Some (Stream (as_text rest) false false, rD).
Proof.
  intros rows. induction rows as [|r rows IH]; intros r0 rD rest fuel Hc Hn HnD HD Hf; destruct fuel as [|fuel]; [cbn in Hf; lia| |cbn in Hf; lia|].
  - cbn [app skip_to_D]. destruct (Hc r0 (or_introl eq_refl)) as [c [Ec Nc]]. rewrite Ec. cbn [bind].
    replace (Ascii.eqb c "D") with false by (symmetry; apply Ascii.eqb_neq; assumption).
    rewrite rows_getline by assumption. cbn [eofbit negb assert bind]. destruct fuel; cbn [skip_to_D]; rewrite HD; reflexivity.
  - cbn [app skip_to_D]. destruct (Hc r0 (or_introl eq_refl)) as [c [Ec Nc]]. rewrite Ec. cbn [bind].
    replace (Ascii.eqb c "D") with false by (symmetry; apply Ascii.eqb_neq; assumption).
    rewrite rows_getline by (apply Hn; left; reflexivity). cbn [eofbit negb assert bind]. apply IH; auto.
    + intros r' Hr'. apply Hc. right. assumption.
    + intros r' Hr'. apply Hn. right. assumption.
    + cbn in Hf. lia.
Qed.

(** ** directory rows *)
Definition tokens (l : list (text * text)) : text := concat (map (fun t => fst t ++ snd t) l).
Definition token_ok (t : text * text) : Prop := spaces (fst t) /\ fst t <> [] /\ word_ok (snd t).
Lemma read_tokens : forall l zs fuel old acc, Forall token_ok l -> map_opt stoi (map snd l) = Some zs -> length l <= fuel -> l <> [] ->
  exists st w, read_ints fuel (Stream (tokens l) false false) old acc = Some (st, w, acc ++ zs).
Proof.
  induction l as [|[ws w] l IH]; intros zs fuel old acc H Hz Hf Hl; [congruence|]. clear Hl.
  inversion_clear H as [|? ? [Hws [Nws Hw]] Hl]. cbn [fst snd] in *. cbn [map map_opt snd] in Hz.
  apply bind_some in Hz. destruct Hz as [z [Ez Hz]]. apply bind_some in Hz. destruct Hz as [zs' [Ezs Hz]]. injection Hz as <-.
  destruct fuel as [|fuel]; [cbn in Hf; lia|].
  destruct l as [|[ws2 w2] l].
  - unfold tokens. cbn [map concat fst snd]. rewrite app_nil_r. cbn [read_ints]. rewrite extract_last by assumption. cbn [failbit].
    rewrite Ez. cbn [bind]. cbn in Ezs. injection Ezs as <-.
    assert (X : forall i, read_ints fuel (Stream [] true false) w i = Some (Stream [] true true, w, i)) by (destruct fuel; reflexivity).
    rewrite X. eauto.
  - assert (E : exists c r, ws2 ++ w2 ++ tokens l = c :: r /\ is_space c = true /\ tokens ((ws2, w2) :: l) = c :: r).
    { inversion_clear Hl as [|? ? [Hs2 [N2 _]] _]. cbn [fst] in Hs2, N2. destruct ws2 as [|c ws2]; [congruence|]. exists c, (ws2 ++ w2 ++ tokens l).
      split; [reflexivity|]. split; [inversion_clear Hs2; assumption|]. unfold tokens. cbn [map concat fst snd]. rewrite <- app_assoc. reflexivity. }
    destruct E as [c [r [_ [Hc Et]]]].
    assert (Et' : tokens ((ws, w) :: (ws2, w2) :: l) = ws ++ w ++ c :: r).
    { rewrite <- Et. unfold tokens. cbn [map concat fst snd]. rewrite <- !app_assoc. reflexivity. }
    rewrite Et'. cbn [read_ints]. rewrite extract_word by assumption. cbn [failbit]. rewrite Ez. cbn [bind]. rewrite <- Et.
    destruct (IH zs' fuel w (acc ++ [z]) Hl Ezs) as [st [w' E']]; [cbn in *; lia|discriminate|]. rewrite E', <- app_assoc. eauto.
Qed.

Lemma dec_loop_length : forall fuel z acc k, (0 <= z < 10 ^ Z.of_nat k)%Z -> 1 <= k -> length (dec_loop fuel z acc) <= k + length acc.
Proof.
  induction fuel as [|f IH]; intros z acc k Hz Hk; [cbn; lia|]. cbn [dec_loop]. destruct (Z.eqb_spec (z / 10) 0) as [E|E]; [cbn [length]; lia|].
  destruct k as [|[|k]]; [lia| |].
  - change (10 ^ Z.of_nat 1)%Z with 10%Z in Hz. exfalso. apply E. apply Z.div_small. lia.
  - etransitivity; [apply (IH _ _ (S k))|cbn [length]; lia]; [|lia]. rewrite Nat2Z.inj_succ, Z.pow_succ_r in Hz by lia.
    split; [apply Z.div_pos; lia|]. apply Z.div_lt_upper_bound; lia.
Qed.
Lemma print_nat_length : forall n k, (Z.of_nat n < 10 ^ Z.of_nat k)%Z -> 1 <= k -> length (print_nat n) <= k.
Proof.
  intros n k H Hk. unfold print_nat, print_int. replace (Z.of_nat n <? 0)%Z with false by (symmetry; apply Z.ltb_ge; lia).
  unfold dec. etransitivity; [apply (dec_loop_length _ _ _ k); [lia|assumption]|cbn; lia].
Qed.
Lemma right_token : forall w s, length s < w -> word_ok s -> token_ok (repeat " "%char (w - length s), s).
Proof.
  intros w s H Hs. split; [|split; [|assumption]]; cbn [fst].
  - apply Forall_forall. intros c Hc. apply repeat_spec in Hc. subst c. reflexivity.
  - destruct (w - length s) eqn:E; [lia|discriminate].
Qed.
Lemma zero_token : token_ok (lit "       ", lit "0").
Proof. split; [repeat constructor|]. split; [discriminate|]. split; [discriminate|repeat constructor]. Qed.

(** the last words of a directory row *)
Lemma end_tokens : forall n ws, (Z.of_nat n < 10 ^ 8)%Z -> spaces ws -> ws <> [] -> exists l,
  tokens l = ws ++ lit "0D" ++ right_w 7 (print_nat n) /\ Forall token_ok l /\ l <> [] /\ length l <= 2
  /\ exists z, map_opt stoi (map snd l) = Some (0%Z :: z).
Proof.
  intros n ws Hn Hws Nws. destruct (le_lt_dec 7 (length (print_nat n))) as [H|H].
  - exists [(ws, lit "0D" ++ print_nat n)]. unfold tokens. cbn [map concat fst snd]. rewrite app_nil_r. unfold right_w.
    replace (7 - length (print_nat n)) with 0 by lia. split; [reflexivity|]. split.
    + constructor; [|constructor]. split; [assumption|]. split; [assumption|]. cbn [snd]. split; [discriminate|].
      apply Forall_app. split; [repeat constructor|]. apply print_int_word.
    + split; [discriminate|]. split; [cbn; lia|]. exists []. reflexivity.
  - exists [(ws, lit "0D"); (repeat " "%char (7 - length (print_nat n)), print_nat n)].
    unfold tokens. cbn [map concat fst snd]. rewrite app_nil_r, <- app_assoc. split; [reflexivity|]. split.
    + constructor; [|constructor; [|constructor]].
      * split; [assumption|]. split; [assumption|]. split; [discriminate|repeat constructor].
      * apply right_token; [assumption|apply print_int_word].
    + split; [discriminate|]. split; [cbn; lia|]. exists [Z.of_nat n]. cbn [map_opt map snd]. change (stoi (lit "0D")) with (Some 0%Z). cbn [bind].
      unfold print_nat. rewrite stoi_print by lia. reflexivity.
Qed.

Lemma tokens_app : forall a b, tokens (a ++ b) = tokens a ++ tokens b.
Proof. intros. unfold tokens. rewrite map_app, concat_app. reflexivity. Qed.
Lemma token_fuel : forall l, Forall token_ok l -> length l <= length (tokens l).
Proof.
  intros l H. induction H as [|[ws w] l [_ [_ [N _]]] H IH]; [cbn; lia|]. unfold tokens in *. cbn [map concat fst snd] in *. rewrite !app_length.
  destruct w; [congruence|]. cbn [length]. lia.
Qed.

Ltac nonl := first
  [ solve [apply no_newline_right; first [apply no_newline_nat|repeat constructor]]
  | solve [repeat constructor]
  | apply Forall_app; split; nonl ].
Lemma row1_ok : forall i start, (Z.of_nat start < 10 ^ 7)%Z -> (Z.of_nat i < 10 ^ 7)%Z ->
  char72 (directory_row1 i start) = Some "D"%char /\ no_newline (directory_row1 i start) /\
  exists st w info, read_ints (length (directory_row1 i start)) (open_stream (directory_row1 i start)) [] [] = Some (st, w, 128%Z :: info).
Proof.
  intros i start Hs Hi. set (n := (i + 1) * 2 - 1).
  assert (Ls : length (print_nat start) <= 7) by (apply print_nat_length; [change (Z.of_nat 7) with 7%Z|]; lia).
  split; [|split].
  - unfold directory_row1. replace (right_w 8 (lit "128") ++ right_w 8 (print_nat start) ++ zero8 ++ zero8 ++ zero8 ++ zero8 ++ zero8 ++ zero8 ++ zero8
      ++ lit "D" ++ right_w 7 (print_nat ((i + 1) * 2 - 1))) with ((right_w 8 (lit "128") ++ right_w 8 (print_nat start) ++ zero8 ++ zero8 ++ zero8 ++ zero8 ++ zero8 ++ zero8 ++ zero8)
      ++ "D"%char :: right_w 7 (print_nat ((i + 1) * 2 - 1))) by (rewrite <- !app_assoc; reflexivity).
    apply char72_ok. rewrite !app_length. rewrite (right_w_length 8 (print_nat start)) by lia. reflexivity.
  - unfold directory_row1. nonl.
  - destruct (end_tokens n (lit "       ")) as [le [Ee [He [Ne [Le [ze Hze]]]]]]; [unfold n; lia|repeat constructor|discriminate|].
    set (l := [(lit "     ", lit "128"); (repeat " "%char (8 - length (print_nat start)), print_nat start);
       (lit "       ", lit "0"); (lit "       ", lit "0"); (lit "       ", lit "0"); (lit "       ", lit "0"); (lit "       ", lit "0"); (lit "       ", lit "0")] ++ le).
    assert (El : directory_row1 i start = tokens l).
    { unfold l. rewrite tokens_app, Ee. unfold directory_row1, tokens. cbn [map concat fst snd]. unfold zero8, right_w at 2.
      fold n. rewrite app_nil_r, <- !app_assoc. reflexivity. }
    assert (Hl : Forall token_ok l).
    { unfold l. apply Forall_app. split; [|assumption]. constructor; [split; [repeat constructor|split; [discriminate|split; [discriminate|repeat constructor]]]|].
      constructor; [apply right_token; [lia|apply print_int_word]|]. repeat (constructor; [exact zero_token|]). constructor. }
    assert (Hz : exists z, map_opt stoi (map snd l) = Some (128%Z :: z)).
    { unfold l. rewrite map_app. assert (Z0 : forall a b za zb, map_opt stoi a = Some za -> map_opt stoi b = Some zb -> map_opt stoi (a ++ b) = Some (za ++ zb)).
      { induction a as [|x a IH]; intros b za zb Ha Hb; [injection Ha as <-; exact Hb|]. cbn [map_opt app] in *. apply bind_some in Ha. destruct Ha as [y [Ey Ha]].
        apply bind_some in Ha. destruct Ha as [za' [Eza Ha]]. injection Ha as <-. rewrite Ey, (IH b za' zb Eza Hb). reflexivity. }
      exists ([Z.of_nat start; 0; 0; 0; 0; 0; 0] ++ 0 :: ze)%Z.
      apply (Z0 _ _ [128; Z.of_nat start; 0; 0; 0; 0; 0; 0]%Z (0 :: ze)%Z); [|exact Hze].
      cbn [map snd map_opt]. change (stoi (lit "128")) with (Some 128%Z). change (stoi (lit "0")) with (Some 0%Z). cbn [bind].
      unfold print_nat. rewrite stoi_print by lia. cbn [bind]. reflexivity. }
    destruct Hz as [z Hz]. rewrite El. unfold open_stream.
    destruct (read_tokens l (128%Z :: z) (length (tokens l)) [] [] Hl Hz) as [st [w E]]; [apply token_fuel; assumption|discriminate|].
    exists st, w, z. exact E.
Qed.
Lemma row2_ok : forall i n st0 w0, (Z.of_nat n < 10 ^ 7)%Z -> (Z.of_nat i < 10 ^ 7)%Z ->
  char72 (directory_row2 i n) = Some "D"%char /\ no_newline (directory_row2 i n) /\
  exists st w info, read_ints (length (directory_row2 i n)) (set_str (directory_row2 i n) (clear st0)) w0 [] = Some (st, w, info) /\ get info 3 = Some (Z.of_nat n).
Proof.
  intros i n st0 w0 Hs Hi. set (m := (i + 1) * 2).
  assert (Ls : length (print_nat n) <= 7) by (apply print_nat_length; [change (Z.of_nat 7) with 7%Z|]; lia).
  split; [|split].
  - unfold directory_row2. replace (right_w 8 (lit "128") ++ zero8 ++ zero8 ++ right_w 8 (print_nat n) ++ zero8 ++ right_w 8 (lit " ") ++ right_w 8 (lit " ")
      ++ right_w 8 (lit " ") ++ zero8 ++ lit "D" ++ right_w 7 (print_nat ((i + 1) * 2)))
      with ((right_w 8 (lit "128") ++ zero8 ++ zero8 ++ right_w 8 (print_nat n) ++ zero8 ++ right_w 8 (lit " ") ++ right_w 8 (lit " ")
      ++ right_w 8 (lit " ") ++ zero8) ++ "D"%char :: right_w 7 (print_nat ((i + 1) * 2))) by (rewrite <- !app_assoc; reflexivity).
    apply char72_ok. rewrite !app_length. rewrite (right_w_length 8 (print_nat n)) by lia. reflexivity.
  - unfold directory_row2. nonl.
  - destruct (end_tokens m (lit "                               ")) as [le [Ee [He [Ne [Le [ze Hze]]]]]]; [unfold m; lia|repeat constructor|discriminate|].
    set (l := [(lit "     ", lit "128"); (lit "       ", lit "0"); (lit "       ", lit "0"); (repeat " "%char (8 - length (print_nat n)), print_nat n);
       (lit "       ", lit "0")] ++ le).
    assert (El : directory_row2 i n = tokens l).
    { unfold l. rewrite tokens_app, Ee. unfold directory_row2, tokens. cbn [map concat fst snd]. unfold zero8, right_w at 4.
      fold m. rewrite app_nil_r, <- !app_assoc. reflexivity. }
    assert (Hl : Forall token_ok l).
    { unfold l. apply Forall_app. split; [|assumption]. constructor; [split; [repeat constructor|split; [discriminate|split; [discriminate|repeat constructor]]]|].
      do 2 (constructor; [exact zero_token|]). constructor; [apply right_token; [lia|apply print_int_word]|]. constructor; [exact zero_token|]. constructor. }
    assert (Hz : map_opt stoi (map snd l) = Some ([128; 0; 0; Z.of_nat n; 0] ++ 0 :: ze)%Z).
    { unfold l. rewrite map_app. assert (Z0 : forall a b za zb, map_opt stoi a = Some za -> map_opt stoi b = Some zb -> map_opt stoi (a ++ b) = Some (za ++ zb)).
      { induction a as [|x a IH]; intros b za zb Ha Hb; [injection Ha as <-; exact Hb|]. cbn [map_opt app] in *. apply bind_some in Ha. destruct Ha as [y [Ey Ha]].
        apply bind_some in Ha. destruct Ha as [za' [Eza Ha]]. injection Ha as <-. rewrite Ey, (IH b za' zb Eza Hb). reflexivity. }
      apply Z0; [|exact Hze].
      cbn [map snd map_opt]. change (stoi (lit "128")) with (Some 128%Z). change (stoi (lit "0")) with (Some 0%Z). cbn [bind].
      unfold print_nat. rewrite stoi_print by lia. cbn [bind]. reflexivity. }
    rewrite El. unfold set_str, clear. cbn [eofbit failbit].
    destruct (read_tokens l _ (length (tokens l)) w0 [] Hl Hz) as [st [w E]]; [apply token_fuel; assumption|discriminate|].
    exists st, w, ([128; 0; 0; Z.of_nat n; 0] ++ 0 :: ze)%Z. split; [exact E|reflexivity].
Qed.

(** the directory: all numbers of lines are found *)
Lemma read_directory_ok : forall sizes i start rP rest acc fuel row0 rows,
  directory_rows i start sizes ++ rP :: rest = row0 :: rows -> length sizes < fuel ->
  (Z.of_nat (start + lsum_nat sizes) < 10 ^ 7)%Z -> (Z.of_nat (i + length sizes) < 10 ^ 7)%Z ->
  char72 rP = Some "P"%char -> no_newline rP ->
  read_directory fuel (Stream (as_text rows) false false) row0 acc = Some (Stream (as_text rest) false false, rP, acc ++ map Z.of_nat sizes).
Proof.
  induction sizes as [|n sizes IH]; intros i start rP rest acc fuel row0 rows E Hf Hs Hi HP HnP.
  - cbn [directory_rows app] in E. injection E as <- <-. destruct fuel; [cbn in Hf; lia|]. cbn [read_directory]. rewrite HP. cbn [bind map].
    change (Ascii.eqb "P" "P") with true. cbv iota. rewrite app_nil_r. reflexivity.
  - destruct fuel as [|fuel]; [cbn in Hf; lia|]. cbn [directory_rows app] in E. apply (f_equal (fun l => (hd [] l, tl l))) in E. cbn [hd tl] in E.
    apply (f_equal fst) in E as E1. apply (f_equal snd) in E as E2. cbn [fst snd] in E1, E2. subst row0 rows. clear E.
    cbn [length] in Hi. unfold lsum_nat in Hs. cbn [fold_right] in Hs. fold (lsum_nat sizes) in Hs.
    destruct (row1_ok i start) as [C1 [N1 [st1 [w1 [info1 R1]]]]]; [lia|lia|].
    destruct (row2_ok i n st1 w1) as [C2 [N2 [st2 [w2 [info2 [R2 G2]]]]]]; [lia|lia|].
    cbn [read_directory]. rewrite C1. cbn [bind]. change (Ascii.eqb "D" "P") with false. cbv iota. rewrite R1. cbn [bind]. change (get (128%Z :: info1) 0) with (Some 128%Z). cbn [bind].
    change (128 =? 128)%Z with true. cbn [assert bind].
    rewrite rows_getline by assumption. rewrite R2. cbn [bind].
    destruct (directory_rows (S i) (start + n) sizes ++ rP :: rest) as [|r rs] eqn:Er; [destruct (directory_rows (S i) (start + n) sizes); discriminate|].
    assert (Nr : no_newline r).
    { destruct sizes as [|n' sizes']; cbn [directory_rows app] in Er; injection Er as <- _; [assumption|].
      cbn [length] in Hi. unfold lsum_nat in Hs. cbn [fold_right] in Hs. apply row1_ok; lia. }
    rewrite rows_getline by assumption. unfold get in G2 |- *. rewrite G2. cbn [bind eofbit negb assert].
    rewrite (IH (S i) (start + n) rP rest (acc ++ [Z.of_nat n]) fuel r rs Er); auto; try (cbn in Hf; lia); try lia.
    cbn [map]. rewrite <- app_assoc. reflexivity.
Qed.
