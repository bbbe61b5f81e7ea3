(** C80: the Logger. *)
From Coq Require Import Bool Ascii String List Arith ZArith Lia.
From Verif Require Import ModelBase ModelText ModelLogger SpecLogger.
Import ListNotations.
Local Open Scope nat_scope.

Lemma some_eq' : forall {A : Type} (x y : A), Some x = Some y -> x = y.
Proof. intros A x y E. injection E as E. exact E. Qed.
Definition do_actions (acts : list action) (o : ostream) : ostream := fold_left (fun o a => do_action a o) acts o.
Definition written (acts : list action) : text := flat_map (fun a => match a with Put s => s | _ => [] end) acts.
Definition total (o : ostream) : text := o_disk o ++ o_buf o.
Lemma total_do : forall acts o, total (do_actions acts o) = total o ++ written acts.
Proof.
  induction acts as [|a acts IH]; intros o; [symmetry; apply app_nil_r|]. cbn [do_actions fold_left]. fold (do_actions acts (do_action a o)). rewrite IH. unfold written. cbn [flat_map]. fold (written acts).
  rewrite (app_assoc (total o)). apply (f_equal (fun z => z ++ written acts)). destruct a; unfold total; cbn [do_action o_disk o_buf]; rewrite ?app_nil_r, ?app_assoc; reflexivity.
Qed.
Lemma disk_grows : forall acts o, prefix (o_disk o) (o_disk (do_actions acts o)).
Proof.
  induction acts as [|a acts IH]; intros o; [exists []; symmetry; apply app_nil_r|]. cbn [do_actions fold_left]. fold (do_actions acts (do_action a o)). destruct (IH (do_action a o)) as [c E]. rewrite E.
  destruct a; cbn [do_action o_disk]; [exists c; reflexivity|exists c; reflexivity|]. exists (o_buf o ++ c). symmetry. apply app_assoc.
Qed.
Lemma do_app : forall a b o, do_actions (a ++ b) o = do_actions b (do_actions a o).
Proof. intros. unfold do_actions. apply fold_left_app. Qed.
Lemma text_eqb_refl : forall a, text_eqb a a = true.
Proof. intros a. unfold text_eqb. destruct (list_eq_dec ascii_dec a a); congruence. Qed.
Lemma text_eqb_neq : forall a b, a <> b -> text_eqb a b = false.
Proof. intros a b H. unfold text_eqb. destruct (list_eq_dec ascii_dec a b); congruence. Qed.
Section L.
Context {V : Type} (show : Z -> V -> text).
Variable N : nat.
Notation cells r := (map (show (Z.of_nat N - 4)%Z) r).
Lemma file_row_end : forall sep row, row <> [] -> exists acts, file_row show N sep row = acts ++ [Flush].
Proof.
  intros sep. induction row as [|t r IH]; intros H; [congruence|]. destruct r as [|t' r].
  - eexists [_; _; _]. reflexivity.
  - destruct IH as [acts E]; [discriminate|]. cbn [file_row] in *. rewrite E. eexists (_ :: _ :: _ :: acts). reflexivity.
Qed.
Lemma file_row_text : forall sep row, written (file_row show N sep row) = row_text (N + List.length sep) left_justified sep (cells row).
Proof.
  intros sep. induction row as [|t r IH]; [reflexivity|]. destruct r as [|t' r].
  - cbn [file_row map row_text]. unfold written. cbn [flat_map]. rewrite app_nil_r. reflexivity.
  - cbn [file_row map] in *. change (row_text (N + Datatypes.length sep) left_justified sep (show (Z.of_nat N - 4)%Z t :: show (Z.of_nat N - 4)%Z t' :: cells r))
      with (left_justified (N + Datatypes.length sep) (show (Z.of_nat N - 4)%Z t) ++ sep ++ row_text (N + Datatypes.length sep) left_justified sep (show (Z.of_nat N - 4)%Z t' :: cells r)).
    rewrite <- IH. reflexivity.
Qed.
Lemma flush_row : forall sep row o, row <> [] -> let o' := do_actions (file_row show N sep row) o in o_buf o' = [] /\ o_disk o' = total o ++ row_text (N + List.length sep) left_justified sep (cells row).
Proof.
  intros sep row o H o'. destruct (file_row_end sep row H) as [acts E]. assert (B : o_buf o' = []) by (unfold o'; rewrite E, do_app; reflexivity). split; [exact B|].
  pose proof (total_do (file_row show N sep row) o) as T. fold o' in T. unfold total at 1 in T. rewrite B, app_nil_r in T. rewrite T, file_row_text. reflexivity.
Qed.
Lemma table_app : forall sep a b, table show N sep (a ++ b) = table show N sep a ++ table show N sep b.
Proof. intros. unfold table. rewrite !flat_map_concat_map, map_app, concat_app. reflexivity. Qed.
Lemma table_one : forall sep r, table show N sep [r] = row_text (N + List.length sep) left_justified sep (cells r).
Proof. intros. unfold table. cbn [flat_map]. apply app_nil_r. Qed.

(** the effect of actions on the world *)
Definition content (d : option text) : text := match d with Some x => x | None => [] end.
Lemma run_app : forall (a b : list (world -> world)) w, run_steps (a ++ b) w = run_steps b (run_steps a w).
Proof. intros. unfold run_steps. apply fold_left_app. Qed.
Lemma upd_eq : forall {A} (f : nat -> A) k x, upd f k x k = x. Proof. intros. unfold upd. rewrite Nat.eqb_refl. reflexivity. Qed.
Lemma upd_neq : forall {A} (f : nat -> A) k x i, i <> k -> upd f k x i = f i. Proof. intros. unfold upd. destruct (Nat.eqb_spec i k); congruence. Qed.
Lemma ud_eq : forall f k x, upd_disk f k x k = Some x. Proof. intros. unfold upd_disk. rewrite text_eqb_refl. reflexivity. Qed.
Lemma ud_neq : forall f k x i, i <> k -> upd_disk f k x i = f i. Proof. intros. unfold upd_disk. rewrite text_eqb_neq by assumption. reflexivity. Qed.
Lemma file_fold : forall l o acts w, let w' := run_steps (map (file_action l o) acts) w in
  w_out w' = w_out w /\ (forall k, w_log w' k = w_log w k) /\ w_stream w' l = do_actions acts (w_stream w l) /\ (forall k, k <> l -> w_stream w' k = w_stream w k) /\
  (forall n, n <> l_name o -> w_disk w' n = w_disk w n) /\ (w_disk w (l_name o) = Some (o_disk (w_stream w l)) -> w_disk w' (l_name o) = Some (o_disk (w_stream w' l))).
Proof.
  intros l o. induction acts as [|a acts IH]; intros w w'; [repeat split; auto|]. unfold w'. cbn [map run_steps fold_left]. fold (run_steps (map (file_action l o) acts) (file_action l o a w)).
  destruct (IH (file_action l o a w)) as [A1 [A2 [A3 [A4 [A5 A6]]]]]. set (w2 := run_steps _ _) in *.
  split; [rewrite A1; reflexivity|]. split; [intros k; rewrite A2; reflexivity|]. split; [rewrite A3; cbn [file_action w_stream]; rewrite upd_eq; reflexivity|].
  split; [intros k Hk; rewrite A4 by exact Hk; cbn [file_action w_stream]; apply upd_neq, Hk|]. split; [intros n Hn; rewrite A5 by exact Hn; cbn [file_action w_disk]; apply ud_neq, Hn|].
  intros _. apply A6. cbn [file_action w_stream w_disk]. rewrite ud_eq, upd_eq. reflexivity.
Qed.
Lemma term_fold : forall acts w, let w' := run_steps (map term_action acts) w in
  w_out w' = do_actions acts (w_out w) /\ w_log w' = w_log w /\ w_stream w' = w_stream w /\ w_disk w' = w_disk w.
Proof.
  induction acts as [|a acts IH]; intros w w'; [repeat split|]. unfold w'. cbn [map run_steps fold_left]. fold (run_steps (map term_action acts) (term_action a w)). apply (IH (term_action a w)).
Qed.
Lemma firstn_map : forall {A B} (f : A -> B) k l, firstn k (map f l) = map f (firstn k l).
Proof. intros A B f. induction k as [|k IH]; intros [|x l]; cbn; [reflexivity..|]. rewrite IH. reflexivity. Qed.

(** what is known about the logger l and its file after the rows rs *)
Definition expected (sep : text) (d0 : option text) (rs : list (list V)) : option text := match rs with [] => d0 | _ => Some (table show N sep rs) end.
Record known (l : nat) (nm sep : text) (d0 : option text) (rs : list (list V)) (w : world) : Prop := {
  kn_other : forall k o, w_log w k = Some o -> k <> l -> l_name o <> nm;
  kn_disk : w_disk w nm = expected sep d0 rs;
  kn_log : forall o, w_log w l = Some o -> l_name o = nm /\ l_sep o = sep /\
    (l_open o = true -> rs <> [] /\ o_disk (w_stream w l) = table show N sep rs /\ o_buf (w_stream w l) = []) /\ (l_open o = false -> rs = []) }.
Lemma expected_some : forall sep d0 rs, rs <> [] -> expected sep d0 rs = Some (table show N sep rs). Proof. intros sep d0 [|r rs] H; [congruence|reflexivity]. Qed.

(** writing a row, completely or up to a crash *)
Lemma open_known : forall l nm sep d0 rs w o, known l nm sep d0 rs w -> w_log w l = Some o ->
  let w1 := open_file l o w in w_disk w1 nm = Some (o_disk (w_stream w1 l)) /\ o_disk (w_stream w1 l) = table show N sep rs /\ o_buf (w_stream w1 l) = [] /\
  w_log w1 l = Some (mkLog sep nm (l_mode o) true) /\ (forall k, k <> l -> w_log w1 k = w_log w k) /\ w_out w1 = w_out w.
Proof.
  intros l nm sep d0 rs w o K E w1. destruct (kn_log _ _ _ _ _ _ K o E) as [<- [<- [Op Cl]]]. unfold w1, open_file. destruct (l_open o) eqn:Eo.
  - destruct (Op eq_refl) as [Ne [D B]]. rewrite (kn_disk _ _ _ _ _ _ K), (expected_some _ _ _ Ne), D. repeat split; auto. rewrite E. destruct o; cbn in *; congruence.
  - rewrite (Cl eq_refl). cbn [w_disk w_stream w_log w_out]. rewrite ud_eq, !upd_eq. repeat split; auto. intros k Hk. apply upd_neq, Hk.
Qed.
Lemma other_row : forall l nm sep d0 rs w k o acts, known l nm sep d0 rs w -> w_log w k = Some o -> k <> l -> known l nm sep d0 rs (run_steps (map (file_action k o) acts) (open_file k o w)).
Proof.
  intros l nm sep d0 rs w k o acts K E Hk. pose proof (kn_other _ _ _ _ _ _ K k o E Hk) as Hn.
  destruct (file_fold k o acts (open_file k o w)) as [A1 [A2 [A3 [A4 [A5 A6]]]]]. set (w2 := run_steps _ _) in *.
  assert (G : w_disk w2 nm = w_disk w nm /\ w_log w2 l = w_log w l /\ w_stream w2 l = w_stream w l /\ forall k' o', w_log w2 k' = Some o' -> exists o2, w_log w k' = Some o2 /\ l_name o2 = l_name o').
  { rewrite A5 by congruence. rewrite A2, A4 by congruence. unfold open_file. destruct (l_open o) eqn:Eo.
    - repeat split; auto. intros k' o' E'. rewrite A2 in E'. unfold open_file in E'. rewrite Eo in E'. eauto.
    - cbn [w_disk w_log w_stream]. rewrite ud_neq, !upd_neq by congruence. repeat split; auto. intros k' o' E'. rewrite A2 in E'. unfold open_file in E'. rewrite Eo in E'.
      cbn [w_log] in E'. unfold upd in E'. destruct (Nat.eqb_spec k' k) as [->|]; [|eauto]. injection E' as <-. exists o. split; [exact E|reflexivity]. }
  destruct G as [G1 [G2 [G3 G4]]]. constructor.
  - intros k' o' E' Hk'. destruct (G4 _ _ E') as [o2 [E2 <-]]. exact (kn_other _ _ _ _ _ _ K k' o2 E2 Hk').
  - rewrite G1. apply (kn_disk _ _ _ _ _ _ K).
  - intros o' E'. rewrite G3. apply (kn_log _ _ _ _ _ _ K). rewrite <- G2. exact E'.
Qed.
Lemma own_row : forall l nm sep d0 rs w o row, known l nm sep d0 rs w -> w_log w l = Some o -> row <> [] ->
  known l nm sep d0 (rs ++ [row]) (run_steps (map (file_action l o) (file_row show N (l_sep o) row)) (open_file l o w)).
Proof.
  intros l nm sep d0 rs w o row K E Hr. destruct (kn_log _ _ _ _ _ _ K o E) as [Hn [Hs _]]. destruct (open_known l nm sep d0 rs w o K E) as [B1 [B2 [B3 [B4 [B5 B6]]]]].
  destruct (file_fold l o (file_row show N (l_sep o) row) (open_file l o w)) as [A1 [A2 [A3 [A4 [A5 A6]]]]]. set (w2 := run_steps _ _) in *.
  destruct (flush_row (l_sep o) row (w_stream (open_file l o w) l) Hr) as [F1 F2]. rewrite <- A3 in F1, F2.
  assert (D : o_disk (w_stream w2 l) = table show N sep (rs ++ [row])) by (rewrite F2; unfold total; rewrite B2, B3, app_nil_r, table_app, table_one, Hs; reflexivity).
  constructor.
  - intros k o' E' Hk. rewrite A2, B5 in E' by exact Hk. exact (kn_other _ _ _ _ _ _ K k o' E' Hk).
  - rewrite Hn in A6. rewrite (A6 B1), D. symmetry. apply expected_some. destruct rs; discriminate.
  - intros o' E'. rewrite A2, B4 in E'. injection E' as <-. cbn [l_name l_sep l_open]. split; [reflexivity|]. split; [reflexivity|]. split; [|discriminate]. intros _. split; [destruct rs; discriminate|]. split; assumption.
Qed.
Lemma log_known : forall l nm sep d0 rs w w', (forall k, w_log w' k = w_log w k) -> w_stream w' l = w_stream w l -> w_disk w' nm = w_disk w nm -> known l nm sep d0 rs w -> known l nm sep d0 rs w'.
Proof.
  intros l nm sep d0 rs w w' H1 H2 H3 K. constructor.
  - intros k o E. rewrite H1 in E. apply (kn_other _ _ _ _ _ _ K k o E).
  - rewrite H3. apply (kn_disk _ _ _ _ _ _ K).
  - intros o E. rewrite H1 in E. rewrite H2. apply (kn_log _ _ _ _ _ _ K o E).
Qed.
Lemma term_known : forall l nm sep d0 rs acts w, known l nm sep d0 rs w -> known l nm sep d0 rs (run_steps (map term_action acts) w).
Proof. intros l nm sep d0 rs acts w. destruct (term_fold acts w) as [_ [A2 [A3 A4]]]. apply log_known; [intros; rewrite A2; reflexivity|rewrite A3; reflexivity|rewrite A4; reflexivity]. Qed.
Definition harmless (l : nat) (nm : text) (x : @op V) : Prop := match x with Construct k o => k <> l /\ l_name o <> nm | _ => True end.
Lemma step_known : forall l nm sep d0 rs x w w', known l nm sep d0 rs w -> harmless l nm x -> step show N x w = Some w' -> known l nm sep d0 (rs ++ file_rows l [x]) w'.
Proof.
  intros l nm sep d0 rs x w w' K Hx E. unfold step in E. apply bind_some in E. destruct E as [fs [Ef E]]. injection E as <-.
  unfold file_rows. cbn [flat_map]. destruct x as [k o|k row|k row|k row|k]; cbn [steps_of] in Ef.
  - destruct (w_log w k) eqn:El; [discriminate|]. injection Ef as <-. destruct Hx as [Hk Hn]. cbn [run_steps fold_left]. rewrite !app_nil_r. constructor; cbn [w_log w_disk w_stream].
    + intros k' o' E' Hk'. unfold upd in E'. destruct (Nat.eqb_spec k' k); [injection E' as <-; exact Hn|]. exact (kn_other _ _ _ _ _ _ K k' o' E' Hk').
    + apply (kn_disk _ _ _ _ _ _ K).
    + intros o' E'. rewrite upd_neq in E' by congruence. apply (kn_log _ _ _ _ _ _ K o' E').
  - apply bind_some in Ef. destruct Ef as [o [Eo Ef]]. destruct row as [|c row]; [discriminate|]. injection Ef as <-. rewrite app_nil_r. cbn [run_steps fold_left]. fold (run_steps (map (file_action k o) (file_row show N (l_sep o) (c :: row))) (open_file k o w)).
    destruct (Nat.eqb_spec k l) as [->|Hk]; [apply own_row; [assumption..|discriminate]|rewrite app_nil_r; apply other_row; assumption].
  - apply bind_some in Ef. destruct Ef as [o [Eo Ef]]. destruct row as [|c row]; [discriminate|]. injection Ef as <-. rewrite !app_nil_r. apply term_known, K.
  - apply bind_some in Ef. destruct Ef as [o [Eo Ef]]. destruct row as [|c row]; [discriminate|]. injection Ef as <-. rewrite app_nil_r. cbn [run_steps fold_left]. rewrite fold_left_app.
    apply (term_known _ _ _ _ _ _ (run_steps (map (file_action k o) (file_row show N (l_sep o) (c :: row))) (open_file k o w))).
    destruct (Nat.eqb_spec k l) as [->|Hk]; [apply own_row; [assumption..|discriminate]|rewrite app_nil_r; apply other_row; assumption].
  - apply bind_some in Ef. destruct Ef as [o [Eo Ef]]. injection Ef as <-. rewrite run_app. rewrite !app_nil_r. cbn [run_steps fold_left].
    assert (K1 : known l nm sep d0 rs (run_steps (if l_open o then [file_action k o Flush] else []) w)).
    { destruct (l_open o) eqn:Op; [|exact K]. destruct (Nat.eq_dec k l) as [->|Hk].
      - destruct (kn_log _ _ _ _ _ _ K o Eo) as [Hn [Hs [Q _]]]. destruct (Q Op) as [Ne [D B]]. cbn [run_steps fold_left]. unfold file_action. constructor; cbn [w_log w_disk w_stream].
        + apply (kn_other _ _ _ _ _ _ K).
        + rewrite Hn, ud_eq. cbn [do_action o_disk]. rewrite B, app_nil_r, D. symmetry. apply expected_some, Ne.
        + intros o' E'. rewrite Eo in E'. injection E' as <-. rewrite upd_eq. cbn [do_action o_disk o_buf]. rewrite B, app_nil_r. split; [exact Hn|]. split; [exact Hs|]. split; [intros _; repeat split; assumption|congruence].
      - pose proof (kn_other _ _ _ _ _ _ K k o Eo Hk). apply (log_known _ _ _ _ _ w); [intros; reflexivity|apply upd_neq; congruence|apply ud_neq; congruence|exact K]. }
    set (w1 := run_steps _ w) in *. constructor; cbn [w_log w_disk w_stream].
    + intros k' o' E'. unfold upd in E'. destruct (Nat.eqb_spec k' k); [discriminate|]. apply (kn_other _ _ _ _ _ _ K1 k' o' E').
    + apply (kn_disk _ _ _ _ _ _ K1).
    + intros o' E'. unfold upd in E'. destruct (Nat.eqb_spec l k); [discriminate|]. apply (kn_log _ _ _ _ _ _ K1 o' E').
Qed.
Lemma run_known : forall l nm sep d0 h rs w w', known l nm sep d0 rs w -> (forall x, In x h -> harmless l nm x) -> run show N h w = Some w' -> known l nm sep d0 (rs ++ file_rows l h) w'.
Proof.
  intros l nm sep d0. induction h as [|x h IH]; intros rs w w' K Hh E; cbn [run] in E.
  - injection E as <-. unfold file_rows. cbn. rewrite app_nil_r. exact K.
  - apply bind_some in E. destruct E as [w1 [E1 E]]. pose proof (step_known _ _ _ _ _ _ _ _ K (Hh x (or_introl eq_refl)) E1) as K1.
    pose proof (IH _ _ _ K1 (fun y Hy => Hh y (or_intror Hy)) E) as K2. rewrite <- app_assoc in K2.
    replace (file_rows l (x :: h)) with (file_rows l [x] ++ file_rows l h); [exact K2|]. unfold file_rows. cbn [flat_map]. rewrite app_nil_r. reflexivity.
Qed.
(** before the logger is constructed *)
Lemma run_unused : forall nm h w w', (forall k o, w_log w k = Some o -> l_name o <> nm) -> unused nm h -> run show N h w = Some w' ->
  (forall k o, w_log w' k = Some o -> l_name o <> nm) /\ w_disk w' nm = w_disk w nm.
Proof.
  intros nm h. induction h as [|x h IH]; intros w w' H Hu E; cbn [run] in E; [injection E as <-; auto|]. apply bind_some in E. destruct E as [w1 [E1 E]].
  assert (Hu' : unused nm h) by (intros k o Hk; apply (Hu k o); right; exact Hk).
  assert (F : exists l, w_log w l = None /\ w_log w1 l = None \/ True) by (exists 0; auto). clear F.
  assert (G : (forall k o, w_log w1 k = Some o -> l_name o <> nm) /\ w_disk w1 nm = w_disk w nm).
  { (* pick an index that is not used by this step: the file of name nm belongs to nobody *)
    unfold step in E1. apply bind_some in E1. destruct E1 as [fs [Ef E1]]. injection E1 as <-.
    assert (Row : forall k o acts, w_log w k = Some o -> let w2 := run_steps (map (file_action k o) acts) (open_file k o w) in (forall k' o', w_log w2 k' = Some o' -> l_name o' <> nm) /\ w_disk w2 nm = w_disk w nm).
    { intros k o acts Eo. destruct (file_fold k o acts (open_file k o w)) as [A1 [A2 [A3 [A4 [A5 A6]]]]]. pose proof (H k o Eo) as Hn. cbv zeta. split.
      - intros k' o' E'. rewrite A2 in E'. unfold open_file in E'. destruct (l_open o); [exact (H _ _ E')|]. cbn [w_log] in E'. unfold upd in E'. destruct (Nat.eqb_spec k' k); [injection E' as <-; exact Hn|exact (H _ _ E')].
      - rewrite A5 by congruence. unfold open_file. destruct (l_open o); [reflexivity|]. cbn [w_disk]. apply ud_neq. congruence. }
    destruct x as [k o|k row|k row|k row|k]; cbn [steps_of] in Ef.
    - destruct (w_log w k); [discriminate|]. injection Ef as <-. cbn [run_steps fold_left w_log w_disk]. split; [|reflexivity]. intros k' o' E'. unfold upd in E'. destruct (Nat.eqb_spec k' k); [|exact (H _ _ E')].
      injection E' as <-. cbn [l_name]. apply (Hu k o). left. reflexivity.
    - apply bind_some in Ef. destruct Ef as [o [Eo Ef]]. destruct row; [discriminate|]. injection Ef as <-. apply (Row k o _ Eo).
    - apply bind_some in Ef. destruct Ef as [o [Eo Ef]]. destruct row; [discriminate|]. apply some_eq' in Ef. subst fs. destruct (term_fold (term_row show N (o_left (w_out w)) (l_sep o) (v :: row)) w) as [_ [A2 [_ A4]]]. rewrite A2, A4. auto.
    - apply bind_some in Ef. destruct Ef as [o [Eo Ef]]. destruct row; [discriminate|]. apply some_eq' in Ef. subst fs. rewrite app_comm_cons, run_app.
      match goal with |- context [run_steps (map term_action ?acts) ?w2] => destruct (term_fold acts w2) as [_ [A2 [_ A4]]] end. rewrite A2, A4. apply (Row k o _ Eo).
    - apply bind_some in Ef. destruct Ef as [o [Eo Ef]]. injection Ef as <-. rewrite run_app. cbn [run_steps fold_left w_log w_disk].
      assert (Q : (forall k' o', w_log (run_steps (if l_open o then [file_action k o Flush] else []) w) k' = Some o' -> l_name o' <> nm) /\ w_disk (run_steps (if l_open o then [file_action k o Flush] else []) w) nm = w_disk w nm).
      { destruct (l_open o); cbn [run_steps fold_left]; [|auto]. unfold file_action. cbn [w_log w_disk]. split; [exact H|]. apply ud_neq. pose proof (H k o Eo). congruence. }
      destruct Q as [Q1 Q2]. split; [|exact Q2]. intros k' o' E'. unfold upd in E'. destruct (Nat.eqb_spec k' k); [discriminate|exact (Q1 _ _ E')]. }
  destruct G as [G1 G2]. destruct (IH w1 w' G1 Hu' E) as [R1 R2]. split; [exact R1|congruence].
Qed.
Lemma run_split : forall a b w w', run show N (a ++ b) w = Some w' -> exists w1, run show N a w = Some w1 /\ run show N b w1 = Some w'.
Proof.
  induction a as [|x a IH]; intros b w w' E; [exists w; auto|]. cbn [app run] in *. apply bind_some in E. destruct E as [w1 [E1 E]]. destruct (IH _ _ _ E) as [w2 [R1 R2]]. exists w2. rewrite E1. auto.
Qed.
Lemma history_known : forall disk h1 l o h2 w, unused (l_name o) h1 -> unused (l_name o) h2 -> (forall o', ~ In (Construct l o') h2) ->
  run show N (h1 ++ Construct l o :: h2) (init_world disk) = Some w -> known l (l_name o) (l_sep o) (disk (l_name o)) (file_rows l h2) w.
Proof.
  intros disk h1 l o h2 w Q1 Q2 Q3 E. apply run_split in E. destruct E as [w1 [E1 E]]. cbn [run] in E. apply bind_some in E. destruct E as [w2 [E2 E]].
  destruct (run_unused (l_name o) h1 (init_world disk) w1 ltac:(intros k o' Z; discriminate Z) Q1 E1) as [R1 R2].
  unfold step in E2. apply bind_some in E2. destruct E2 as [fs [Ef E2]]. cbn [steps_of] in Ef. destruct (w_log w1 l) eqn:El; [discriminate|]. injection Ef as <-. injection E2 as <-.
  apply (run_known l (l_name o) (l_sep o) (disk (l_name o)) h2 [] _ _) in E; [exact E| |].
  - cbn [run_steps fold_left]. constructor; cbn [w_log w_disk w_stream].
    + intros k o' Z Hk. rewrite upd_neq in Z by exact Hk. exact (R1 _ _ Z).
    + exact R2.
    + intros o' Z. rewrite upd_eq in Z. injection Z as <-. cbn [l_name l_sep l_open]. split; [reflexivity|]. split; [reflexivity|]. split; [discriminate|reflexivity].
  - intros x Hx. destruct x; cbn [harmless]; try exact I. split; [intros ->; apply (Q3 _ Hx)|apply (Q2 _ _ Hx)].
Qed.

(** what a crash can leave *)
Definition crash_ok (sep : text) (d0 : option text) (rs rx : list (list V)) (t : text) : Prop :=
  (rs <> [] -> prefix (table show N sep rs) t /\ prefix t (table show N sep (rs ++ rx))) /\ (rs = [] -> t = content d0 \/ prefix t (table show N sep rx)).
Lemma prefix_refl : forall a, prefix a a. Proof. intros a. exists []. symmetry. apply app_nil_r. Qed.
Lemma prefix_app : forall a b, prefix a (a ++ b). Proof. intros a b. exists b. reflexivity. Qed.
Lemma known_disk : forall l nm sep d0 rs w t, known l nm sep d0 rs w -> on_disk w l nm t -> t = content (expected sep d0 rs).
Proof.
  intros l nm sep d0 rs w t K [k ->]. destruct (w_log w l) as [o|] eqn:E; [|rewrite (kn_disk _ _ _ _ _ _ K); reflexivity].
  destruct (kn_log _ _ _ _ _ _ K o E) as [Hn [Hs [Op Cl]]]. destruct (l_open o) eqn:Eo; [|cbn [andb]; rewrite (kn_disk _ _ _ _ _ _ K); reflexivity].
  destruct (Op eq_refl) as [Ne [D B]]. rewrite Hn, text_eqb_refl. cbn [andb]. rewrite B, firstn_nil, app_nil_r, D, (expected_some _ _ _ Ne). reflexivity.
Qed.
Lemma known_before : forall l nm sep d0 rs rx w t, known l nm sep d0 rs w -> on_disk w l nm t -> crash_ok sep d0 rs rx t.
Proof.
  intros l nm sep d0 rs rx w t K Ht. rewrite (known_disk _ _ _ _ _ _ _ K Ht). split; intros H.
  - rewrite (expected_some _ _ _ H). cbn [content]. split; [apply prefix_refl|]. rewrite table_app. apply prefix_app.
  - subst rs. left. reflexivity.
Qed.
Lemma known_after : forall l nm sep d0 rs r w t, known l nm sep d0 (rs ++ [r]) w -> on_disk w l nm t -> crash_ok sep d0 rs [r] t.
Proof.
  intros l nm sep d0 rs r w t K Ht. rewrite (known_disk _ _ _ _ _ _ _ K Ht). rewrite expected_some by (destruct rs; discriminate). cbn [content]. split; intros H.
  - split; [rewrite table_app; apply prefix_app|apply prefix_refl].
  - subst rs. right. apply prefix_refl.
Qed.
Lemma written_app : forall a b, written (a ++ b) = written a ++ written b.
Proof. intros. unfold written. rewrite !flat_map_concat_map, map_app, concat_app. reflexivity. Qed.
Lemma prefix_eq : forall a b c : text, a = b -> prefix a c -> prefix b c. Proof. congruence. Qed.
Lemma partial_row : forall l nm sep d0 rs w o row m t, known l nm sep d0 rs w -> w_log w l = Some o -> 
  on_disk (run_steps (firstn m (open_file l o :: map (file_action l o) (file_row show N (l_sep o) row))) w) l nm t -> crash_ok sep d0 rs [row] t.
Proof.
  intros l nm sep d0 rs w o row m t K E Ht. destruct m as [|m]; [exact (known_before _ _ _ _ _ _ _ _ K Ht)|].
  cbn [firstn] in Ht. rewrite firstn_map in Ht. cbn [run_steps fold_left] in Ht. fold (run_steps (map (file_action l o) (firstn m (file_row show N (l_sep o) row))) (open_file l o w)) in Ht.
  destruct (kn_log _ _ _ _ _ _ K o E) as [Hn [Hs _]]. destruct (open_known l nm sep d0 rs w o K E) as [B1 [B2 [B3 [B4 [B5 B6]]]]].
  set (acts := file_row show N (l_sep o) row) in *. destruct (file_fold l o (firstn m acts) (open_file l o w)) as [A1 [A2 [A3 [A4 [A5 A6]]]]]. set (w2 := run_steps _ _) in *.
  destruct Ht as [k Ht]. rewrite A2, B4 in Ht. cbn [l_open l_name] in Ht. rewrite text_eqb_refl in Ht. cbn [andb] in Ht.
  assert (P1 : prefix (table show N sep rs) t).
  { destruct (disk_grows (firstn m acts) (w_stream (open_file l o w) l)) as [c Ec]. rewrite <- A3, B2 in Ec. rewrite Ht, Ec, <- app_assoc. apply prefix_app. }
  assert (P2 : prefix t (table show N sep rs ++ table show N sep [row])).
  { rewrite table_one, <- Hs, <- file_row_text. fold acts. rewrite <- (firstn_skipn m acts), written_app, app_assoc.
    pose proof (total_do (firstn m acts) (w_stream (open_file l o w) l)) as T. rewrite <- A3 in T. unfold total at 2 in T. rewrite B2, B3, app_nil_r in T. rewrite <- Hs in T. rewrite <- T.
    unfold total. rewrite Ht. rewrite <- (firstn_skipn k (o_buf (w_stream w2 l))) at 2. rewrite (app_assoc (o_disk _)), <- app_assoc. apply prefix_app. }
  split; intros Hr; [split; [exact P1|rewrite table_app; exact P2]|]. subst rs. right. exact P2.
Qed.
Lemma other_partial : forall l nm sep d0 rs w k o row m, known l nm sep d0 rs w -> w_log w k = Some o -> k <> l ->
  known l nm sep d0 rs (run_steps (firstn m (open_file k o :: map (file_action k o) (file_row show N (l_sep o) row))) w).
Proof.
  intros l nm sep d0 rs w k o row m K E Hk. destruct m as [|m]; [exact K|]. cbn [firstn]. rewrite firstn_map. cbn [run_steps fold_left]. apply (other_row l nm sep d0 rs w k o _ K E Hk).
Qed.
Lemma crash_known : forall l nm sep d0 rs x w wc m t, known l nm sep d0 rs w -> harmless l nm x -> crash show N m x w = Some wc -> on_disk wc l nm t -> crash_ok sep d0 rs (file_rows l [x]) t.
Proof.
  intros l nm sep d0 rs x w wc m t K Hx E Ht.
  assert (Whole : forall w', step show N x w = Some w' -> on_disk w' l nm t -> crash_ok sep d0 rs (file_rows l [x]) t).
  { intros w' Es Hd. pose proof (step_known l nm sep d0 rs x w w' K Hx Es) as K'. destruct (file_rows l [x]) as [|r rr] eqn:Er; [rewrite app_nil_r in K'; exact (known_before _ _ _ _ _ _ _ _ K' Hd)|].
    assert (rr = []) as -> by (unfold file_rows in Er; cbn [flat_map] in Er; rewrite app_nil_r in Er; destruct x; try discriminate; destruct (_ =? _); congruence). exact (known_after _ _ _ _ _ _ _ _ K' Hd). }
  unfold crash in E. apply bind_some in E. destruct E as [fs [Ef E]]. apply some_eq' in E. subst wc.
  destruct (Nat.le_gt_cases (List.length fs) m) as [Hm|Hm].
  { rewrite firstn_all2 in Ht by exact Hm. apply (Whole (run_steps fs w)); [|exact Ht]. unfold step. rewrite Ef. reflexivity. }
  unfold file_rows. cbn [flat_map]. destruct x as [k o|k row|k row|k row|k]; cbn [steps_of] in Ef.
  - destruct (w_log w k) eqn:El; [discriminate|]. apply some_eq' in Ef. subst fs. cbn [List.length] in Hm. assert (m = 0) as -> by lia. exact (known_before _ _ _ _ _ _ _ _ K Ht).
  - apply bind_some in Ef. destruct Ef as [o [Eo Ef]]. destruct row as [|c row]; [discriminate|]. apply some_eq' in Ef. subst fs. rewrite app_nil_r.
    destruct (Nat.eqb_spec k l) as [->|Hk]; [exact (partial_row _ _ _ _ _ _ _ _ _ _ K Eo Ht)|exact (known_before _ _ _ _ _ _ _ _ (other_partial _ _ _ _ _ _ _ _ _ _ K Eo Hk) Ht)].
  - apply bind_some in Ef. destruct Ef as [o [Eo Ef]]. destruct row as [|c row]; [discriminate|]. apply some_eq' in Ef. subst fs. rewrite firstn_map in Ht. exact (known_before _ _ _ _ _ _ _ _ (term_known _ _ _ _ _ _ _ K) Ht).
  - apply bind_some in Ef. destruct Ef as [o [Eo Ef]]. destruct row as [|c row]; [discriminate|]. apply some_eq' in Ef. subst fs. rewrite app_nil_r. rewrite app_comm_cons in Ht. rewrite firstn_app, run_app, (firstn_map term_action) in Ht.
    set (n := m - _) in Ht. assert (Hn : (n = 0 \/ List.length (open_file k o :: map (file_action k o) (file_row show N (l_sep o) (c :: row))) <= m)%nat) by (unfold n; lia). destruct Hn as [Hn|Hn].
    + rewrite Hn in Ht. cbn [firstn map run_steps fold_left] in Ht. 
      destruct (Nat.eqb_spec k l) as [->|Hk]; [exact (partial_row _ _ _ _ _ _ _ _ _ _ K Eo Ht)|exact (known_before _ _ _ _ _ _ _ _ (other_partial _ _ _ _ _ _ _ _ _ _ K Eo Hk) Ht)].
    + rewrite (firstn_all2 (n := m)) in Ht by exact Hn. cbn [run_steps fold_left] in Ht. 
      destruct (Nat.eqb_spec k l) as [->|Hk].
      * refine (known_after _ _ _ _ _ _ _ _ (term_known _ _ _ _ _ _ _ (own_row _ _ _ _ _ _ _ (c :: row) K Eo _)) Ht). discriminate.
      * exact (known_before _ _ _ _ _ _ _ _ (term_known _ _ _ _ _ _ _ (other_row _ _ _ _ _ _ _ _ (file_row show N (l_sep o) (c :: row)) K Eo Hk)) Ht).
  - apply bind_some in Ef. destruct Ef as [o [Eo Ef]]. apply some_eq' in Ef. subst fs. destruct (l_open o) eqn:Op; cbn [app List.length] in Hm, Ht; [|assert (m = 0) as -> by lia; exact (known_before _ _ _ _ _ _ _ _ K Ht)].
    destruct m as [|[|m]]; [exact (known_before _ _ _ _ _ _ _ _ K Ht)| |lia]. cbn [firstn run_steps fold_left] in Ht.
    apply (known_before l nm sep d0 rs [] (file_action k o Flush w)); [|exact Ht]. destruct (Nat.eq_dec k l) as [->|Hk].
    + destruct (kn_log _ _ _ _ _ _ K o Eo) as [Hn [Hs [Q _]]]. destruct (Q Op) as [Ne [D B]]. unfold file_action. constructor; cbn [w_log w_disk w_stream].
      * apply (kn_other _ _ _ _ _ _ K).
      * rewrite Hn, ud_eq. cbn [do_action o_disk]. rewrite B, app_nil_r, D. symmetry. apply expected_some, Ne.
      * intros o' E'. rewrite Eo in E'. injection E' as <-. rewrite upd_eq. cbn [do_action o_disk o_buf]. rewrite B, app_nil_r. split; [exact Hn|]. split; [exact Hs|]. split; [intros _; repeat split; assumption|congruence].
    + pose proof (kn_other _ _ _ _ _ _ K k o Eo Hk). apply (log_known _ _ _ _ _ w); [intros; reflexivity|apply upd_neq; congruence|apply ud_neq; congruence|exact K].
Qed.

(** the file of a logger is the table of its rows, in the order of the calls; it is complete after every call, whatever other loggers and the terminal do.
    Without a row the file is not touched *)
Theorem C80_file : forall disk h1 l o h2 w,
  unused (l_name o) h1 -> unused (l_name o) h2 -> (forall o', ~ In (Construct l o') h2) ->
  run show N (h1 ++ Construct l o :: h2) (init_world disk) = Some w ->
  w_disk w (l_name o) = match file_rows l h2 with [] => disk (l_name o) | rows => Some (table show N (l_sep o) rows) end
  /\ forall t, on_disk w l (l_name o) t -> t = match w_disk w (l_name o) with Some d => d | None => [] end.
Proof.
  intros disk h1 l o h2 w Q1 Q2 Q3 E. pose proof (history_known disk h1 l o h2 w Q1 Q2 Q3 E) as K. pose proof (kn_disk _ _ _ _ _ _ K) as D. split; [rewrite D; destruct (file_rows l h2); reflexivity|].
  intros t Ht. rewrite (known_disk _ _ _ _ _ _ _ K Ht), D. reflexivity.
Qed.
(** if the program crashes during the next statement x, after any of its elementary actions and with any part of the buffers written,
    all rows of earlier calls are in the file, and nothing that is not a beginning of the table including the row of x *)
Theorem C80_crash : forall disk h1 l o h2 w x m wc t,
  unused (l_name o) h1 -> unused (l_name o) (h2 ++ [x]) -> (forall o', ~ In (Construct l o') (h2 ++ [x])) ->
  run show N (h1 ++ Construct l o :: h2) (init_world disk) = Some w ->
  crash show N m x w = Some wc -> on_disk wc l (l_name o) t ->
  (file_rows l h2 <> [] -> prefix (table show N (l_sep o) (file_rows l h2)) t /\ prefix t (table show N (l_sep o) (file_rows l (h2 ++ [x])))) /\
  (file_rows l h2 = [] -> t = match disk (l_name o) with Some d => d | None => [] end \/ prefix t (table show N (l_sep o) (file_rows l [x]))).
Proof.
  intros disk h1 l o h2 w x m wc t Q1 Q2 Q3 E Ec Ht.
  assert (K : known l (l_name o) (l_sep o) (disk (l_name o)) (file_rows l h2) w) by (apply (history_known disk h1 l o h2 w Q1); [intros k o' Hk; apply (Q2 k); apply in_or_app; left; exact Hk|intros o' Hk; apply (Q3 o'); apply in_or_app; left; exact Hk|exact E]).
  assert (Hx : harmless l (l_name o) x) by (destruct x as [k o'| | | |]; cbn [harmless]; try exact I; split; [intros ->; apply (Q3 o'); apply in_or_app; right; left; reflexivity|apply (Q2 k); apply in_or_app; right; left; reflexivity]).
  replace (file_rows l (h2 ++ [x])) with (file_rows l h2 ++ file_rows l [x]) by (unfold file_rows; rewrite !flat_map_concat_map, map_app, concat_app; reflexivity).
  exact (crash_known _ _ _ _ _ _ _ _ _ _ K Hx Ec Ht).
Qed.

(** the terminal *)
Lemma term_row_text : forall sep row b, row <> [] ->
  written (term_row show N b sep row) = row_text (N + List.length sep) (if b || (2 <=? List.length row) then left_justified else right_justified) sep (cells row) /\
  (forall o, o_left o = b -> o_buf (do_actions (term_row show N b sep row) o) = [] /\ o_left (do_actions (term_row show N b sep row) o) = b || (2 <=? List.length row)).
Proof.
  intros sep. induction row as [|t r IH]; intros b H; [congruence|]. destruct r as [|t' r].
  - cbn [term_row map row_text]. unfold written. cbn [flat_map List.length Nat.leb]. rewrite app_nil_r, orb_false_r. split; [destruct b; reflexivity|]. intros o Ho. split; [reflexivity|exact Ho].
  - destruct (IH true ltac:(discriminate)) as [E1 E2].
    change (term_row show N b sep (t :: t' :: r)) with (Adjust :: Put (pad true (N + List.length sep) (show (precision N) t)) :: Put sep :: term_row show N true sep (t' :: r)).
    replace (b || (2 <=? List.length (t :: t' :: r))) with true by (cbn; rewrite orb_true_r; reflexivity). split.
    + change (written (Adjust :: Put (pad true (N + List.length sep) (show (precision N) t)) :: Put sep :: term_row show N true sep (t' :: r)))
        with (pad true (N + List.length sep) (show (precision N) t) ++ sep ++ written (term_row show N true sep (t' :: r))). rewrite E1. reflexivity.
    + intros o _. cbn [do_actions fold_left]. apply (E2 _). reflexivity.
Qed.
Lemma term_step : forall sep row o, row <> [] -> o_buf o = [] -> let o' := do_actions (term_row show N (o_left o) sep row) o in
  o_buf o' = [] /\ o_left o' = o_left o || (2 <=? List.length row) /\
  o_disk o' = o_disk o ++ row_text (N + List.length sep) (if o_left o || (2 <=? List.length row) then left_justified else right_justified) sep (cells row).
Proof.
  intros sep row o H B o'. destruct (term_row_text sep row (o_left o) H) as [E1 E2]. destruct (E2 o eq_refl) as [F1 F2]. split; [exact F1|]. split; [exact F2|].
  pose proof (total_do (term_row show N (o_left o) sep row) o) as T. fold o' in T. unfold total in T. fold o' in F1. rewrite F1, B, !app_nil_r, E1 in T. exact T.
Qed.
Lemma file_out : forall k o acts w, w_out (run_steps (map (file_action k o) acts) (open_file k o w)) = w_out w /\ forall i o', w_log (run_steps (map (file_action k o) acts) (open_file k o w)) i = Some o' -> w_log w k = Some o -> exists o2, w_log w i = Some o2 /\ l_sep o2 = l_sep o'.
Proof.
  intros k o acts w. destruct (file_fold k o acts (open_file k o w)) as [A1 [A2 _]]. split; [rewrite A1; unfold open_file; destruct (l_open o); reflexivity|].
  intros i o' E Ek. rewrite A2 in E. unfold open_file in E. destruct (l_open o); [eauto|]. cbn [w_log] in E. unfold upd in E. destruct (Nat.eqb_spec i k) as [->|]; [|eauto]. injection E as <-. exists o. split; [exact Ek|reflexivity].
Qed.
Lemma terminal_run : forall h sep_of w w', (forall k o, w_log w k = Some o -> l_sep o = sep_of k) -> o_buf (w_out w) = [] -> run show N h w = Some w' ->
  o_buf (w_out w') = [] /\ o_disk (w_out w') = o_disk (w_out w) ++ screen show N (o_left (w_out w)) (term_rows sep_of h).
Proof.
  induction h as [|x h IH]; intros sep_of w w' Hs B E; cbn [run] in E; [injection E as <-; split; [exact B|symmetry; apply app_nil_r]|].
  apply bind_some in E. destruct E as [w1 [E1 E]]. unfold step in E1. apply bind_some in E1. destruct E1 as [fs [Ef E1]]. apply some_eq' in E1. subst w1.
  destruct x as [k o|k row|k row|k row|k]; cbn [steps_of] in Ef; cbn [term_rows].
  - destruct (w_log w k) eqn:El; [discriminate|]. apply some_eq' in Ef. subst fs. cbn [run_steps fold_left] in E. apply (IH (fun i => if i =? k then l_sep o else sep_of i)) in E; [exact E| |exact B].
    cbn [w_log]. intros i o' Ei. unfold upd in Ei. destruct (i =? k); [injection Ei as <-; reflexivity|exact (Hs _ _ Ei)].
  - apply bind_some in Ef. destruct Ef as [o [Eo Ef]]. destruct row as [|c row]; [discriminate|]. apply some_eq' in Ef. subst fs. cbn [run_steps fold_left] in E.
    destruct (file_out k o (file_row show N (l_sep o) (c :: row)) w) as [O1 O2]. unfold run_steps in O1, O2. apply (IH sep_of) in E; [rewrite O1 in E; exact E| |rewrite O1; exact B].
    intros i o' Ei. destruct (O2 i o' Ei Eo) as [o2 [E2 <-]]. exact (Hs _ _ E2).
  - apply bind_some in Ef. destruct Ef as [o [Eo Ef]]. destruct row as [|c row]; [discriminate|]. apply some_eq' in Ef. subst fs.
    destruct (term_fold (term_row show N (o_left (w_out w)) (l_sep o) (c :: row)) w) as [T1 [T2 _]]. destruct (term_step (l_sep o) (c :: row) (w_out w) ltac:(discriminate) B) as [S1 [S2 S3]]. rewrite <- T1 in S1, S2, S3.
    apply (IH sep_of) in E; [|intros i o' Ei; rewrite T2 in Ei; exact (Hs _ _ Ei)|exact S1]. destruct E as [E2 E3]. split; [exact E2|]. rewrite E3, S3, S2, <- app_assoc. cbn [screen]. rewrite (Hs _ _ Eo). reflexivity.
  - apply bind_some in Ef. destruct Ef as [o [Eo Ef]]. destruct row as [|c row]; [discriminate|]. apply some_eq' in Ef. subst fs. rewrite app_comm_cons, run_app in E.
    set (w1 := run_steps (open_file k o :: _) w) in E. destruct (file_out k o (file_row show N (l_sep o) (c :: row)) w) as [O1 O2]. change (run_steps (map (file_action k o) (file_row show N (l_sep o) (c :: row))) (open_file k o w)) with w1 in O1, O2.
    destruct (term_fold (term_row show N (o_left (w_out w)) (l_sep o) (c :: row)) w1) as [T1 [T2 _]]. rewrite O1 in T1. destruct (term_step (l_sep o) (c :: row) (w_out w) ltac:(discriminate) B) as [S1 [S2 S3]]. rewrite <- T1 in S1, S2, S3.
    apply (IH sep_of) in E; [|intros i o' Ei; rewrite T2 in Ei; destruct (O2 i o' Ei Eo) as [o2 [E2 <-]]; exact (Hs _ _ E2)|exact S1]. destruct E as [E2 E3]. split; [exact E2|]. rewrite E3, S3, S2, <- app_assoc. cbn [screen]. rewrite (Hs _ _ Eo). reflexivity.
  - apply bind_some in Ef. destruct Ef as [o [Eo Ef]]. apply some_eq' in Ef. subst fs. rewrite run_app in E. cbn [run_steps fold_left] in E.
    assert (O : w_out (run_steps (if l_open o then [file_action k o Flush] else []) w) = w_out w /\ w_log (run_steps (if l_open o then [file_action k o Flush] else []) w) = w_log w) by (destruct (l_open o); split; reflexivity). destruct O as [O1 O2].
    apply (IH sep_of) in E; cbn [w_out w_log] in *; [rewrite O1 in E; exact E| |rewrite O1; exact B]. intros i o' Ei. rewrite O2 in Ei. unfold upd in Ei. destruct (i =? k); [discriminate|exact (Hs _ _ Ei)].
Qed.
(** the terminal shows the rows of all term() and both() calls in order, each of them flushed *)
Theorem C80_terminal : forall disk h w, run show N h (init_world disk) = Some w ->
  o_buf (w_out w) = [] /\ o_disk (w_out w) = screen show N false (term_rows (fun _ => []) h).
Proof.
  intros disk h w E. apply (terminal_run h (fun _ => [])) in E; [exact E|intros k o Z; discriminate Z|reflexivity].
Qed.
End L.

(** the columns of the file are aligned: if the cells fit into N + |sep| characters, the i-th cell of every row starts at the same position *)
Lemma left_length : forall w s, length s <= w -> length (left_justified w s) = w.
Proof. intros w s H. unfold left_justified. rewrite app_length, repeat_length. lia. Qed.
Theorem C80_columns : forall N sep cells i c,
  nth_error cells i = Some c -> (forall d, In d (firstn i cells) -> length d <= N + length sep) ->
  firstn (length c) (skipn (i * (N + 2 * length sep)) (row_text (N + length sep) left_justified sep cells)) = c.
Proof.
  intros N sep. induction cells as [|d cells IH]; intros i c E H; [destruct i; discriminate|]. destruct i as [|i].
  - injection E as ->. cbn [Nat.mul skipn]. assert (G : exists r, row_text (N + length sep) left_justified sep (c :: cells) = c ++ r).
    { destruct cells; cbn [row_text]; unfold left_justified; rewrite <- !app_assoc; eauto. } destruct G as [r ->]. rewrite firstn_app, Nat.sub_diag, firstn_all, firstn_O, app_nil_r. reflexivity.
  - cbn [nth_error] in E. destruct cells as [|d' cells]; [destruct i; discriminate|].
    change (row_text (N + length sep) left_justified sep (d :: d' :: cells)) with (left_justified (N + length sep) d ++ sep ++ row_text (N + length sep) left_justified sep (d' :: cells)).
    assert (L : length (left_justified (N + length sep) d ++ sep) = N + 2 * length sep) by (rewrite app_length, left_length; [lia|apply H; left; reflexivity]).
    rewrite app_assoc. cbn [Nat.mul]. rewrite skipn_app, skipn_all2 by lia. rewrite L. cbn [app]. rewrite Nat.add_comm, Nat.add_sub.
    apply IH; [exact E|]. intros d2 Hd. apply H. cbn [firstn]. right. exact Hd.
Qed.
(** all rows with the same number of fitting cells have the same length *)
Theorem C80_row_length : forall N sep cells, cells <> [] -> (forall d, In d cells -> length d <= N + length sep) ->
  length (row_text (N + length sep) left_justified sep cells) = length cells * (N + 2 * length sep) - length sep + 1.
Proof.
  intros N sep. induction cells as [|d cells IH]; intros Ne H; [congruence|]. assert (L : length (left_justified (N + length sep) d) = N + length sep) by (apply left_length, H; left; reflexivity). destruct cells as [|d' cells].
  - cbn [row_text]. rewrite app_length, L. cbn [length]. lia.
  - change (row_text (N + length sep) left_justified sep (d :: d' :: cells)) with (left_justified (N + length sep) d ++ sep ++ row_text (N + length sep) left_justified sep (d' :: cells)).
    rewrite !app_length, L, IH; [|discriminate|intros d2 Hd; apply H; right; exact Hd]. cbn [length]. lia.
Qed.
(** a program that reads words gets the cells back, in order, if no cell contains white space and the separator is white space *)
Lemma words_blank : forall b t, blank b -> words_from [] (b ++ t) = words_from [] t.
Proof. induction b as [|c b IH]; intros t H; [reflexivity|]. cbn [app words_from]. rewrite (H c (or_introl eq_refl)). apply IH. intros d Hd. apply H. right. exact Hd. Qed.
Lemma words_word : forall u acc t, (forall c, In c u -> is_space c = false) -> words_from acc (u ++ t) = words_from (acc ++ u) t.
Proof.
  induction u as [|c u IH]; intros acc t H; [rewrite app_nil_r; reflexivity|]. cbn [app words_from]. rewrite (H c (or_introl eq_refl)), IH by (intros d Hd; apply H; right; exact Hd). rewrite <- app_assoc. reflexivity.
Qed.
Lemma words_cell : forall u b t, is_word u -> blank b -> b <> [] -> words_from [] (u ++ b ++ t) = u :: words_from [] t.
Proof.
  intros u b t [Ne Hu] Hb Hn. rewrite words_word by exact Hu. cbn [app]. destruct b as [|c b]; [congruence|]. cbn [app words_from]. rewrite (Hb c (or_introl eq_refl)). destruct u as [|d u]; [congruence|].
  apply (f_equal (cons (d :: u))). apply words_blank. intros e He. apply Hb. right. exact He.
Qed.
Lemma blanks : forall n, blank (repeat " "%char n). Proof. intros n c H. apply repeat_spec in H. subst c. reflexivity. Qed.
Lemma blank_app : forall a b, blank a -> blank b -> blank (a ++ b). Proof. intros a b A B c H. apply in_app_or in H. destruct H; auto. Qed.
Theorem C80_machine_readable : forall N sep (rows : list (list text)), blank sep -> sep <> [] -> (forall r c, In r rows -> In c r -> is_word c) ->
  words (table (fun _ c => c) N sep rows) = concat rows.
Proof.
  intros N sep rows Hs Hn. assert (Row : forall r t, (forall c, In c r -> is_word c) -> words_from [] (row_text (N + length sep) left_justified sep r ++ t) = r ++ words_from [] t).
  { induction r as [|c r IH]; intros t Hr; [reflexivity|]. assert (Hc : is_word c) by (apply Hr; left; reflexivity). destruct r as [|c' r].
    - cbn [row_text app]. unfold left_justified. rewrite <- !app_assoc. rewrite (app_assoc (repeat _ _)). apply words_cell; [exact Hc|apply blank_app; [apply blanks|intros e [<-|[]]; reflexivity]|]. intros Z. apply app_eq_nil in Z. destruct Z as [_ Z]. discriminate Z.
    - change (row_text (N + length sep) left_justified sep (c :: c' :: r)) with (left_justified (N + length sep) c ++ sep ++ row_text (N + length sep) left_justified sep (c' :: r)).
      unfold left_justified. rewrite <- !app_assoc. rewrite (app_assoc (repeat _ _)). rewrite words_cell; [|exact Hc|apply blank_app; [apply blanks|exact Hs]|intros Z; apply app_eq_nil in Z; destruct Z; congruence].
      cbn [app]. apply (f_equal (cons c)). apply (IH t). intros d Hd. apply Hr. right. exact Hd. }
  induction rows as [|r rows IH]; intros H; [reflexivity|]. unfold words, table. cbn [flat_map concat]. rewrite map_id. rewrite Row by (intros c Hc; apply (H r c); [left; reflexivity|exact Hc]).
  apply (f_equal (app r)). apply IH. intros r' c Hr. apply H. right. exact Hr.
Qed.

(** a program for the examples: numbers are printed by their digits *)
Definition show_nat (p : Z) (n : nat) : text := if n =? 7 then ["7"%char] else ["1"%char; "2"%char].
Definition no_files : text -> option text := fun _ => None.
Definition prog : list (@op nat) := [Construct 0 (logger_name (lit "a.log")); File 0 [1; 7]; Both 0 [7; 1]].
Example C80_file_applies : exists w, run show_nat 4 prog (init_world no_files) = Some w /\
  w_disk w (lit "a.log") = Some (lit "12    7    " ++ [newline] ++ lit "7     12   " ++ [newline]) /\
  unused (lit "a.log") ([] : list (@op nat)) /\ unused (lit "a.log") (tl prog) /\ (forall o', ~ In (Construct 0 o') (tl prog)).
Proof.
  eexists. split; [reflexivity|]. split; [reflexivity|]. split; [intros k o []|]. split; [intros k o [Z|[Z|[]]]; discriminate Z|intros o [Z|[Z|[]]]; discriminate Z].
Qed.
(** a crash in the middle of the second row leaves the first one *)
Example C80_crash_applies : exists w wc, run show_nat 4 [Construct 0 (logger_name (lit "a.log")); File 0 [1; 7]] (init_world no_files) = Some w /\
  crash show_nat 4 3 (File 0 [7; 1]) w = Some wc /\ on_disk wc 0 (lit "a.log") (lit "12    7    " ++ [newline] ++ lit "7  ").
Proof. do 2 eexists. split; [reflexivity|]. split; [reflexivity|]. exists 3. reflexivity. Qed.
Example C80_machine_readable_applies : exists rows, rows = [[lit "1.5"; lit "2e-3"]; [lit "-7"; lit "x"]] /\ words (table (fun _ c => c) 4 (lit " ") rows) = [lit "1.5"; lit "2e-3"; lit "-7"; lit "x"].
Proof. eexists. split; reflexivity. Qed.

(** a logger constructed with the mode app does not append: the content of an existing file is lost with the first row, and likewise when the program constructs the logger again *)
Theorem C80_append_refuted : exists (disk : text -> option text) (h : list (@op nat)) w,
  disk (lit "a.log") = Some (lit "old") /\ h = [Construct 0 (logger_name_mode (lit "a.log") App); File 0 [1]; Destroy 0; Construct 0 (logger_name_mode (lit "a.log") App); File 0 [7]] /\
  run show_nat 4 h (init_world disk) = Some w /\ w_disk w (lit "a.log") = Some (lit "7    " ++ [newline]).
Proof. exists (fun _ => Some (lit "old")). do 2 eexists. split; [reflexivity|]. split; [reflexivity|]. split; reflexivity. Qed.
(** two loggers with the same name overwrite each other's file *)
Theorem C80_same_name_refuted : exists (h : list (@op nat)) w, h = [Construct 0 (logger_name (lit "a.log")); File 0 [1]; Construct 1 (logger_name (lit "a.log")); File 1 [7]] /\
  run show_nat 4 h (init_world no_files) = Some w /\ w_disk w (lit "a.log") = Some (lit "7    " ++ [newline]).
Proof. do 2 eexists. split; [reflexivity|]. split; reflexivity. Qed.
(** the same call term(7) prints two different lines, depending on whether a row with two values has been printed before, by any logger *)
Theorem C80_terminal_history_refuted : exists (h : list (@op nat)) w, h = [Construct 0 default_logger; Term 0 [7]; Construct 1 default_logger; Term 1 [1; 1]; Term 0 [7]] /\
  run show_nat 4 h (init_world no_files) = Some w /\ o_disk (w_out w) = lit "    7" ++ [newline] ++ lit "12    12   " ++ [newline] ++ lit "7    " ++ [newline].
Proof. do 2 eexists. split; [reflexivity|]. split; reflexivity. Qed.
(** with a separator that is not white space the cells are padded, so a reader that splits at the separator gets blanks; with an empty separator two cells can run together *)
Theorem C80_empty_separator_refuted : exists rows : list (list text), rows = [[lit "1.25"; lit "7"]] /\ words (table (fun _ c => c) 4 [] rows) = [lit "1.257"].
Proof. eexists. split; reflexivity. Qed.

(* BEGIN ASSUMPTIONS *)
Print Assumptions C80_file.
Print Assumptions C80_crash.
Print Assumptions C80_terminal.
Print Assumptions C80_columns.
Print Assumptions C80_row_length.
Print Assumptions C80_machine_readable.
Print Assumptions C80_append_refuted.
Print Assumptions C80_same_name_refuted.
Print Assumptions C80_terminal_history_refuted.
Print Assumptions C80_empty_separator_refuted.
