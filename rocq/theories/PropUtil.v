(** Properties C40 (GenericMatrix), C41 (assignment of evaluators), C46 (file type), C47 (binary files),
    C48 (stopwatch). *)
From Coq Require Import Ascii String ZArith QArith List Arith Lia Permutation.
From Verif Require Import ModelBase ModelTree SpecTree ProofTree ProofTreeWF ProofTreeHist ProofTreeGeo ProofTreeLook PropTree ModelUtil SpecUtil.
Import ListNotations.
Local Close Scope Q_scope.
Local Open Scope nat_scope.

(** ** C40 *)
Lemma resize_length : forall {A} (d : A) n v, length (resize_vec d n v) = n.
Proof. intros. unfold resize_vec. rewrite app_length, firstn_length, repeat_length. lia. Qed.
Lemma resize_nth : forall {A} (d : A) n v i, i < n -> nth i (resize_vec d n v) d = if i <? length v then nth i v d else d.
Proof.
  intros A d n v i Hi. unfold resize_vec. destruct (Nat.ltb_spec i (length v)).
  - rewrite app_nth1 by (rewrite firstn_length; lia).
    rewrite <- (firstn_skipn n v) at 2. rewrite app_nth1 by (rewrite firstn_length; lia). reflexivity.
  - rewrite app_nth2 by (rewrite firstn_length; lia). apply nth_repeat.
Qed.

Section Matrix.
Context {T : Type}.
Variable dflt : T.
Record describes (M : gmat T) (A : vmat T) : Prop := {
  ds_rows : g_rows M = v_rows A;
  ds_cols : g_cols M = v_cols A;
  ds_data : length (g_data M) = v_cols A;
  ds_col : forall j, j < v_cols A -> length (nth j (g_data M) []) = v_rows A;
  ds_at : forall i j, i < v_rows A -> j < v_cols A -> nth i (nth j (g_data M) []) dflt = v_at A i j }.

Lemma describes_read : forall M A i j, describes M A -> inside A i j -> g_read M i j = Some (v_at A i j).
Proof.
  intros M A i j D [Hi Hj]. unfold g_read. rewrite (get_nth _ j []) by (rewrite (ds_data _ _ D); assumption). cbn [bind].
  rewrite (get_nth _ i dflt) by (rewrite (ds_col _ _ D) by assumption; assumption). rewrite (ds_at _ _ D) by assumption. reflexivity.
Qed.
Lemma describes_resize : forall M A r c, describes M A -> describes (g_resize dflt r c M) (v_resize dflt r c A).
Proof.
  intros M A r c D. constructor; cbn [g_resize g_rows g_cols g_data v_resize v_rows v_cols v_at]; auto.
  - rewrite map_length. apply resize_length.
  - intros j Hj. rewrite (nth_indep _ [] (resize_vec dflt r [])) by (rewrite map_length, resize_length; assumption).
    rewrite map_nth. apply resize_length.
  - intros i j Hi Hj. rewrite (nth_indep _ [] (resize_vec dflt r [])) by (rewrite map_length, resize_length; assumption).
    rewrite map_nth, (resize_nth dflt) by assumption. rewrite (resize_nth []) by assumption. rewrite (ds_data _ _ D).
    destruct (Nat.ltb_spec j (v_cols A)) as [Lj|Lj].
    + rewrite (ds_col _ _ D) by assumption. rewrite Bool.andb_true_r. destruct (Nat.ltb_spec i (v_rows A)); [|reflexivity].
      apply (ds_at _ _ D); assumption.
    + rewrite Bool.andb_false_r. reflexivity.
Qed.
Lemma describes_write : forall M A i j x, describes M A -> inside A i j ->
  exists M', g_write M i j x = Some M' /\ describes M' (v_write i j x A).
Proof.
  intros M A i j x D [Hi Hj]. unfold g_write. rewrite (get_nth _ j []) by (rewrite (ds_data _ _ D); assumption). cbn [bind].
  destruct (set_spec (nth j (g_data M) []) i x) as [c [Ec [Lc Nc]]]; [rewrite (ds_col _ _ D) by assumption; assumption|].
  rewrite Ec. cbn [bind]. destruct (set_spec (g_data M) j c) as [d [Ed [Ld Nd]]]; [rewrite (ds_data _ _ D); assumption|].
  rewrite Ed. cbn [bind]. eexists. split; [reflexivity|].
  constructor; cbn [g_rows g_cols g_data v_write v_rows v_cols v_at]; try apply D.
  - rewrite Ld. apply D.
  - intros j' Hj'. rewrite Nd. destruct (Nat.eqb_spec j' j) as [->|]; [rewrite Lc|]; apply D; assumption.
  - intros i' j' Hi' Hj'. rewrite Nd. destruct (Nat.eqb_spec j' j) as [->|].
    + rewrite Nc, Bool.andb_true_r. destruct (Nat.eqb_spec i' i); [reflexivity|]. apply D; assumption.
    + rewrite Bool.andb_false_r. apply D; assumption.
Qed.

(** All histories of resizes, writes and assignments on any number of matrices: as long as writes stay inside,
    the objects behave like independent values. *)
Theorem C40_behaves_like_values : forall ops, v_valid dflt ops (fun _ => v_empty dflt) ->
  exists env, g_run dflt ops (fun _ => g_empty) = Some env
    /\ forall k, let A := v_run dflt ops (fun _ => v_empty dflt) k in
         g_rows (env k) = v_rows A /\ g_cols (env k) = v_cols A
         /\ forall i j, inside A i j -> g_read (env k) i j = Some (v_at A i j).
Proof.
  assert (X : forall ops e v, (forall k, describes (e k) (v k)) -> v_valid dflt ops v ->
    exists env, g_run dflt ops e = Some env /\ forall k, describes (env k) (v_run dflt ops v k)).
  { induction ops as [|o ops IH]; intros e v R Hv; cbn [g_run v_run fold_left].
    - exists e. auto.
    - destruct Hv as [Ho Hv]. destruct o as [k r c|k i j x|k l]; cbn [g_step bind].
      + apply IH; [|assumption]. intros l. unfold g_upd. cbn [v_step].
        destruct (Nat.eqb_spec l k); [apply describes_resize|]; apply R.
      + destruct (describes_write (e k) (v k) i j x (R k) Ho) as [M' [E D]]. rewrite E. cbn [bind].
        apply IH; [|assumption]. intros l. unfold g_upd. cbn [v_step]. destruct (Nat.eqb_spec l k); [assumption|apply R].
      + apply IH; [|assumption]. intros l'. unfold g_upd, g_copy. cbn [v_step].
        destruct (Nat.eqb_spec l' k); [|apply R]. destruct (R l) as [a b c d e']. constructor; assumption. }
  intros ops Hv. destruct (X ops (fun _ => g_empty) (fun _ => v_empty dflt)) as [env [E D]]; [|assumption|].
  - intros k. constructor; cbn; try reflexivity; intros; lia.
  - exists env. split; [exact E|]. intros k A. destruct (D k) as [a b c d e] eqn:Q. split; [assumption|]. split; [assumption|].
    intros i j Hij. apply describes_read; [apply D|assumption].
Qed.

(** The move constructor: the new matrix has all entries; the source keeps reporting its sizes but has no
    entries left, so reading it is out of range. *)
Theorem C40_moved_from_matrix : forall (M : gmat T), let (N, src) := g_move M in
  (forall i j, g_read N i j = g_read M i j) /\ g_rows N = g_rows M /\ g_cols N = g_cols M
  /\ g_rows src = g_rows M /\ g_cols src = g_cols M /\ (forall i j, g_read src i j = None).
Proof. intros M. cbn. repeat split. intros i j. unfold g_read. cbn. destruct j; reflexivity. Qed.
End Matrix.

Example C40_history : v_valid 0 [GResize 0 2 3; GWrite 0 1 2 7; GAssign 1 0; GWrite 1 0 0 5; GResize 0 3 3] (fun _ => v_empty 0)
  /\ (env <- g_run 0 [GResize 0 2 3; GWrite 0 1 2 7; GAssign 1 0; GWrite 1 0 0 5; GResize 0 3 3] (fun _ => g_empty) ;;
      Some (g_read (env 0) 1 2, g_read (env 0) 0 0, g_read (env 0) 2 2, g_read (env 1) 0 0, g_read (env 1) 1 2))
     = Some (Some 7, Some 0, Some 0, Some 5, Some 7).
Proof. split; [|reflexivity]. cbn. unfold inside. cbn. repeat split; lia. Qed.

(** ** C48 *)
Lemma laps_spec : forall times s, s_started s = true -> exists outs s',
  sw_laps times s = Some (outs, s') /\ s_started s' = true /\ length outs = length times
  /\ s_durations s' = s_durations s ++ outs /\ s_lapped s' = (s_lapped s || negb (length times =? 0))%bool
  /\ s_p s' = last (map snd times) (s_p s)
  /\ (forall k, k < length times -> nth k outs 0%Z = (fst (nth k times (0, 0)) - nth k (s_p s :: map snd times) 0)%Z).
Proof.
  induction times as [|[a b] times IH]; intros s Hs; cbn [sw_laps].
  - exists [], s. rewrite app_nil_r. cbn. rewrite Bool.orb_false_r. repeat split; auto. intros; lia.
  - unfold sw_lap. rewrite Hs. cbn [assert bind snd fst].
    destruct (IH (SW b (s_durations s ++ [(a - s_p s)%Z]) true true) eq_refl) as [outs [s' [E [A1 [A2 [A3 [A4 [A5 A6]]]]]]]].
    rewrite E. cbn [bind fst snd]. cbn [s_durations s_lapped s_p] in *.
    exists ((a - s_p s)%Z :: outs), s'. split; [reflexivity|]. split; [assumption|]. split; [cbn; lia|].
    split; [rewrite A3, <- app_assoc; reflexivity|].
    split; [rewrite A4; cbn; rewrite Bool.orb_true_r; reflexivity|].
    split.
    + rewrite A5. cbn [map snd]. destruct (map snd times); [reflexivity|]. cbn [last].
      clear. revert z. induction l as [|x l IH]; intros z; [reflexivity|]. cbn [last]. destruct l; [reflexivity|]. apply (IH x).
    + intros [|k] Hk; [reflexivity|]. cbn [nth map snd fst length] in *. rewrite A6 by lia. destruct k; reflexivity.
Qed.

Lemma fold_add : forall l a, fold_left Z.add l a = (a + fold_left Z.add l 0)%Z.
Proof.
  induction l as [|x l IH]; intros a; cbn [fold_left]; [lia|]. rewrite (IH (a + x)%Z), (IH (0 + x)%Z). lia.
Qed.

(** One run with at least one lap: k-th lap returns the time since the start or the end of the previous lap,
    stop returns their sum, and afterwards the stopwatch can be started again. *)
Theorem C48_run_with_laps : forall s t0 times tn, s_started s = false -> s_lapped s = false -> times <> [] ->
  exists s1 outs s2 s3, sw_start t0 s = Some s1 /\ sw_laps times s1 = Some (outs, s2)
    /\ sw_stop tn s2 = Some (fold_left Z.add outs 0%Z, s3)
    /\ s_durations s3 = outs /\ s_started s3 = false /\ s_lapped s3 = false
    /\ length outs = length times
    /\ forall k, k < length times -> nth k outs 0%Z = (fst (nth k times (0, 0)) - nth k (t0 :: map snd times) 0)%Z.
Proof.
  intros s t0 times tn Hs Hl Hn. unfold sw_start. rewrite Hs. cbn [negb assert bind].
  destruct (laps_spec times (SW t0 [] true (s_lapped s)) eq_refl) as [outs [s2 [E [A1 [A2 [A3 [A4 [A5 A6]]]]]]]].
  eexists. exists outs, s2. eexists. split; [reflexivity|]. split; [exact E|].
  unfold sw_stop. rewrite A1. cbn [assert bind]. rewrite A4.
  replace (length times =? 0) with false by (symmetry; apply Nat.eqb_neq; destruct times; [congruence|cbn; lia]).
  rewrite Bool.orb_true_r. cbn [s_durations s_started s_lapped app] in *. rewrite A3. repeat split; auto.
Qed.

(** If the watch is stopped when the last lap ends and its own timekeeping takes no time, stop returns the time
    since start. *)
Theorem C48_stop_is_total_time : forall s t0 times tn, s_started s = false -> s_lapped s = false ->
  times <> [] -> (forall a b, In (a, b) times -> a = b) -> tn = last (map snd times) t0 ->
  exists s1 outs s2 s3, sw_start t0 s = Some s1 /\ sw_laps times s1 = Some (outs, s2) /\ sw_stop tn s2 = Some ((tn - t0)%Z, s3).
Proof.
  intros s t0 times tn Hs Hl Hn Heq ->.
  destruct (C48_run_with_laps s t0 times (last (map snd times) t0) Hs Hl Hn) as [s1 [outs [s2 [s3 [E1 [E2 [E3 [_ [_ [_ [L V]]]]]]]]]]].
  exists s1, outs, s2, s3. split; [exact E1|]. split; [exact E2|]. rewrite E3. f_equal. f_equal.
  clear E1 E2 E3 Hn s Hs Hl s1 s2 s3. revert t0 outs L V. induction times as [|[a b] times IH]; intros t0 outs L V.
  - destruct outs; [|discriminate]. cbn. lia.
  - destruct outs as [|o outs]; [discriminate|]. cbn [fold_left]. rewrite fold_add.
    pose proof (V 0 ltac:(cbn; lia)) as V0. cbn in V0. rewrite V0.
    assert (a = b) by (apply Heq; left; reflexivity). subst b.
    rewrite (IH ltac:(intros; apply Heq; right; assumption) a outs ltac:(cbn in L; lia)).
    + cbn [map snd]. destruct (map snd times) eqn:Q; [cbn; lia|].
      assert (Z : last (a :: z :: l) t0 = last (z :: l) a).
      { cbn [last]. clear. revert z. induction l as [|x l IH]; intros z; [reflexivity|]. cbn [last] in *. destruct l; [reflexivity|]. apply (IH x). }
      rewrite Z. lia.
    + intros k Hk. pose proof (V (S k) ltac:(cbn; lia)) as Vk. cbn [nth map snd fst] in Vk. rewrite Vk. destruct k; reflexivity.
Qed.

(** Any number of runs with laps on the same object. *)
Fixpoint sw_runs (rs : list (Z * list (Z * Z) * Z)) (s : stopwatch) : option stopwatch :=
  match rs with
  | [] => Some s
  | (t0, times, tn) :: r => s1 <- sw_start t0 s ;; os <- sw_laps times s1 ;; os' <- sw_stop tn (snd os) ;; sw_runs r (snd os')
  end.
Theorem C48_repeated_runs : forall rs, (forall t0 times tn, In (t0, times, tn) rs -> times <> []) -> sw_runs rs sw_new <> None.
Proof.
  assert (X : forall rs s, s_started s = false -> s_lapped s = false ->
     (forall t0 times tn, In (t0, times, tn) rs -> times <> []) -> sw_runs rs s <> None).
  { induction rs as [|[[t0 times] tn] rs IH]; intros s Hs Hl H; cbn [sw_runs]; [discriminate|].
    destruct (C48_run_with_laps s t0 times tn Hs Hl) as [s1 [outs [s2 [s3 [E1 [E2 [E3 [_ [A [B _]]]]]]]]]].
    { apply (H t0 times tn). left. reflexivity. }
    rewrite E1. cbn [bind]. rewrite E2. cbn [bind snd]. rewrite E3. cbn [bind snd].
    apply IH; try assumption. intros. eapply H. right. eassumption. }
  intros rs H. apply X; [reflexivity|reflexivity|assumption].
Qed.

(** A run without laps: stop returns the time since start, but the watch stays started: every later start fails
    its assertion (until a lap and another stop). *)
Theorem C48_restart_refuted : forall t0 t1, exists s1 s2,
  sw_start t0 sw_new = Some s1 /\ sw_stop t1 s1 = Some ((t1 - t0)%Z, s2) /\ forall t2, sw_start t2 s2 = None.
Proof. intros t0 t1. eexists. eexists. split; [reflexivity|]. split; [reflexivity|]. reflexivity. Qed.

(** After a lap, stop ignores the time between the last lap and the call. *)
Theorem C48_stop_is_total_time_refuted : exists t0 t1 t2 s1 s2 s3 o r, (t0 <= t1 <= t2)%Z /\
  sw_start t0 sw_new = Some s1 /\ sw_lap t1 t1 s1 = Some (o, s2) /\ sw_stop t2 s2 = Some (r, s3) /\ (r <> t2 - t0)%Z.
Proof.
  exists 0%Z, 1%Z, 10%Z. do 5 eexists. split; [lia|]. split; [reflexivity|]. split; [reflexivity|]. split; [reflexivity|]. cbn. lia.
Qed.

(** ** C46 *)
Lemma after_dot_none : forall s, no_dot s -> after_dot s = None.
Proof.
  induction s as [|c s IH]; intros H; [reflexivity|]. cbn [after_dot]. unfold no_dot in *. cbn [list_ascii_of_string] in H.
  destruct (Ascii.eqb_spec c "."%char) as [->|]; [exfalso; apply H; left; reflexivity|]. apply IH. intros Q. apply H. right. assumption.
Qed.
Lemma after_dot_app : forall s r, no_dot s -> after_dot (s ++ String "." r) = Some r.
Proof.
  induction s as [|c s IH]; intros r H; [reflexivity|]. cbn [append after_dot]. unfold no_dot in *. cbn [list_ascii_of_string] in H.
  destruct (Ascii.eqb_spec c "."%char) as [->|]; [exfalso; apply H; left; reflexivity|]. apply IH. intros Q. apply H. right. assumption.
Qed.
Lemma dot_split : forall s, no_dot s \/ exists b r, s = (b ++ String "." r)%string /\ no_dot b.
Proof.
  induction s as [|c s IH]; [left; intros []|]. destruct (Ascii.eqb_spec c "."%char) as [->|Ne].
  - right. exists EmptyString, s. split; [reflexivity|intros []].
  - destruct IH as [H|[b [r [-> H]]]].
    + left. intros [Q|Q]; [congruence|contradiction].
    + right. exists (String c b), r. split; [reflexivity|]. intros [Q|Q]; [congruence|contradiction].
Qed.

(** The reader that is chosen, for every path: the text after the first dot decides. *)
Theorem C46_file_type : forall s,
  (file_type s = Some ReadDAT <-> s = "dat"%string \/ exists b, no_dot b /\ s = (b ++ ".dat")%string)
  /\ (file_type s = Some ReadIGS <-> s = "igs"%string \/ exists b, no_dot b /\ s = (b ++ ".igs")%string).
Proof.
  assert (Inj : forall b1 b2 r1 r2, no_dot b1 -> no_dot b2 -> (b1 ++ String "." r1)%string = (b2 ++ String "." r2)%string -> r1 = r2).
  { intros b1 b2 r1 r2 H1 H2 E. pose proof (after_dot_app b1 r1 H1) as A. rewrite E, after_dot_app in A by assumption. congruence. }
  intros s. unfold file_type, file_suffix. destruct (dot_split s) as [H|[b [r [-> H]]]].
  - rewrite after_dot_none by assumption. split.
    + destruct (String.eqb_spec s "dat") as [->|N]; [split; auto|].
      split; [destruct (String.eqb s "igs"); discriminate|]. intros [Q|[b [Hb ->]]]; [contradiction|].
      exfalso. pose proof (after_dot_app b "dat" Hb) as A. rewrite after_dot_none in A by assumption. discriminate.
    + destruct (String.eqb_spec s "dat") as [->|N].
      * split; [discriminate|]. intros [Q|[b [Hb Q]]]; [discriminate|].
        pose proof (after_dot_app b "igs" Hb) as A. rewrite <- Q in A. discriminate.
      * destruct (String.eqb_spec s "igs") as [->|N']; [split; auto|]. split; [discriminate|].
        intros [Q|[b [Hb ->]]]; [contradiction|].
        exfalso. pose proof (after_dot_app b "igs" Hb) as A. rewrite after_dot_none in A by assumption. discriminate.
  - rewrite after_dot_app by assumption.
    assert (ND : forall t, no_dot t -> (b ++ String "." r)%string <> t).
    { intros t Ht Q. pose proof (after_dot_app b r H) as A. rewrite Q, after_dot_none in A by assumption. discriminate. }
    assert (Dd : no_dot "dat") by (unfold no_dot; cbn; intuition discriminate).
    assert (Di : no_dot "igs") by (unfold no_dot; cbn; intuition discriminate).
    split.
    + destruct (String.eqb_spec r "dat") as [->|N].
      * split; [intros _; right; exists b; auto|reflexivity].
      * split; [destruct (String.eqb r "igs"); discriminate|]. intros [Q|[b' [Hb' Q]]].
        -- exfalso. exact (ND _ Dd Q).
        -- exfalso. apply N. exact (Inj b b' r "dat"%string H Hb' Q).
    + destruct (String.eqb_spec r "dat") as [->|N].
      * split; [discriminate|]. intros [Q|[b' [Hb' Q]]].
        -- exfalso. exact (ND _ Di Q).
        -- pose proof (Inj b b' "dat"%string "igs"%string H Hb' Q). discriminate.
      * destruct (String.eqb_spec r "igs") as [->|N'].
        -- split; [intros _; right; exists b; auto|reflexivity].
        -- split; [discriminate|]. intros [Q|[b' [Hb' Q]]].
           ++ exfalso. exact (ND _ Di Q).
           ++ exfalso. apply N'. exact (Inj b b' r "igs"%string H Hb' Q).
Qed.

(** "wherever the file lies" is false: any dot in front of the extension (a relative path, a dotted directory or
    file name) leads to the failed assertion. *)
Theorem C46_any_path_refuted : forall b r, no_dot b -> file_type (b ++ "." ++ r ++ ".dat") = None.
Proof.
  intros b r Hb.
  destruct (C46_file_type (b ++ "." ++ r ++ ".dat")) as [D I].
  assert (E : file_suffix (b ++ "." ++ r ++ ".dat") = (r ++ ".dat")%string).
  { unfold file_suffix. change (b ++ "." ++ r ++ ".dat")%string with (b ++ String "." (r ++ ".dat"))%string.
    rewrite after_dot_app by assumption. reflexivity. }
  assert (Ln : forall a c, String.length (a ++ c) = String.length a + String.length c).
  { induction a as [|x a IH]; intros c; [reflexivity|]. cbn. rewrite IH. reflexivity. }
  unfold file_type. rewrite E.
  destruct (String.eqb_spec (r ++ ".dat") "dat") as [Q|_].
  { apply (f_equal String.length) in Q. rewrite Ln in Q. cbn in Q. lia. }
  destruct (String.eqb_spec (r ++ ".dat") "igs") as [Q|_]; [|reflexivity].
  apply (f_equal String.length) in Q. rewrite Ln in Q. cbn in Q. lia.
Qed.
Example C46_examples : file_type "sphere.dat" = Some ReadDAT /\ file_type "geo/fichera.igs" = Some ReadIGS
  /\ file_type "../geo/sphere.dat" = None /\ file_type "torus.v2.dat" = None.
Proof. repeat split. Qed.

(** ** C47 *)
Lemma le_bytes_length : forall n z, length (le_bytes n z) = n.
Proof. induction n as [|n IH]; intros z; cbn [le_bytes length]; [reflexivity|]. rewrite IH. reflexivity. Qed.
Lemma le_round : forall n z, le_value (le_bytes n z) = (z mod 256 ^ Z.of_nat n)%Z.
Proof.
  induction n as [|n IH]; intros z; cbn [le_bytes le_value]; [cbn; rewrite Z.mod_1_r; reflexivity|].
  rewrite IH. rewrite Z2Nat.id by (apply Z.mod_pos_bound; lia).
  rewrite Nat2Z.inj_succ, Z.pow_succ_r by lia. assert (0 < 256 ^ Z.of_nat n)%Z by (apply Z.pow_pos_nonneg; lia).
  rewrite Z.rem_mul_r by lia. lia.
Qed.
Lemma int_round : forall z, (0 <= z <= INT_MAX)%Z -> int_value (int_bytes z) = z.
Proof.
  intros z H. unfold int_value, int_bytes. rewrite le_round. change (256 ^ Z.of_nat 4)%Z with (2 ^ 32)%Z. unfold INT_MAX in H.
  rewrite Z.mod_small by lia. replace (z <? 2 ^ 31)%Z with true by (symmetry; apply Z.ltb_lt; lia). reflexivity.
Qed.
Lemma read_exact : forall buf x f, length x = length buf -> read_bytes buf (x ++ f) = (x, f).
Proof.
  intros buf x f H. unfold read_bytes. rewrite <- H, firstn_app, Nat.sub_diag, firstn_O, app_nil_r, firstn_all.
  rewrite H, skipn_all, app_nil_r. rewrite skipn_app, <- H, skipn_all, Nat.sub_diag. reflexivity.
Qed.

Lemma some_inj : forall {A} (x y : A), Some x = Some y -> y = x.
Proof. congruence. Qed.

Section BinaryProofs.
Context {S : Type}.
Variables (size : nat) (enc : S -> list byte) (dec : list byte -> S).
Hypothesis Lenc : forall x, length (enc x) = size.
Hypothesis Dec : forall x, dec (enc x) = x.

Lemma flat_length : forall l, length (flat_map enc l) = length l * size.
Proof. induction l as [|x l IH]; [reflexivity|]. cbn. rewrite app_length, Lenc, IH. reflexivity. Qed.
Lemma flat_scalar : forall l n d, n < length l -> scalar_at size dec (flat_map enc l) n = nth n l d.
Proof.
  unfold scalar_at. induction l as [|x l IH]; intros n d Hn; [cbn in Hn; lia|]. cbn [flat_map]. destruct n as [|n].
  - cbn [Nat.mul skipn nth]. rewrite firstn_app, Lenc, Nat.sub_diag, firstn_O, app_nil_r. rewrite <- (Lenc x), firstn_all. apply Dec.
  - cbn [nth]. rewrite skipn_app, Lenc. rewrite skipn_all2 by (rewrite Lenc; lia). cbn [app].
    replace (Datatypes.S n * size - size) with (n * size) by lia. apply IH. cbn in Hn. lia.
Qed.
Lemma flat_map_length_const : forall {A B} (f : A -> list B) l c, (forall x, In x l -> length (f x) = c) -> length (flat_map f l) = length l * c.
Proof.
  intros A B f l c H. induction l as [|x l IH]; [reflexivity|]. cbn. rewrite app_length, (H x (or_introl eq_refl)), IH; [reflexivity|].
  intros y Hy. apply H. right. assumption.
Qed.
Lemma flat_map_nth : forall {B} (f : nat -> nat -> B) r c i j d, i < r -> j < c ->
  nth (i * c + j) (flat_map (fun i => map (fun j => f i j) (seq 0 c)) (seq 0 r)) d = f i j.
Proof.
  intros B f r c i j d Hi Hj.
  assert (X : forall k a, i < k -> nth (i * c + j) (flat_map (fun i => map (fun j => f i j) (seq 0 c)) (seq a k)) d = f (a + i) j).
  { clear Hi r. revert i. intros i k. revert i. induction k as [|k IH]; intros i a Hi; [lia|]. cbn [seq flat_map].
    destruct i as [|i].
    - rewrite app_nth1 by (rewrite map_length, seq_length; cbn; lia). cbn [Nat.mul Nat.add].
      rewrite (nth_indep _ d (f a 0)) by (rewrite map_length, seq_length; lia). rewrite (map_nth (fun j => f a j) (seq 0 c) 0).
      rewrite seq_nth by assumption. rewrite Nat.add_0_r. reflexivity.
    - rewrite app_nth2 by (rewrite map_length, seq_length; cbn; lia). rewrite map_length, seq_length.
      replace (Datatypes.S i * c + j - c) with (i * c + j) by (cbn; lia). rewrite IH by lia. f_equal. lia. }
  apply (X r 0 Hi).
Qed.
Lemma stored_length : forall rm (A : dmat S), length (stored rm A) = d_rows A * d_cols A.
Proof.
  intros rm A. unfold stored. destruct rm.
  - rewrite (flat_map_length_const _ _ (d_cols A)); [rewrite seq_length; reflexivity|]. intros. rewrite map_length, seq_length. reflexivity.
  - rewrite (flat_map_length_const _ _ (d_rows A)); [rewrite seq_length; lia|]. intros. rewrite map_length, seq_length. reflexivity.
Qed.

(** Writing a matrix and reading the file back gives the matrix, for both storage orders, whatever the target
    held before. *)
Theorem C47_round_trip : forall rowmajor (A : dmat S) file junk target, (Z.of_nat size <= INT_MAX)%Z ->
  print2bin size enc rowmajor A = Some file ->
  exists B, bin2Mat size dec file junk target = Some (0, B) /\ same_matrix B A.
Proof.
  intros rm A file junk target Hs E. unfold print2bin in E. apply bind_some in E. destruct E as [[] [Ha E]]. apply some_inj in E. subst file.
  unfold assert in Ha. match type of Ha with (if ?b then _ else _) = _ => destruct b eqn:Hb; [|discriminate] end. clear Ha.
  apply Bool.andb_true_iff in Hb. destruct Hb as [Hb H3]. apply Bool.andb_true_iff in Hb. destruct Hb as [H1 H2].
  apply Z.leb_le in H1, H2, H3.
  unfold bin2Mat. cbv beta iota zeta; rewrite read_exact by (unfold int_bytes; rewrite !le_bytes_length; reflexivity).
  cbv beta iota zeta; rewrite read_exact by (unfold int_bytes; rewrite !le_bytes_length; reflexivity).
  cbv beta iota zeta; rewrite read_exact by (unfold int_bytes; rewrite !le_bytes_length; reflexivity).
  cbv beta iota zeta; rewrite read_exact by (unfold int_bytes; rewrite !le_bytes_length; reflexivity).
  cbv beta iota zeta. rewrite !int_round by (unfold INT_MAX in *; destruct rm; lia).
  rewrite Z.eqb_refl. cbn [negb].
  replace (0 <=? Z.of_nat (d_rows A))%Z with true by (symmetry; apply Z.leb_le; lia).
  replace (0 <=? Z.of_nat (d_cols A))%Z with true by (symmetry; apply Z.leb_le; lia).
  replace (Z.of_nat (d_rows A) * Z.of_nat (d_cols A) * Z.of_nat size <=? INT_MAX)%Z with true by (symmetry; apply Z.leb_le; assumption).
  cbn [andb assert bind]. rewrite !Nat2Z.id.
  assert (R : read_bytes (resize_vec 0 (d_rows A * d_cols A * size) junk) (flat_map enc (stored rm A)) = (flat_map enc (stored rm A), [])).
  { rewrite <- (app_nil_r (flat_map enc (stored rm A))) at 1. apply read_exact. rewrite resize_length, flat_length, stored_length. reflexivity. }
  rewrite R. destruct rm; cbn [Z.eqb].
  - eexists. split; [reflexivity|]. split; [reflexivity|]. split; [reflexivity|]. cbn [d_rows d_cols d_at]. intros i j Hi Hj.
    rewrite (flat_scalar _ _ (d_at A 0 0)) by (rewrite stored_length; nia). unfold stored. apply flat_map_nth; assumption.
  - eexists. split; [reflexivity|]. split; [reflexivity|]. split; [reflexivity|]. cbn [d_rows d_cols d_at]. intros i j Hi Hj.
    rewrite (flat_scalar _ _ (d_at A 0 0)) by (rewrite stored_length; nia). unfold stored.
    apply (flat_map_nth (fun j i => d_at A i j)); assumption.
Qed.

(** A file that holds scalars of another size, and a file that cannot be opened, are reported with the return
    value 1 and the target is left alone. *)
Theorem C47_mismatch_reported : forall (S' : Type) size' (enc' : S' -> list byte) rowmajor (A : dmat S') file junk (target : dmat S),
  (Z.of_nat size <= INT_MAX)%Z -> (Z.of_nat size' <= INT_MAX)%Z -> size' <> size ->
  print2bin size' enc' rowmajor A = Some file -> bin2Mat size dec file junk target = Some (1, target).
Proof.
  intros S' size' enc' rm A file junk target Hs Hs' Ne E. unfold print2bin in E. apply bind_some in E. destruct E as [[] [_ E]].
  apply some_inj in E. subst file. unfold bin2Mat.
  cbv beta iota zeta; rewrite read_exact by (unfold int_bytes; rewrite !le_bytes_length; reflexivity).
  cbv beta iota zeta; rewrite read_exact by (unfold int_bytes; rewrite !le_bytes_length; reflexivity).
  cbv beta iota zeta; rewrite read_exact by (unfold int_bytes; rewrite !le_bytes_length; reflexivity).
  cbv beta iota zeta; rewrite read_exact by (unfold int_bytes; rewrite !le_bytes_length; reflexivity).
  cbv beta iota zeta. rewrite int_round by lia. replace (Z.of_nat size' =? Z.of_nat size)%Z with false by (symmetry; apply Z.eqb_neq; lia). reflexivity.
Qed.
Theorem C47_missing_file_reported : forall junk (target : dmat S), (0 < size)%nat -> (Z.of_nat size <= INT_MAX)%Z ->
  bin2Mat size dec [] junk target = Some (1, target).
Proof.
  intros junk target H H'. unfold bin2Mat, read_bytes. cbn [int_bytes le_bytes length firstn skipn app].
  change (int_value _) with 0%Z at 1. replace (0 =? Z.of_nat size)%Z with false by (symmetry; apply Z.eqb_neq; lia). reflexivity.
Qed.

(** Matrices of 2 GiB and more are outside the guarantee: the number of bytes is computed in int. *)
Theorem C47_size_limit : forall rowmajor (A : dmat S),
  print2bin size enc rowmajor A = None <-> (INT_MAX < Z.of_nat (d_rows A) \/ INT_MAX < Z.of_nat (d_cols A)
     \/ INT_MAX < Z.of_nat (d_rows A) * Z.of_nat (d_cols A) * Z.of_nat size)%Z.
Proof.
  intros rm A. unfold print2bin, assert.
  destruct (Z.leb_spec (Z.of_nat (d_rows A)) INT_MAX), (Z.leb_spec (Z.of_nat (d_cols A)) INT_MAX),
    (Z.leb_spec (Z.of_nat (d_rows A) * Z.of_nat (d_cols A) * Z.of_nat size) INT_MAX); cbn [andb bind]; split; intros Q;
    try discriminate; try reflexivity; lia.
Qed.
End BinaryProofs.

(** scalars of two bytes *)
Example C47_example : let A := DMat 2 3 (fun i j => (1000 * i + j)%nat) in let enc x := [Nat.modulo x 256; Nat.div x 256] in
  let dec l := match l with [a; b] => a + 256 * b | _ => 0 end in
  (f <- print2bin 2 enc false A ;; r <- bin2Mat 2 dec f [] (DMat 0 0 (fun _ _ => 0)) ;; Some (fst r, d_rows (snd r), d_at (snd r) 1 2))
  = Some (0, 2, 1002) /\ (forall x, length (enc x) = 2).
Proof. split; reflexivity. Qed.

(** ** C41 *)
Section EvaluatorProofs.
Context {G V Val : Type}.
Variable ev : tree * G -> nat -> nat -> node -> Q * Q -> list V -> Val.

(** Evaluation on a given element is unaffected by assignment. *)
Theorem C41_evaluate_after_assignment : forall (a b : evaluator G V) patch n uv,
  evaluate ev (assign_evaluator a b) patch n uv = evaluate ev b patch n uv.
Proof. reflexivity. Qed.

(** Evaluation by patch and point is unaffected if the target was initialised for the same number of patches and
    the same level. *)
Lemma loop_determined : forall t1 t2 M l out, t_maxlevel t1 = M -> t_maxlevel t2 = M ->
  (forall a, In a l -> pos_level a = M /\ (exists n, t_store t1 a = Some n /\ node_ok a n) /\ (exists n, t_store t2 a = Some n /\ node_ok a n)) ->
  reorder_loop t1 l out = reorder_loop t2 l out.
Proof.
  intros t1 t2 M l. induction l as [|a l IH]; intros out H1 H2 H; [reflexivity|]. cbn [reorder_loop].
  destruct (H a (or_introl eq_refl)) as [L [[n1 [E1 K1]] [n2 [E2 K2]]]]. rewrite E1, E2. cbn [bind].
  rewrite (tp_index_ok t1 a n1 M K1 H1 L), (tp_index_ok t2 a n2 M K2 H2 L), (nk_id _ _ K1), (nk_id _ _ K2).
  destruct (set out (tp_of M a) (pos_id a)); cbn [bind]; [|reflexivity]. apply IH; auto. intros b Hb. apply H. right. assumption.
Qed.
Lemma wf_leaf_node : forall t l a, WF t l -> In a l -> exists n, t_store t a = Some n /\ node_ok a n.
Proof.
  intros t l a W Ha. pose proof (proj1 (wf_leaf t l W a) Ha) as [n [En _]]. exists n. split; [assumption|].
  apply (wf_node t l W). assumption.
Qed.
Lemma rv_determined : forall (P1 P2 : Type) (c1 : P1 -> P1 -> bool) (c2 : P2 -> P2 -> bool) k1 k2 M t1 t2,
  k1 <> [] -> (forall c, In c k1 -> length c = 4) -> (forall c, In c k2 -> length c = 4) -> length k1 = length k2 ->
  init_tree c1 k1 M = Some t1 -> init_tree c2 k2 M = Some t2 -> reordering_vector t1 = reordering_vector t2.
Proof.
  intros P1 P2 c1 c2 k1 k2 M t1 t2 Hk H1 H2 HL E1 E2.
  destruct (init_tree_ok c1 k1 M H1) as [t1' [l1 [F1 [W1 [Q1 [A1 M1]]]]]]. assert (t1' = t1) by congruence. subst t1'.
  destruct (init_tree_ok c2 k2 M H2) as [t2' [l2 [F2 [W2 [Q2 [A2 M2]]]]]]. assert (t2' = t2) by congruence. subst t2'.
  clear E1 E2 F1 F2. assert (Pos : 0 < length k1) by (destruct k1; [congruence|cbn; lia]).
  destruct (uniform_list t1 l1 M W1 A1) as [L1 N1]. destruct (uniform_list t2 l2 M W2 A2) as [L2 N2].
  assert (X : l1 = l2).
  { apply (@nth_ext addr l1 l2 [] []); [etransitivity; [exact L1|]; etransitivity; [|symmetry; exact L2]; rewrite Q1, Q2, HL; reflexivity|]. intros k Hk'. assert (Hk2 : k < length l2) by (rewrite L2, Q2, <- HL, <- Q1, <- L1; assumption).
    destruct (N1 k Hk') as [I1 V1]. destruct (N2 k Hk2) as [I2 V2].
    destruct (wf_leaf_node t1 l1 _ W1 (nth_In l1 [] Hk')) as [n1 [S1 _]]. destruct (wf_leaf_node t2 l2 _ W2 (nth_In l2 [] Hk2)) as [n2 [S2 _]].
    apply vaddr_inj; [apply (wf_vaddr t1 l1); [assumption|rewrite S1; discriminate]|apply (wf_vaddr t2 l2); [assumption|rewrite S2; discriminate]|etransitivity; [exact V1|symmetry; exact V2]|etransitivity; [exact I1|symmetry; exact I2]]. }
  unfold reordering_vector. rewrite (traverse_ok t1 l1 W1), (traverse_ok t2 l2 W2) by lia. cbn [bind].
  rewrite <- (wf_count t1 l1 W1), <- (wf_count t2 l2 W2). subst l2. apply (loop_determined t1 t2 M); auto.
  intros a Ha. split; [apply A1; apply (wf_leaf t1 l1 W1); assumption|].
  split; [apply (wf_leaf_node t1 l1)|apply (wf_leaf_node t2 l1)]; assumption.
Qed.

Theorem C41_assign_same_size : forall (P1 P2 : Type) (c1 : P1 -> P1 -> bool) (c2 : P2 -> P2 -> bool) k1 k2 M t1 t2 g1 g2 p1 p2 f1 f2
  (a b : evaluator G V) patch x y,
  k1 <> [] -> (forall c, In c k1 -> length c = 4) -> (forall c, In c k2 -> length c = 4) -> length k1 = length k2 ->
  init_tree c1 k1 M = Some t1 -> init_tree c2 k2 M = Some t2 ->
  init_evaluator (t1, g1) p1 f1 = Some a -> init_evaluator (t2, g2) p2 f2 = Some b ->
  evaluateOnPatch ev (assign_evaluator a b) patch x y = evaluateOnPatch ev b patch x y.
Proof.
  intros P1 P2 c1 c2 k1 k2 M t1 t2 g1 g2 p1 p2 f1 f2 a b patch x y Hk H1 H2 HL E1 E2 Ia Ib.
  pose proof (rv_determined P1 P2 c1 c2 k1 k2 M t1 t2 Hk H1 H2 HL E1 E2) as R. clear E1 E2.
  unfold init_evaluator in Ia, Ib. cbn [fst] in Ia, Ib.
  apply bind_some in Ia. destruct Ia as [r1 [R1 Ia]]. apply bind_some in Ib. destruct Ib as [r2 [R2 Ib]].
  injection Ia as <-. injection Ib as <-. assert (r1 = r2) by congruence. subst r2. reflexivity.
Qed.

(** In general the assigned evaluator does not evaluate like the original: after assignment to a default-constructed
    evaluator there is no point at which evaluateOnPatch is defined (it reads an empty vector). *)
Theorem C41_assign_to_default_undefined : forall (sp : tree * G) f p2 (b : evaluator G V) patch x y,
  evaluateOnPatch ev (assign_evaluator (Evaluator [] sp f p2) b) patch x y = None.
Proof.
  intros. unfold evaluateOnPatch, assign_evaluator, locate. cbn [e_rv e_space].
  match goal with |- context [get [] ?k] => replace (get (@nil nat) k) with (@None nat) by (destruct k; reflexivity) end. reflexivity.
Qed.

(** The original is defined at every point of every patch. *)
Theorem C41_original_defined : forall (Pt : Type) (c : Pt -> Pt -> bool) k M t g p f (b : evaluator G V) patch x y,
  k <> [] -> (forall c, In c k -> length c = 4) -> init_tree c k M = Some t -> length f = length k * 4 ^ M * ((p + 1) * (p + 1)) ->
  init_evaluator (t, g) p f = Some b -> patch < length k -> (0 <= x)%Q -> (x <= 1)%Q -> (0 <= y)%Q -> (y <= 1)%Q ->
  exists w, evaluateOnPatch ev b patch x y = Some w.
Proof.
  intros Pt c k M t g p f b patch x y Hk H4 E Lf Ib Hp X0 X1 Y0 Y1. unfold init_evaluator in Ib. cbn [fst] in Ib.
  apply bind_some in Ib. destruct Ib as [rv [Rv Ib]]. injection Ib as <-. unfold evaluateOnPatch. cbn [e_space e_rv fst].
  destruct (C12_lookup_finds_element Pt c k M t rv patch x y Hk H4 E Rv Hp X0 X1 Y0 Y1) as [a [n [u [v [La [Le [Sn [Pn _]]]]]]]].
  rewrite La. cbn [bind fst snd]. rewrite Sn. cbn [bind]. unfold evaluate, coefficients. cbn [e_p2 e_fun e_space].
  destruct (init_tree_ok c k M H4) as [t' [l [F [W [Q [A ML]]]]]]. assert (t' = t) by congruence. subst t'. clear E F.
  pose proof (wf_node t l W a n Sn) as K. assert (Hex : t_store t a <> None) by congruence.
  pose proof (wf_addr_patch t l a W Hex) as Pa.
  assert (In a l) as Ia by (apply (wf_leaf t l W); assumption). destruct (uniform_list t l M W A) as [Ll Nl].
  destruct (In_nth l a [] Ia) as [i [Hi Ei]]. destruct (Nl i Hi) as [Idi _]. rewrite Ei in Idi. rewrite (nk_id _ _ K), Idi.
  unfold assert. replace ((p + 1) * (p + 1) * i + (p + 1) * (p + 1) <=? length f) with true.
  - cbn [bind]. eexists. reflexivity.
  - symmetry. apply Nat.leb_le. rewrite Lf, <- Q, <- Ll. set (q := (p + 1) * (p + 1)). clearbody q. clear - Hi. nia.
Qed.

(** The claim is therefore false of the code. *)
Theorem C41_assign_refuted : inhabited V -> forall g : G, exists (b a : evaluator G V) patch x y w,
  evaluateOnPatch ev b patch x y = Some w /\ evaluateOnPatch ev (assign_evaluator a b) patch x y = None.
Proof.
  intros [v] g. assert (H4 : forall c, In c [[0; 1; 2; 3]] -> length c = 4) by (intros c [<-|[]]; reflexivity).
  assert (Hk : [[0; 1; 2; 3]] <> []) by discriminate.
  destruct (init_tree_ok Nat.eqb [[0; 1; 2; 3]] 1 H4) as [t [l [E _]]].
  destruct (C12_reordering_is_permutation _ Nat.eqb _ 1 t Hk H4 E) as [rv [Rv _]].
  assert (Ib : init_evaluator (t, g) 0 (repeat v 4) = Some (Evaluator rv (t, g) (repeat v 4) ((0 + 1) * (0 + 1)))).
  { unfold init_evaluator. cbn [fst]. rewrite Rv. reflexivity. }
  destruct (C41_original_defined _ Nat.eqb _ 1 t g 0 (repeat v 4) _ 0 0%Q (1#2)%Q Hk H4 E eq_refl Ib) as [w Hw];
    [cbn; lia|discriminate|discriminate|discriminate|discriminate|].
  eexists. exists (Evaluator [] (t, g) [] 0). do 3 eexists. exists w. split; [exact Hw|apply C41_assign_to_default_undefined].
Qed.
End EvaluatorProofs.

(* BEGIN ASSUMPTIONS *)
Print Assumptions C40_behaves_like_values.
Print Assumptions C40_moved_from_matrix.
Print Assumptions C48_run_with_laps.
Print Assumptions C48_stop_is_total_time.
Print Assumptions C48_repeated_runs.
Print Assumptions C48_restart_refuted.
Print Assumptions C48_stop_is_total_time_refuted.
Print Assumptions C46_file_type.
Print Assumptions C46_any_path_refuted.
Print Assumptions C47_round_trip.
Print Assumptions C47_mismatch_reported.
Print Assumptions C47_missing_file_reported.
Print Assumptions C47_size_limit.
Print Assumptions C41_evaluate_after_assignment.
Print Assumptions C41_assign_same_size.
Print Assumptions C41_assign_to_default_undefined.
Print Assumptions C41_original_defined.
Print Assumptions C41_assign_refuted.
