(** Writing and reading one patch. *)
From Coq Require Import Bool Ascii String ZArith Reals List Arith Lia Lra.
From Verif Require Import ModelBase ModelBernstein ModelText ModelKnots ModelPatch ModelDat SpecPatch SpecDat ProofText ProofPatchInit ProofProjection.
Import ListNotations.
Local Open Scope bool_scope.
Local Open Scope nat_scope.

Lemma some_eq : forall {A} (x y : A), Some x = Some y -> y = x.
Proof. congruence. Qed.

Definition rd (v : R) : R := atof (fixed15 v).

(** ** words in rows *)
Definition row_body (v : list R) : text := flat_map (fun x => fixed15 x ++ lit "   ") v ++ [return_char].

Lemma print_row_body : forall v r, print_row v ++ r = row_body v ++ newline :: r.
Proof. intros. unfold print_row, row_body, crlf. rewrite <- !app_assoc. reflexivity. Qed.
Lemma row_no_newline : forall v, no_newline (row_body v).
Proof.
  intros v. apply Forall_app. split; [|repeat constructor]. induction v as [|x v IH]; [constructor|]. cbn [flat_map].
  apply Forall_app. split; [|exact IH]. apply Forall_app. split; [apply not_space_no_newline, fixed15_word|]. repeat constructor.
Qed.
Lemma row_starts : forall v, exists c r, row_body v = c :: r.
Proof.
  intros v. unfold row_body. destruct v as [|x v]; [cbn; eauto|]. cbn [flat_map]. destruct (fixed15_word x) as [N _].
  destruct (fixed15 x) as [|c l]; [congruence|]. cbn. eauto.
Qed.
Lemma read_row : forall v ws old acc, spaces ws -> exists iss w,
  read_doubles (length v) (Stream (ws ++ row_body v) false false) old acc = (iss, w, acc ++ map rd v).
Proof.
  induction v as [|x v IH]; intros ws old acc Hws; cbn [length read_doubles map].
  - do 2 eexists. rewrite app_nil_r. reflexivity.
  - assert (E : ws ++ row_body (x :: v) = ws ++ fixed15 x ++ " "%char :: (lit "  " ++ row_body v)).
    { unfold row_body. cbn [flat_map]. rewrite <- !app_assoc. reflexivity. }
    rewrite E, extract_word by (assumption || apply fixed15_word || reflexivity).
    change (" "%char :: lit "  " ++ row_body v) with (lit "   " ++ row_body v).
    destruct (IH (lit "   ") (fixed15 x) (acc ++ [atof (fixed15 x)])) as [iss [w E']]; [repeat constructor|].
    rewrite E'. do 2 eexists. rewrite <- app_assoc. reflexivity.
Qed.

(** two integers in a row *)
Definition int_row (a b : Z) : text := print_int a ++ lit " " ++ print_int b ++ lit " " ++ [return_char].
Lemma int_row_no_newline : forall a b, no_newline (int_row a b).
Proof.
  intros. unfold int_row. repeat (apply Forall_app; split); try (repeat constructor; fail); apply not_space_no_newline, print_int_word.
Qed.
Definition fits (z : Z) : Prop := (- 2 ^ 31 <= z <= 2 ^ 31 - 1)%Z.
Lemma read_int_row : forall a b old info fuel, fits a -> fits b -> 2 <= fuel ->
  exists w, read_ints fuel (Stream (int_row a b) false false) old info = Some (Stream [] true true, w, info ++ [a; b]).
Proof.
  intros a b old info fuel Ha Hb Hf. destruct fuel as [|[|f]]; [lia|lia|]. unfold int_row.
  change (print_int a ++ lit " " ++ print_int b ++ lit " " ++ [return_char])
    with ([] ++ print_int a ++ " "%char :: (print_int b ++ lit " " ++ [return_char])).
  cbn [read_ints]. rewrite (extract_word [] (print_int a) " "%char); [|constructor|apply print_int_word|reflexivity]. cbn [failbit].
  rewrite stoi_print by assumption. cbn [bind].
  change (" "%char :: print_int b ++ lit " " ++ [return_char]) with (lit " " ++ print_int b ++ " "%char :: [return_char]).
  cbn [read_ints]. rewrite (extract_word (lit " ") (print_int b) " "%char); [|repeat constructor|apply print_int_word|reflexivity]. cbn [failbit].
  rewrite stoi_print by assumption. cbn [bind]. exists (print_int b).
  assert (X : forall f i, read_ints f (Stream [" "%char; return_char] false false) (print_int b) i = Some (Stream [] true true, print_int b, i)).
  { intros f' i. destruct f'; cbn [read_ints]; rewrite extract_blank by (repeat constructor); reflexivity. }
  rewrite X, <- app_assoc. reflexivity.
Qed.
Lemma int_row_length : forall a b, 2 <= length (int_row a b).
Proof. intros. unfold int_row. rewrite !app_length. cbn. lia. Qed.

(** ** knots *)
Lemma repeat_set : forall p, for_opt p (fun i v => set v i 0%R) (repeat 1%R (2 * p)) = Some (repeat 0%R p ++ repeat 1%R p).
Proof.
  intros p. destruct (for_opt_inv (fun i (v : list R) => i <= p -> v = repeat 0%R i ++ repeat 1%R (2 * p - i)) p (fun i v => set v i 0%R)
    (repeat 1%R (2 * p))) as [v [E H]].
  - intros _. rewrite Nat.sub_0_r. reflexivity.
  - intros i s Hi H. rewrite H by lia. clear H.
    assert (S0 : forall (a b : list R) x y, set (a ++ y :: b) (length a) x = Some (a ++ x :: b)).
    { induction a as [|c a IH]; intros; [reflexivity|]. cbn [app set length]. rewrite IH. reflexivity. }
    replace (2 * p - i) with (S (2 * p - S i)) by lia. cbn [repeat].
    specialize (S0 (repeat 0%R i) (repeat 1%R (2 * p - S i)) 0%R 1%R). rewrite repeat_length in S0. rewrite S0. eexists. split; [reflexivity|]. intros _.
    change (repeat 0%R (S i)) with (0%R :: repeat 0%R i). rewrite repeat_cons, <- app_assoc. reflexivity.
  - rewrite E, (H (le_n p)). do 3 f_equal. lia.
Qed.
Lemma bezier_knots : forall p, MakeBezierKnotVector p = repeat 0%R p ++ repeat 1%R p.
Proof.
  intros p. unfold MakeBezierKnotVector.
  assert (E : forall n (l : list R) x, for_loop n (fun _ out => push_back out x) l = l ++ repeat x n).
  { intros n l x. induction n as [|n IH]; [symmetry; apply app_nil_r|]. cbn [for_loop]. rewrite IH. unfold push_back.
    rewrite <- app_assoc. f_equal. replace (S n) with (n + 1)%nat by lia. rewrite repeat_app. reflexivity. }
  rewrite !E. reflexivity.
Qed.
Lemma read_knots : forall p, map rd (repeat 0%R p ++ repeat 1%R p) = repeat 0%R p ++ repeat 1%R p.
Proof.
  intros p. rewrite map_app. unfold rd. f_equal.
  - induction p as [|p IH]; [reflexivity|]. cbn [repeat map]. rewrite (atof_int 0), IH. reflexivity.
  - induction p as [|p IH]; [reflexivity|]. cbn [repeat map]. rewrite (atof_int 1), IH. reflexivity.
Qed.

(** ** matrices *)
Lemma set_entry_ok : forall rows cols A r c v, rectangular rows cols A -> r < rows -> c < cols ->
  exists A', set_entry A r c v = Some A' /\ rectangular rows cols A'
    /\ forall i j, entry A' i j = if ((i =? r) && (j =? c))%bool then v else entry A i j.
Proof.
  intros rows cols A r c v [L H] Hr Hc. unfold set_entry. rewrite (get_nth A r []) by lia. cbn [bind].
  destruct (set_spec (nth r A []) c v) as [row [E [Lr Nr]]]; [rewrite H by (apply nth_In; lia); assumption|]. rewrite E. cbn [bind].
  destruct (set_spec A r row) as [A' [E' [L' N']]]; [lia|]. exists A'. split; [assumption|]. split.
  - split; [lia|]. intros x Hx. destruct (In_nth A' x [] Hx) as [k [Hk Ek]]. rewrite N' in Ek.
    destruct (Nat.eqb_spec k r); [subst x; rewrite Lr; apply H, nth_In; lia|subst x; apply H, nth_In; lia].
  - intros i j. unfold entry. rewrite N'. destruct (Nat.eqb_spec i r) as [->|]; [|reflexivity]. rewrite Nr. cbn [andb]. reflexivity.
Qed.
Lemma patch_matrix_ok : forall P npx npy k, length (p_data P) = 4 * (npx * npy) -> k < 4 -> 1 <= npy ->
  exists A, patch_matrix P npx npy k = Some A /\ rectangular npy npx A
    /\ forall r c, r < npy -> c < npx -> entry A r c = nth (4 * (c * npy + r) + k) (p_data P) 0%R.
Proof.
  intros P npx npy k HL Hk Hy. unfold patch_matrix.
  destruct (for_opt_inv (fun i A => rectangular npy npx A /\ forall r c, r < npy -> c < npx -> c * npy + r < i ->
     entry A r c = nth (4 * (c * npy + r) + k) (p_data P) 0%R) (npx * npy)
     (fun i A => v <- get (p_data P) (4 * i + k) ;; set_entry A (i mod npy) (i / npy) v) (repeat (repeat 0%R npx) npy)) as [A [E [Rc I]]].
  - split; [|intros; lia]. split; [apply repeat_length|]. intros row Hr. apply repeat_spec in Hr. subst row. apply repeat_length.
  - intros i s Hi [Rc I]. rewrite (get_nth _ _ 0%R) by lia. cbn [bind].
    pose proof (Nat.mod_upper_bound i npy ltac:(lia)) as Hm.
    assert (Hd : i / npy < npx) by (apply Nat.div_lt_upper_bound; lia).
    pose proof (Nat.div_mod i npy ltac:(lia)) as Hdm.
    destruct (set_entry_ok npy npx s (i mod npy) (i / npy) (nth (4 * i + k) (p_data P) 0%R) Rc Hm Hd) as [A' [E [Rc' En]]].
    exists A'. split; [assumption|]. split; [assumption|]. intros r c Hr Hc Hlt. rewrite En.
    destruct (Nat.eqb_spec r (i mod npy)) as [Er|Er], (Nat.eqb_spec c (i / npy)) as [Ec|Ec]; cbn [andb].
    + f_equal. subst r c. lia.
    + apply I; try assumption. enough (c * npy + r <> i) by lia. intros Q. apply Ec. rewrite <- Q.
      rewrite Nat.add_comm, Nat.div_add, Nat.div_small by lia. lia.
    + apply I; try assumption. enough (c * npy + r <> i) by lia. intros Q. apply Er. rewrite <- Q.
      rewrite Nat.add_comm, Nat.mod_add, Nat.mod_small by lia. lia.
    + apply I; try assumption. enough (c * npy + r <> i) by lia. intros Q. apply Er. rewrite <- Q.
      rewrite Nat.add_comm, Nat.mod_add, Nat.mod_small by lia. lia.
  - exists A. split; [assumption|]. split; [assumption|]. intros r c Hr Hc. apply I; try assumption. nia.
Qed.

(** the entries of a matrix row by row *)
Definition listed (A : list (list R)) (M N : nat) : list R := map (fun ij => entry A (ij / N) (ij mod N)) (seq 0 (M * N)).
Lemma listed_ok : forall A M N, rectangular M N A -> 1 <= N ->
  map_opt (fun ij => row <- get A (ij / N) ;; get row (ij mod N)) (seq 0 (M * N)) = Some (listed A M N).
Proof.
  intros A M N [L H] HN. unfold listed.
  assert (X : forall l, (forall x, In x l -> x < M * N) -> map_opt (fun ij => row <- get A (ij / N) ;; get row (ij mod N)) l
     = Some (map (fun ij => entry A (ij / N) (ij mod N)) l)).
  { induction l as [|x l IH]; intros Hx; [reflexivity|]. cbn [map_opt map].
    assert (Hd : x / N < M) by (apply Nat.div_lt_upper_bound; [lia|]; specialize (Hx x (or_introl eq_refl)); lia).
    pose proof (Nat.mod_upper_bound x N ltac:(lia)) as Hm.
    rewrite (get_nth A _ []) by lia. cbn [bind]. rewrite (get_nth _ _ 0%R) by (rewrite H by (apply nth_In; lia); assumption). cbn [bind].
    rewrite IH by (intros; apply Hx; right; assumption). reflexivity. }
  apply X. intros x Hx. apply in_seq in Hx. lia.
Qed.
Lemma by_rows_rect : forall M N v, rectangular M N (by_rows M N v).
Proof.
  intros M N v. split; [unfold by_rows; rewrite map_length, seq_length; reflexivity|]. intros row Hr. apply in_map_iff in Hr.
  destruct Hr as [i [<- _]]. rewrite map_length, seq_length. reflexivity.
Qed.
Lemma by_rows_entry : forall M N v i j, i < M -> j < N -> entry (by_rows M N v) i j = nth (i * N + j) v 0%R.
Proof.
  intros M N v i j Hi Hj. unfold entry, by_rows.
  rewrite (nth_indep _ [] (map (fun j => nth (0 * N + j) v 0%R) (seq 0 N))) by (rewrite map_length, seq_length; assumption).
  rewrite (map_nth (fun i => map (fun j => nth (i * N + j) v 0%R) (seq 0 N)) (seq 0 M) 0 i), seq_nth by assumption.
  rewrite (nth_indep _ 0%R (nth ((0 + i) * N + 0) v 0%R)) by (rewrite map_length, seq_length; assumption).
  rewrite (map_nth (fun j => nth ((0 + i) * N + j) v 0%R) (seq 0 N) 0 j), seq_nth by assumption. reflexivity.
Qed.
Lemma listed_nth : forall A M N i j, i < M -> j < N -> nth (i * N + j) (map rd (listed A M N)) 0%R = rd (entry A i j).
Proof.
  intros A M N i j Hi Hj. assert (Hlt : i * N + j < M * N) by nia.
  rewrite (nth_indep _ 0%R (rd 0%R)) by (rewrite map_length; unfold listed; rewrite map_length, seq_length; assumption).
  rewrite map_nth. unfold listed. rewrite (nth_indep _ 0%R (entry A (0 / N) (0 mod N))) by (rewrite map_length, seq_length; assumption).
  rewrite (map_nth (fun ij => entry A (ij / N) (ij mod N)) (seq 0 (M * N)) 0), seq_nth by assumption. cbn [Nat.add].
  rewrite Nat.add_comm, Nat.div_add, Nat.div_small, Nat.mod_add, Nat.mod_small by lia. reflexivity.
Qed.
Lemma listed_length : forall A M N, length (listed A M N) = M * N.
Proof. intros. unfold listed. rewrite map_length, seq_length. reflexivity. Qed.

Lemma read_matrix_ok : forall v M N t old iss_rest word, length v = M * N ->
  exists w, read_matrix (Z.of_nat M) (Z.of_nat N) (Stream (print_row v ++ t) false false) (Stream iss_rest false false) old word
    = Some (Stream t false false, Stream (rest (clear (fst (fst (read_doubles (M * N) (Stream (row_body v) false false) word []))))) false false,
            row_body v, w, by_rows M N (map rd v)).
Proof.
  intros v M N t old ir word HL. unfold read_matrix.
  replace ((0 <=? Z.of_nat M)%Z && (0 <=? Z.of_nat N)%Z) with true by (symmetry; apply andb_true_iff; split; apply Z.leb_le; lia).
  cbn [assert bind]. rewrite print_row_body, getline_ok by apply row_no_newline. unfold set_str. cbn [eofbit failbit].
  rewrite !Nat2Z.id. rewrite <- HL.
  destruct (read_row v [] word [] ltac:(constructor)) as [iss [w E]]. cbn [app] in E. rewrite E. cbn [fst]. exists w. reflexivity.
Qed.
Lemma read_matrices_ok : forall vs M N t old ir word tmp, (forall v, In v vs -> length v = M * N) ->
  exists iss row w, read_matrices (length vs) (Z.of_nat M) (Z.of_nat N)
    (Stream (concat (map print_row vs) ++ t) false false) (Stream ir false false) old word tmp
  = Some (Stream t false false, Stream iss false false, row, w, tmp ++ map (fun v => by_rows M N (map rd v)) vs).
Proof.
  induction vs as [|v vs IH]; intros M N t old ir word tmp H.
  - cbn. do 3 eexists. rewrite app_nil_r. reflexivity.
  - cbn [length read_matrices map concat]. rewrite <- app_assoc.
    destruct (read_matrix_ok v M N (concat (map print_row vs) ++ t) old ir word) as [w E]; [apply H; left; reflexivity|].
    rewrite E. cbn [bind].
    match goal with |- context [Stream ?x false false] => idtac end.
    edestruct IH as [iss [row [w' E']]]; [intros; apply H; right; eassumption|].
    rewrite E'. do 3 eexists. rewrite <- app_assoc. reflexivity.
Qed.

(** ** the text of a patch *)
Section OnePatch.
Variable P : patch.
Hypothesis HP : bezier_patch P.
Let p := p_degx P. Let q := p_degy P.

Lemma matrices : exists mats, map_opt (patch_matrix P p q) (seq 0 4) = Some mats /\ length mats = 4 /\
  (forall A, In A mats -> rectangular q p A) /\
  forall k r c, k < 4 -> r < q -> c < p -> entry (nth k mats []) r c = nth (4 * (c * q + r) + k) (p_data P) 0%R.
Proof.
  destruct HP as [_ [_ [Hp [Hq [HL _]]]]]. fold p in Hp, HL. fold q in Hq, HL.
  destruct (patch_matrix_ok P p q 0 HL ltac:(lia) Hq) as [A0 [E0 [R0 N0]]].
  destruct (patch_matrix_ok P p q 1 HL ltac:(lia) Hq) as [A1 [E1 [R1 N1]]].
  destruct (patch_matrix_ok P p q 2 HL ltac:(lia) Hq) as [A2 [E2 [R2 N2]]].
  destruct (patch_matrix_ok P p q 3 HL ltac:(lia) Hq) as [A3 [E3 [R3 N3]]].
  exists [A0; A1; A2; A3]. cbn [seq map_opt]. rewrite E0, E1, E2, E3. split; [reflexivity|]. split; [reflexivity|]. split.
  - intros A [<-|[<-|[<-|[<-|[]]]]]; assumption.
  - intros [|[|[|[|k]]]] r c Hk Hr Hc; [apply N0|apply N1|apply N2|apply N3|lia]; assumption.
Qed.

Lemma write_text : forall count, exists mats,
  write_patch count P = Some (lit "PATCH " ++ print_int (Z.of_nat count) ++ lit " " ++ crlf ++
     int_row (Z.of_nat p - 1) (Z.of_nat q - 1) ++ newline :: int_row (Z.of_nat p) (Z.of_nat q) ++ newline ::
     print_row (repeat 0%R p ++ repeat 1%R p) ++ print_row (repeat 0%R q ++ repeat 1%R q) ++
     concat (map print_row (map (fun A => listed A q p) mats))) /\ length mats = 4 /\
  (forall A, In A mats -> rectangular q p A) /\
  forall k r c, k < 4 -> r < q -> c < p -> entry (nth k mats []) r c = nth (4 * (c * q + r) + k) (p_data P) 0%R.
Proof.
  intros count. destruct matrices as [mats [E [L [Rc N]]]]. exists mats. split; [|auto].
  pose proof HP as [Kx [Ky [Hp [Hq [HL _]]]]]. fold p in Hp, HL. fold q in Hq, HL.
  unfold write_patch. fold p q. rewrite Kx, Ky. cbn [length Nat.eqb assert bind]. rewrite !repeat_set. cbn [bind].
  rewrite !app_length, !repeat_length. replace (p + p - p) with p by lia. replace (q + q - q) with q by lia. rewrite E. cbn [bind].
  unfold WritePatch. rewrite (get_nth mats 0 []) by lia. cbn [bind].
  assert (R0 : rectangular q p (nth 0 mats [])) by (apply Rc, nth_In; lia).
  destruct (rect_cols q p (nth 0 mats []) R0 Hq) as [Ec Er]. rewrite Ec, Er, !app_length, !repeat_length.
  replace ((1 <=? p + p) && (1 <=? q + q)) with true by (symmetry; apply andb_true_iff; split; apply Nat.leb_le; lia).
  cbn [assert bind].
  assert (X : map_opt (fun B => v <- map_opt (fun ij => row <- get B (ij / p) ;; get row (ij mod p)) (seq 0 (q * p)) ;;
      Some match v with [] => [] | _ => print_row v end) mats = Some (map print_row (map (fun A => listed A q p) mats))).
  { clear - Rc Hp Hq. induction mats as [|A mats IH]; [reflexivity|]. cbn [map_opt map].
    rewrite listed_ok by (try apply Rc; try left; auto). cbn [bind].
    destruct (listed A q p) as [|x l] eqn:El; [pose proof (listed_length A q p) as Z; rewrite El in Z; cbn [length] in Z; nia|]. rewrite <- El.
    rewrite IH by (intros; apply Rc; right; assumption). reflexivity. }
  rewrite X. cbn [bind]. f_equal.
  replace (Z.of_nat (p + p) - Z.of_nat p - 1)%Z with (Z.of_nat p - 1)%Z by lia.
  replace (Z.of_nat (q + q) - Z.of_nat q - 1)%Z with (Z.of_nat q - 1)%Z by lia.
  unfold int_row, crlf. repeat (rewrite <- ?app_assoc; cbn [app]). reflexivity.
Qed.

Lemma read_text : forall inv junk count txt t ir old word, write_patch count P = Some txt ->
  exists iss row w data, read_patch inv junk (Stream (txt ++ t) false false) (Stream ir false false) old word
    = Some (Stream t false false, Stream iss false false, row, w, Patch data p q [0%R; 1%R] [0%R; 1%R])
  /\ length data = length (p_data P) /\ forall i, i < length (p_data P) -> nth i data 0%R = rd (nth i (p_data P) 0%R).
Proof.
  intros inv junk count txt t ir old word E. destruct (write_text count) as [mats [E' [L [Rc N]]]].
  rewrite E' in E. apply some_eq in E. subst txt. pose proof HP as [Kx [Ky [Hp [Hq [HL [Fx Fy]]]]]]. fold p in Hp, HL, Fx. fold q in Hq, HL, Fy.
  unfold read_patch.
  set (tail := print_row (repeat 0%R p ++ repeat 1%R p) ++ print_row (repeat 0%R q ++ repeat 1%R q) ++
     concat (map print_row (map (fun A => listed A q p) mats))).
  replace ((lit "PATCH " ++ print_int (Z.of_nat count) ++ lit " " ++ crlf ++
     int_row (Z.of_nat p - 1) (Z.of_nat q - 1) ++ newline :: int_row (Z.of_nat p) (Z.of_nat q) ++ newline :: tail) ++ t)
    with ((lit "PATCH " ++ print_int (Z.of_nat count) ++ lit " " ++ [return_char]) ++ newline ::
     (int_row (Z.of_nat p - 1) (Z.of_nat q - 1) ++ newline :: (int_row (Z.of_nat p) (Z.of_nat q) ++ newline :: (tail ++ t))))
    by (unfold crlf; repeat (rewrite <- ?app_assoc; cbn [app]); reflexivity).
  rewrite getline_ok by (repeat (apply Forall_app; split); try (repeat constructor; fail); apply not_space_no_newline, print_int_word).
  rewrite getline_ok by apply int_row_no_newline. unfold set_str at 1. cbn [eofbit failbit].
  assert (F1 : fits (Z.of_nat p - 1)) by (unfold fits; lia). assert (F2 : fits (Z.of_nat q - 1)) by (unfold fits; lia).
  assert (F3 : fits (Z.of_nat p)) by (unfold fits; lia). assert (F4 : fits (Z.of_nat q)) by (unfold fits; lia).
  destruct (read_int_row (Z.of_nat p - 1) (Z.of_nat q - 1) word [] (length (int_row (Z.of_nat p - 1) (Z.of_nat q - 1))) F1 F2 (int_row_length _ _)) as [w1 E1].
  rewrite E1. cbn [bind app].
  rewrite getline_ok by apply int_row_no_newline. unfold clear at 1. cbn [rest]. unfold set_str at 1. cbn [eofbit failbit].
  destruct (read_int_row (Z.of_nat p) (Z.of_nat q) [] [(Z.of_nat p - 1)%Z; (Z.of_nat q - 1)%Z] (length (int_row (Z.of_nat p) (Z.of_nat q))) F3 F4 (int_row_length _ _)) as [w2 E2].
  rewrite E2. cbn [bind app]. unfold clear at 1. cbn [rest].
  unfold tail. rewrite <- !app_assoc.
  rewrite (print_row_body (repeat 0%R p ++ repeat 1%R p)), getline_ok by apply row_no_newline. unfold set_str at 1. cbn [eofbit failbit].
  cbn [get nth_error bind].
  replace (Z.to_nat (Z.of_nat p - 1 + Z.of_nat p + 1)) with (length (repeat 0%R p ++ repeat 1%R p)) by (rewrite app_length, !repeat_length; lia).
  replace (Z.to_nat (Z.of_nat q - 1 + Z.of_nat q + 1)) with (length (repeat 0%R q ++ repeat 1%R q)) by (rewrite app_length, !repeat_length; lia).
  destruct (read_row (repeat 0%R p ++ repeat 1%R p) [] [] [] ltac:(constructor)) as [iss3 [w3 E3]]. cbn [app] in E3. rewrite E3, read_knots.
  unfold clear at 1.
  rewrite (print_row_body (repeat 0%R q ++ repeat 1%R q)), getline_ok by apply row_no_newline. unfold set_str at 1. cbn [eofbit failbit].
  destruct (read_row (repeat 0%R q ++ repeat 1%R q) [] [] [] ltac:(constructor)) as [iss4 [w4 E4]]. cbn [app] in E4. rewrite E4, read_knots.
  unfold clear at 1.
  destruct (read_matrices_ok (map (fun A => listed A q p) mats) q p t (row_body (repeat 0%R q ++ repeat 1%R q)) (rest iss4) w4 []) as [iss5 [row5 [w5 E5]]].
  { intros v Hv. apply in_map_iff in Hv. destruct Hv as [A [<- _]]. apply listed_length. }
  rewrite map_length, L in E5. rewrite E5. cbn [bind app]. rewrite <- !bezier_knots.
  set (tmp := map (fun v => by_rows q p (map rd v)) (map (fun A => listed A q p) mats)).
  destruct (init_bezier inv junk tmp (MakeBezierKnotVector p) (MakeBezierKnotVector q) p q) as [data [E6 [L6 N6]]]; auto.
  - unfold tmp. rewrite !map_length. assumption.
  - intros M HM. unfold tmp in HM. apply in_map_iff in HM. destruct HM as [v [<- _]]. apply by_rows_rect.
  - apply bezier_length.
  - apply bezier_length.
  - apply unique_bezier. assumption.
  - apply unique_bezier. assumption.
  - rewrite E6. cbn [bind]. do 4 eexists. split; [reflexivity|]. split; [rewrite L6, HL; reflexivity|].
    intros n Hn. rewrite HL in Hn. 
    assert (D4 : n = 4 * (n / 4) + n mod 4) by (apply Nat.div_mod; lia). pose proof (Nat.mod_upper_bound n 4 ltac:(lia)) as H4.
    assert (Hn4 : n / 4 < p * q) by (apply Nat.div_lt_upper_bound; lia).
    assert (Dq : n / 4 = q * (n / 4 / q) + (n / 4) mod q) by (apply Nat.div_mod; lia). pose proof (Nat.mod_upper_bound (n / 4) q ltac:(lia)) as Hmq.
    assert (Hdp : n / 4 / q < p) by (apply Nat.div_lt_upper_bound; lia).
    set (k := n mod 4) in *. set (i := n / 4 / q) in *. set (j := (n / 4) mod q) in *.
    replace n with (4 * (i * q + j) + k) by lia. rewrite N6 by lia. rewrite <- N by lia.
    unfold tmp. rewrite map_map. rewrite (nth_indep _ [] (by_rows q p (map rd (listed [] q p)))) by (rewrite map_length; lia).
    rewrite (map_nth (fun A => by_rows q p (map rd (listed A q p)))). rewrite by_rows_entry by lia. apply listed_nth; lia.
Qed.
End OnePatch.
