(** Property C44: geometries in the native text format. *)
From Coq Require Import Bool Ascii String ZArith Reals List Arith Lia Lra.
From Verif Require Import ModelBase ModelText ModelKnots ModelPatch ModelDat SpecPatch SpecDat ProofText ProofDat.
Import ListNotations.
Local Open Scope bool_scope.
Local Open Scope nat_scope.

(** control points after writing and reading *)
Definition read_back (P Q : patch) : Prop :=
  p_degx Q = p_degx P /\ p_degy Q = p_degy P /\ p_knx Q = [0%R; 1%R] /\ p_kny Q = [0%R; 1%R] /\
  length (p_data Q) = length (p_data P) /\ forall i, i < length (p_data P) -> nth i (p_data Q) 0%R = rd (nth i (p_data P) 0%R).

Lemma write_patches_ok : forall G count, Forall bezier_patch G -> exists t, write_patches count G = Some t.
Proof.
  intros G. induction G as [|P G IH]; intros count H; [eexists; reflexivity|]. inversion_clear H as [|? ? HP HG].
  cbn [write_patches]. destruct (write_text P HP count) as [mats [E _]]. rewrite E. cbn [bind].
  destruct (IH (S count) HG) as [t Et]. rewrite Et. eexists. reflexivity.
Qed.
Lemma read_patches_ok : forall inv junk G count t ir old word out, Forall bezier_patch G -> write_patches count G = Some t ->
  exists G', read_patches inv junk (length G) (Stream t false false) (Stream ir false false) old word out = Some (out ++ G')
    /\ Forall2 read_back G G'.
Proof.
  intros inv junk G. induction G as [|P G IH]; intros count t ir old word out H E.
  - exists []. cbn. rewrite app_nil_r. split; [reflexivity|constructor].
  - inversion_clear H as [|? ? HP HG]. cbn [write_patches] in E. apply bind_some in E. destruct E as [t1 [E1 E]].
    apply bind_some in E. destruct E as [t2 [E2 E]]. apply some_eq in E. subst t.
    destruct (read_text P HP inv junk count t1 t2 ir old word E1) as [iss [row [w [data [Er [Ld Nd]]]]]].
    cbn [length read_patches]. rewrite Er. cbn [bind].
    destruct (IH (S count) t2 iss row w (out ++ [Patch data (p_degx P) (p_degy P) [0%R; 1%R] [0%R; 1%R]]) HG E2) as [G' [E' F]].
    rewrite E'. exists (Patch data (p_degx P) (p_degy P) [0%R; 1%R] [0%R; 1%R] :: G'). rewrite <- app_assoc. split; [reflexivity|].
    constructor; [|assumption]. repeat split; assumption.
Qed.

Lemma lits : forall s x, no_newline x -> no_newline (lit s) -> no_newline (lit s ++ x).
Proof. intros. apply Forall_app. split; assumption. Qed.
Lemma load_written : forall inv junk G name, Forall bezier_patch G -> (Z.of_nat (length G) <= 2 ^ 31 - 1)%Z -> one_line name ->
  exists t G', WriteDATFile G name = Some t /\ LoadGeometryFileDAT inv junk t = Some G' /\ Forall2 read_back G G'.
Proof.
  intros inv junk G name HG HL Hn. destruct (write_patches_ok G 0 HG) as [t Et]. unfold WriteDATFile. rewrite Et. cbn [bind].
  eexists. destruct (read_patches_ok inv junk G 0 t [" "%char; return_char]
    (lit "2 3 " ++ print_int (Z.of_nat (length G)) ++ lit " 0 0 " ++ [return_char]) (lit "0") [] HG Et) as [G' [E F]].
  exists G'. split; [reflexivity|]. split; [|exact F]. unfold LoadGeometryFileDAT, open_stream.
  set (h := lit "2 3 " ++ print_int (Z.of_nat (length G)) ++ lit " 0 0 " ++ [return_char]) in *.
  replace (MakeFile name (length G) ++ t) with
    ((lit "# nurbs mesh v.2.1" ++ [return_char]) ++ newline :: ((lit "# " ++ name ++ [return_char]) ++ newline ::
     ((lit "# Generated by BEMBEL, see www.bembel.eu" ++ [return_char]) ++ newline :: ((lit "#" ++ [return_char]) ++ newline ::
     (h ++ newline :: t)))))
    by (unfold MakeFile, crlf, h; repeat (rewrite <- ?app_assoc; cbn [app]); reflexivity).
  assert (Hname : no_newline name).
  { apply Forall_forall. intros c Hc. apply Ascii.eqb_neq. intros ->. exact (Hn Hc). }
  cbn [skip_rows].
  rewrite getline_ok by (repeat constructor). rewrite getline_ok by (apply lits; [apply Forall_app; split; [assumption|]|]; repeat constructor).
  rewrite getline_ok by (repeat constructor). rewrite getline_ok by (repeat constructor).
  rewrite getline_ok by (unfold h; apply lits; [|repeat constructor]; apply Forall_app; split;
    [apply not_space_no_newline, print_int_word|repeat constructor]).
  unfold set_str. cbn [eofbit failbit].
  assert (HR : read_header 5 (Stream h false false) [] [] = Some (Stream [" "%char; return_char] false false, lit "0",
            [2; 3; Z.of_nat (length G); 0; 0]%Z)).
  { unfold h. cbn [read_header].
    change (lit "2 3 " ++ print_int (Z.of_nat (length G)) ++ lit " 0 0 " ++ [return_char])
      with ([] ++ lit "2" ++ " "%char :: (lit "3 " ++ print_int (Z.of_nat (length G)) ++ lit " 0 0 " ++ [return_char])).
    rewrite (extract_word [] (lit "2") " "%char); [|constructor|split; [discriminate|repeat constructor]|reflexivity].
    change (stoi (lit "2")) with (Some 2%Z). cbn [bind].
    change (" "%char :: lit "3 " ++ print_int (Z.of_nat (length G)) ++ lit " 0 0 " ++ [return_char])
      with (lit " " ++ lit "3" ++ " "%char :: (print_int (Z.of_nat (length G)) ++ lit " 0 0 " ++ [return_char])).
    rewrite (extract_word (lit " ") (lit "3") " "%char); [|repeat constructor|split; [discriminate|repeat constructor]|reflexivity].
    change (stoi (lit "3")) with (Some 3%Z). cbn [bind].
    change (" "%char :: print_int (Z.of_nat (length G)) ++ lit " 0 0 " ++ [return_char])
      with (lit " " ++ print_int (Z.of_nat (length G)) ++ " "%char :: (lit "0 0 " ++ [return_char])).
    rewrite (extract_word (lit " ") (print_int (Z.of_nat (length G))) " "%char); [|repeat constructor|apply print_int_word|reflexivity].
    rewrite stoi_print by lia. cbn [bind].
    change (" "%char :: lit "0 0 " ++ [return_char]) with (lit " " ++ lit "0" ++ " "%char :: (lit "0 " ++ [return_char])).
    rewrite (extract_word (lit " ") (lit "0") " "%char); [|repeat constructor|split; [discriminate|repeat constructor]|reflexivity].
    change (stoi (lit "0")) with (Some 0%Z). cbn [bind].
    change (" "%char :: lit "0 " ++ [return_char]) with (lit " " ++ lit "0" ++ " "%char :: [return_char]).
    rewrite (extract_word (lit " ") (lit "0") " "%char); [|repeat constructor|split; [discriminate|repeat constructor]|reflexivity].
    change (stoi (lit "0")) with (Some 0%Z). cbn [bind app]. reflexivity. }
  rewrite HR. cbn [bind get nth_error]. rewrite Nat2Z.id. exact E.
Qed.

(** Writing any list of Bezier patches and reading the file gives the same patches, the control points up to
    5e-16 (half a unit of the last decimal written). *)
Theorem C44_round_trip : forall inv junk G name, Forall bezier_patch G -> (Z.of_nat (length G) <= 2 ^ 31 - 1)%Z -> one_line name ->
  exists t G', WriteDATFile G name = Some t /\ LoadGeometryFileDAT inv junk t = Some G' /\
    Forall2 (near_patch (/ 2 * / 10 ^ 15)) G G'.
Proof.
  intros inv junk G name HG HL Hn. destruct (load_written inv junk G name HG HL Hn) as [t [G' [E [E' F]]]].
  exists t, G'. split; [assumption|]. split; [assumption|]. clear E E' HL Hn.
  induction F as [|P Q G G' H F IH]; [constructor|]. inversion_clear HG as [|? ? HP HG']. constructor; [|auto].
  destruct H as [H1 [H2 [H3 [H4 [H5 H6]]]]]. destruct HP as [Kx [Ky _]]. repeat split; try congruence.
  intros i Hi. rewrite H6 by assumption. unfold rd. pose proof (atof_fixed (nth i (p_data P) 0%R)) as B.
  assert (S15 : (10 ^ 15 = IZR scale15)%R) by (rewrite (pow_IZR 10 15); reflexivity). rewrite S15. exact B.
Qed.

(** Control points with at most 15 decimals are reproduced exactly. *)
Theorem C44_exact : forall inv junk G name, Forall bezier_patch G -> (Z.of_nat (length G) <= 2 ^ 31 - 1)%Z -> one_line name ->
  (forall P v, In P G -> In v (p_data P) -> has_15_decimals v) ->
  exists t, WriteDATFile G name = Some t /\ LoadGeometryFileDAT inv junk t = Some G.
Proof.
  intros inv junk G name HG HL Hn HD. destruct (load_written inv junk G name HG HL Hn) as [t [G' [E [E' F]]]].
  exists t. split; [assumption|]. rewrite E'. f_equal. clear E E' HL Hn.
  induction F as [|P Q G G' H F IH]; [reflexivity|]. inversion_clear HG as [|? ? HP HG'].
  f_equal; [|apply IH; [assumption|]; intros; apply (HD P0); [right|]; assumption].
  destruct H as [H1 [H2 [H3 [H4 [H5 H6]]]]]. destruct HP as [Kx [Ky _]]. destruct P as [d dx dy kx ky], Q as [d' dx' dy' kx' ky'].
  cbn in *. subst. f_equal. apply (nth_ext _ _ 0%R 0%R); [assumption|]. intros i Hi. rewrite H6 by lia. unfold rd.
  destruct (HD _ (nth i d 0%R) (or_introl eq_refl)) as [n En]; [cbn; apply nth_In; lia|].
  assert (S15 : (10 ^ 15 = IZR scale15)%R) by (rewrite (pow_IZR 10 15); reflexivity).
  unfold Rdiv in En. rewrite S15 in En. rewrite En. apply atof_exact.
Qed.

(** The reader depends on the blank written after the header: if the fifth line ends with its last number, the state of
    the string stream is not cleared, the degrees of the first patch are not read, and the vector of sizes is read
    beyond its end. *)
Theorem C44_header_without_trailing_blank_refuted : forall inv junk l1 l2 l3 l4 a b c d e l6 l7 N M r,
  one_line l1 -> one_line l2 -> one_line l3 -> one_line l4 -> one_line l6 -> one_line l7 ->
  fits a -> fits b -> (1 <= c)%Z -> fits c -> fits d -> fits e -> fits N -> fits M ->
  LoadGeometryFileDAT inv junk (l1 ++ newline :: l2 ++ newline :: l3 ++ newline :: l4 ++ newline ::
    (print_int a ++ lit " " ++ print_int b ++ lit " " ++ print_int c ++ lit " " ++ print_int d ++ lit " " ++ print_int e) ++ newline ::
    l6 ++ newline :: l7 ++ newline :: int_row N M ++ newline :: r) = None.
Proof.
  intros inv junk l1 l2 l3 l4 a b c d e l6 l7 N M r L1 L2 L3 L4 L6 L7 Fa Fb Hc Fc Fd Fe FN FM.
  assert (NN : forall l, one_line l -> no_newline l).
  { intros l Hl. apply Forall_forall. intros x Hx. apply Ascii.eqb_neq. intros ->. exact (Hl Hx). }
  unfold LoadGeometryFileDAT, open_stream. cbn [skip_rows].
  rewrite !getline_ok by (apply NN; assumption). 
  rewrite getline_ok by (repeat (apply Forall_app; split); try (repeat constructor; fail); apply not_space_no_newline, print_int_word).
  unfold set_str at 1. cbn [eofbit failbit].
  assert (HR : read_header 5 (Stream (print_int a ++ lit " " ++ print_int b ++ lit " " ++ print_int c ++ lit " " ++ print_int d ++ lit " " ++ print_int e) false false) [] []
    = Some (Stream [] true false, print_int e, [a; b; c; d; e])).
  { cbn [read_header].
    rewrite (extract_word [] (print_int a) " "%char (print_int b ++ lit " " ++ print_int c ++ lit " " ++ print_int d ++ lit " " ++ print_int e));
      [|constructor|apply print_int_word|reflexivity].
    rewrite stoi_print by assumption. cbn [bind].
    rewrite (extract_word (lit " ") (print_int b) " "%char (print_int c ++ lit " " ++ print_int d ++ lit " " ++ print_int e));
      [|repeat constructor|apply print_int_word|reflexivity].
    rewrite stoi_print by assumption. cbn [bind].
    rewrite (extract_word (lit " ") (print_int c) " "%char (print_int d ++ lit " " ++ print_int e));
      [|repeat constructor|apply print_int_word|reflexivity].
    rewrite stoi_print by assumption. cbn [bind].
    rewrite (extract_word (lit " ") (print_int d) " "%char (print_int e)); [|repeat constructor|apply print_int_word|reflexivity].
    rewrite stoi_print by assumption. cbn [bind].
    rewrite (extract_last (lit " ") (print_int e)); [|repeat constructor|apply print_int_word].
    rewrite stoi_print by assumption. cbn [bind app]. reflexivity. }
  rewrite HR. cbn [bind get nth_error]. destruct (Z.to_nat c) as [|n] eqn:En; [lia|]. cbn [read_patches]. unfold read_patch.
  rewrite getline_ok by (apply NN; assumption). rewrite getline_ok by (apply NN; assumption). unfold set_str at 1. cbn [eofbit failbit].
  assert (E0 : read_ints (length l7) (Stream l7 true false) (print_int e) [] = Some (Stream l7 true true, print_int e, [])).
  { destruct (length l7); reflexivity. }
  rewrite E0. cbn [bind]. rewrite getline_ok by apply int_row_no_newline. unfold clear at 1. cbn [rest]. unfold set_str at 1. cbn [eofbit failbit].
  destruct (read_int_row N M [] [] (length (int_row N M)) FN FM (int_row_length _ _)) as [w2 E2]. rewrite E2. cbn [bind app].
  destruct (getline _ _) as [f row]. reflexivity.
Qed.

(** a bilinear patch *)
Definition demo_patch : patch := Patch [0; 0; 0; 1; 0; 1; 0; 1; 1; 0; 0; 1; 1; 1; 1 / 2; 1]%R 2 2 [0; 1]%R [0; 1]%R.
Example C44_demo : Forall bezier_patch [demo_patch; demo_patch] /\ one_line (lit "demo.dat")
  /\ forall v, In v (p_data demo_patch) -> has_15_decimals v.
Proof.
  split; [|split].
  - assert (bezier_patch demo_patch) by (unfold bezier_patch, demo_patch; cbn; repeat split; lia). constructor; [assumption|constructor; [assumption|constructor]].
  - intros H. cbn in H. repeat destruct H as [H|H]; try discriminate; exact H.
  - intros v H. assert (X : (v = 0 \/ v = 1 \/ v = / 2)%R).
    { cbn in H. repeat (destruct H as [<-|H]; [lra|]). destruct H. }
    destruct X as [X|[X|X]]; subst v.
    + exists 0%Z. lra.
    + exists (10 ^ 15)%Z. rewrite (pow_IZR 10 15). change (10 ^ Z.of_nat 15)%Z with (10 ^ 15)%Z. field. apply IZR_neq. discriminate.
    + exists (5 * 10 ^ 14)%Z. rewrite (pow_IZR 10 15). change (10 ^ Z.of_nat 15)%Z with (2 * (5 * 10 ^ 14))%Z.
      rewrite (mult_IZR 2). field. apply IZR_neq. discriminate.
Qed.

(* BEGIN ASSUMPTIONS *)
Print Assumptions C44_round_trip.
Print Assumptions C44_exact.
Print Assumptions C44_header_without_trailing_blank_refuted.
