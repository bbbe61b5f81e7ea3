(** Text input and output of the C++ standard library, as far as the geometry files use it:
    std::getline, operator>> into a string, std::stringstream::str and clear, stoi, atof, and the
    printing of integers and of doubles with std::fixed and std::setprecision(15).
    Texts are lists of characters; doubles are exact reals. *)
From Coq Require Import Bool Ascii String ZArith Reals List Arith Lia.
From Verif Require Import ModelBase.
Import ListNotations.
Local Open Scope bool_scope.
Local Open Scope nat_scope.

Definition text := list ascii.
Definition lit (s : string) : text := list_ascii_of_string s.

Definition code (c : ascii) : nat := nat_of_ascii c.
(** the characters skipped by operator>> : space, \t \n \v \f \r *)
Definition is_space (c : ascii) : bool := (code c =? 32) || ((9 <=? code c) && (code c <=? 13)).
Definition newline : ascii := ascii_of_nat 10.
Definition return_char : ascii := ascii_of_nat 13.

(** characters of [s] up to the first one that fails the test, and the rest *)
Fixpoint span (f : ascii -> bool) (s : text) : text * text :=
  match s with
  | [] => ([], [])
  | c :: r => if f c then let '(a, b) := span f r in (c :: a, b) else ([], s)
  end.

(** * streams *)
(** what is left of the buffer, eofbit, failbit *)
Record stream := Stream { rest : text; eofbit : bool; failbit : bool }.
Definition good (s : stream) : bool := negb (eofbit s) && negb (failbit s).

(** a fresh stream over a text *)
Definition open_stream (t : text) : stream := Stream t false false.
(** stringstream::str(t): new buffer, state bits unchanged *)
Definition set_str (t : text) (s : stream) : stream := Stream t (eofbit s) (failbit s).
(** stream::clear() *)
Definition clear (s : stream) : stream := Stream (rest s) false false.

(** s >> word: the sentry fails on a stream that is not good and when only white space is left; then the
    word keeps its value *)
Definition extract (s : stream) (word : text) : stream * text :=
  if good s then
    let t := snd (span is_space (rest s)) in
    match t with
    | [] => (Stream [] true true, word)
    | _ => let '(w, r) := span (fun c => negb (is_space c)) t in
           (Stream r (match r with [] => true | _ => false end) false, w)
    end
  else (Stream (rest s) (eofbit s) true, word).

(** getline(s, row, delim): row keeps its value if the stream is not good *)
Definition getline_delim (delim : ascii) (s : stream) (row : text) : stream * text :=
  if good s then
    let '(w, r) := span (fun c => negb (Ascii.eqb c delim)) (rest s) in
    match r with
    | _ :: r' => (Stream r' false false, w)
    | [] => (Stream [] true (match w with [] => true | _ => false end), w)
    end
  else (Stream (rest s) (eofbit s) true, row).
Definition getline := getline_delim newline.

(** * numbers *)
Definition is_digit (c : ascii) : bool := (48 <=? code c) && (code c <=? 57).
Definition digit (d : Z) : ascii := ascii_of_nat (48 + Z.to_nat d).
Definition digit_value (c : ascii) : Z := Z.of_nat (code c) - 48.
Definition value (l : text) : Z := fold_left (fun v c => 10 * v + digit_value c)%Z l 0%Z.

(** decimal digits of a non-negative integer *)
Fixpoint dec_loop (fuel : nat) (z : Z) (acc : text) : text :=
  match fuel with
  | O => acc
  | S f => let acc' := digit (z mod 10) :: acc in if (z / 10 =? 0)%Z then acc' else dec_loop f (z / 10) acc'
  end.
Definition dec (z : Z) : text := dec_loop (S (Z.to_nat (Z.log2 z))) z [].
(** file << int *)
Definition print_int (z : Z) : text := if (z <? 0)%Z then lit "-" ++ dec (- z) else dec z.

(** exactly n digits *)
Fixpoint pad (n : nat) (z : Z) (acc : text) : text :=
  match n with O => acc | S m => pad m (z / 10) (digit (z mod 10) :: acc) end.

(** file << std::fixed << std::setprecision(15) << v: the multiple of 10^-15 next to v (the choice at
    ties plays no role below; -0.0 is not distinguished from 0.0) *)
Definition scale15 : Z := (10 ^ 15)%Z.
Definition fixed15 (v : R) : text :=
  let n := Int_part (Rabs v * IZR scale15 + / 2) in
  (if Rlt_dec v 0 then lit "-" else []) ++ dec (n / scale15) ++ lit "." ++ pad 15 (n mod scale15) [].

(** optional sign *)
Definition scan_sign (s : text) : Z * text :=
  match s with
  | c :: r => if Ascii.eqb c "-"%char then ((-1)%Z, r) else if Ascii.eqb c "+"%char then (1%Z, r) else (1%Z, s)
  | [] => (1%Z, s)
  end.

(** std::stoi: throws if there is no number or it does not fit (None; all callers are noexcept) *)
Definition stoi (s : text) : option Z :=
  let '(sg, t) := scan_sign (snd (span is_space s)) in
  let '(d, _) := span is_digit t in
  match d with
  | [] => None
  | _ => let v := (sg * value d)%Z in
         if (- 2 ^ 31 <=? v)%Z && (v <=? 2 ^ 31 - 1)%Z then Some v else None
  end.

(** atof for decimal numbers: mantissa and power of ten (hexadecimal, inf and nan are not modelled) *)
Definition scan_exponent (s : text) : Z :=
  match s with
  | c :: r => if Ascii.eqb c "e"%char || Ascii.eqb c "E"%char
              then let '(sg, t) := scan_sign r in (sg * value (fst (span is_digit t)))%Z
              else 0%Z
  | [] => 0%Z
  end.
Definition scan_number (s : text) : Z * Z :=
  let '(sg, t) := scan_sign (snd (span is_space s)) in
  let '(ip, t1) := span is_digit t in
  let '(fp, t2) := match t1 with
                   | c :: r => if Ascii.eqb c "."%char then span is_digit r else ([], t1)
                   | [] => ([], t1)
                   end in
  match ip ++ fp with
  | [] => (0%Z, 0%Z)
  | m => ((sg * value m)%Z, (scan_exponent t2 - Z.of_nat (length fp))%Z)
  end.
Definition atof (s : text) : R := let '(m, e) := scan_number s in (IZR m * powerRZ 10 e)%R.
