(** The text a Logger is meant to produce. *)
From Coq Require Import Bool Ascii String List Arith ZArith.
From Verif Require Import ModelText ModelLogger.
Import ListNotations.
Local Open Scope nat_scope.

(** a text filled with blanks to width w *)
Definition left_justified (w : nat) (s : text) : text := s ++ repeat " "%char (w - length s).
Definition right_justified (w : nat) (s : text) : text := repeat " "%char (w - length s) ++ s.
(** a row: the cells joined by the separator, the last one justified by [last], and a line break *)
Fixpoint row_text (w : nat) (last : nat -> text -> text) (sep : text) (cells : list text) : text :=
  match cells with
  | [] => []
  | [c] => last w c ++ [newline]
  | c :: r => left_justified w c ++ sep ++ row_text w last sep r
  end.
(** the rows logger l was asked to write to its file, in the order of the calls *)
Definition file_rows {V : Type} (l : nat) (h : list (@op V)) : list (list V) :=
  flat_map (fun x => match x with File k r => if k =? l then [r] else [] | Both k r => if k =? l then [r] else [] | _ => [] end) h.
Definition table {V : Type} (show : Z -> V -> text) (N : nat) (sep : text) (rows : list (list V)) : text :=
  flat_map (fun r => row_text (N + length sep) left_justified sep (map (show (Z.of_nat N - 4)%Z) r)) rows.
(** the name is used by no logger constructed in the history *)
Definition unused {V : Type} (name : text) (h : list (@op V)) : Prop := forall k o, In (Construct k o) h -> l_name o <> name.
Definition prefix (a b : text) : Prop := exists c, b = a ++ c.
(** the words of a text: maximal runs of characters that are no white space *)
Fixpoint words_from (acc : text) (t : text) : list text :=
  match t with
  | [] => match acc with [] => [] | _ => [acc] end
  | c :: r => if is_space c then match acc with [] => words_from [] r | _ => acc :: words_from [] r end else words_from (acc ++ [c]) r
  end.
Definition words (t : text) : list text := words_from [] t.
Definition is_word (t : text) : Prop := t <> [] /\ forall c, In c t -> is_space c = false.
Definition blank (t : text) : Prop := forall c, In c t -> is_space c = true.
(** the rows a program prints on the terminal, with the separators of the loggers, in the order of the calls *)
Fixpoint term_rows {V : Type} (sep_of : nat -> text) (h : list (@op V)) : list (text * list V) :=
  match h with
  | [] => []
  | Construct k o :: h => term_rows (fun i => if i =? k then l_sep o else sep_of i) h
  | Term k r :: h => (sep_of k, r) :: term_rows sep_of h
  | Both k r :: h => (sep_of k, r) :: term_rows sep_of h
  | _ :: h => term_rows sep_of h
  end.
(** the text of these rows; the last cell of a row is left justified if this row or an earlier one has at least two cells, otherwise right justified *)
Fixpoint screen {V : Type} (show : Z -> V -> text) (N : nat) (seen : bool) (rows : list (text * list V)) : text :=
  match rows with
  | [] => []
  | (sep, r) :: rest =>
      let seen := seen || (2 <=? length r) in
      row_text (N + length sep) (if seen then left_justified else right_justified) sep (map (show (Z.of_nat N - 4)%Z) r) ++ screen show N seen rest
  end.
