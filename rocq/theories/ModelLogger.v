(** Bembel::IO::Logger: rows of values on the terminal and in a file.
    A value is given by the text that operator<< produces for a precision; texts are lists of characters.
    The file system and the buffer of the file stream are modelled, so that what a crash leaves on the disk can be stated. *)
From Coq Require Import Bool Ascii String List Arith ZArith Lia.
From Verif Require Import ModelBase ModelText.
Import ListNotations.
Local Open Scope nat_scope.

Section Logger.
(** the type of the values, and what operator<< prints with std::setprecision(k) and no width *)
Context {V : Type} (show : Z -> V -> text).
(** the template parameter N *)
Variable N : nat.

(** std::setprecision(N - 4) *)
Definition precision : Z := (Z.of_nat N - 4)%Z.
(** formatted output of a text with std::setw(w): blanks after (std::left) or before it *)
Definition pad (left : bool) (w : nat) (s : text) : text :=
  let b := repeat " "%char (w - List.length s) in if left then s ++ b else b ++ s.

(** an output stream: what is in the file (or on the terminal), what is still in the buffer, and the flag std::left.
    A stream may move characters from the buffer to the file whenever it likes; std::endl moves all of them *)
Record ostream := mkOS { o_disk : text; o_buf : text; o_left : bool }.
Inductive action := Put (s : text) | Adjust (* std::left *) | Flush.
Definition do_action (a : action) (o : ostream) : ostream :=
  match a with
  | Put s => mkOS (o_disk o) (o_buf o ++ s) (o_left o)
  | Adjust => mkOS (o_disk o) (o_buf o) true
  | Flush => mkOS (o_disk o ++ o_buf o) [] (o_left o)
  end.

(** the texts written depend on the flag; the actions of one row on the file stream, Logger.hpp 59-78:
    for all values but the last setprecision, setw(N + sep.size()), left, the value, the separator;
    for the last one the same without separator, and std::endl *)
Fixpoint file_row (sep : text) (row : list V) : list action :=
  match row with
  | [] => []
  | [t] => [Adjust; Put (pad true (N + List.length sep) (show precision t)); Put [newline]; Flush]
  | t :: r => Adjust :: Put (pad true (N + List.length sep) (show precision t)) :: Put sep :: file_row sep r
  end.
(** the same on std::cout, Logger.hpp 47-58; the last value is printed without std::left, so its adjustment depends on the flag [left] of std::cout *)
Fixpoint term_row (left : bool) (sep : text) (row : list V) : list action :=
  match row with
  | [] => []
  | [t] => [Put (pad left (N + List.length sep) (show precision t)); Put [newline]; Flush]
  | t :: r => Adjust :: Put (pad true (N + List.length sep) (show precision t)) :: Put sep :: term_row true sep r
  end.

(** the modes of std::ios_base::openmode that matter *)
Inductive openmode := Trunc | App.
(** a Logger: separator, name, mode, and whether its stream is open.  Logger.hpp 29-46 *)
Record logger := mkLog { l_sep : text; l_name : text; l_mode : openmode; l_open : bool }.
Definition default_logger : logger := mkLog [" "%char] (lit "default.log") Trunc false.
(** the constructors *)
Definition logger_name (n : text) : logger := mkLog [" "%char] n Trunc false.
Definition logger_name_sep (n s : text) : logger := mkLog s n Trunc false.
Definition logger_name_sep_mode (n s : text) (m : openmode) : logger := mkLog s n m false.
Definition logger_name_mode (n : text) (m : openmode) : logger := mkLog [" "%char] n m false.
Definition logger_mode (m : openmode) : logger := mkLog [" "%char] (lit "default.log") m false.

(** the program: std::cout, the loggers (a finite number of objects, [None] after destruction), the file streams of the loggers and the file system *)
Record world := mkWorld { w_out : ostream; w_log : nat -> option logger; w_stream : nat -> ostream; w_disk : text -> option text }.
Definition upd {A : Type} (f : nat -> A) (k : nat) (x : A) : nat -> A := fun i => if i =? k then x else f i.
Definition text_eqb (a b : text) : bool := if list_eq_dec ascii_dec a b then true else false.
Definition upd_disk (f : text -> option text) (k : text) (x : text) : text -> option text := fun i => if text_eqb i k then Some x else f i.

(** one statement of a program; rows are nonempty lists of values (calls without arguments do not compile) *)
Inductive op := Construct (l : nat) (o : logger) | File (l : nat) (row : list V) | Term (l : nat) (row : list V) | Both (l : nat) (row : list V) | Destroy (l : nat).

(** writing actions to the file of logger l: the disk follows the stream (exact as long as no two open loggers with the same name write alternately; the theorems exclude that) *)
Definition file_action (l : nat) (o : logger) (a : action) (w : world) : world :=
  let s := do_action a (w_stream w l) in
  mkWorld (w_out w) (w_log w) (upd (w_stream w) l s) (upd_disk (w_disk w) (l_name o) (o_disk s)).
(** _file.open(name_, out | trunc): the mode of the logger is not used *)
Definition open_file (l : nat) (o : logger) (w : world) : world :=
  if l_open o then w
  else mkWorld (w_out w) (upd (w_log w) l (Some (mkLog (l_sep o) (l_name o) (l_mode o) true)))
         (upd (w_stream w) l (mkOS [] [] false)) (upd_disk (w_disk w) (l_name o) []).
Definition term_action (a : action) (w : world) : world := mkWorld (do_action a (w_out w)) (w_log w) (w_stream w) (w_disk w).
(** a step is a list of elementary actions; a crash may happen between any two of them *)
Definition steps_of (x : op) (w : world) : option (list (world -> world)) :=
  match x with
  | Construct l o => match w_log w l with Some _ => None (* an object is constructed once *) | None => Some [fun w => mkWorld (w_out w) (upd (w_log w) l (Some (mkLog (l_sep o) (l_name o) (l_mode o) false))) (w_stream w) (w_disk w)] end
  | File l row => o <- w_log w l ;; match row with [] => None | _ => Some (open_file l o :: map (file_action l o) (file_row (l_sep o) row)) end
  | Term l row => o <- w_log w l ;; match row with [] => None | _ => Some (map term_action (term_row (o_left (w_out w)) (l_sep o) row)) end
  | Both l row => o <- w_log w l ;; match row with [] => None | _ =>
      Some (open_file l o :: map (file_action l o) (file_row (l_sep o) row) ++ map term_action (term_row (o_left (w_out w)) (l_sep o) row)) end
  | Destroy l => o <- w_log w l ;;
      Some ((if l_open o then [file_action l o Flush] else []) ++ [fun w => mkWorld (w_out w) (upd (w_log w) l None) (w_stream w) (w_disk w)])
  end.
Definition run_steps (fs : list (world -> world)) (w : world) : world := fold_left (fun w f => f w) fs w.
Definition step (x : op) (w : world) : option world := fs <- steps_of x w ;; Some (run_steps fs w).
Fixpoint run (h : list op) (w : world) : option world := match h with [] => Some w | x :: h => w' <- step x w ;; run h w' end.
(** the state when the program crashes after k elementary actions of the statement x *)
Definition crash (k : nat) (x : op) (w : world) : option world := fs <- steps_of x w ;; Some (run_steps (firstn k fs) w).
(** at any time a stream may have moved a part of its buffer to the file: what can be on the disk *)
Definition on_disk (w : world) (l : nat) (name : text) (t : text) : Prop :=
  exists k, t = match w_log w l with
    | Some o => if l_open o && text_eqb (l_name o) name then o_disk (w_stream w l) ++ firstn k (o_buf (w_stream w l)) else match w_disk w name with Some d => d | None => [] end
    | None => match w_disk w name with Some d => d | None => [] end end.
Definition init_world (disk : text -> option text) : world := mkWorld (mkOS [] [] false) (fun _ => None) (fun _ => mkOS [] [] false) disk.
End Logger.
