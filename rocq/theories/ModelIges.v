(** Model of Bembel/src/Geometry/GeometryIGS.hpp: geometries in IGES files.
    Files are texts.  The printing of doubles (double_to_string, lines 262-266) is a parameter [show]. *)
From Coq Require Import Bool Ascii String ZArith Reals List Arith Lia.
From Verif Require Import ModelBase ModelText ModelKnots ModelPatch ModelDat.
Import ListNotations.
Local Open Scope bool_scope.
Local Open Scope nat_scope.

(** ** makeSection, GeometryIGS.hpp 212-237 *)
(** the loop from entry i on; [data] are the entries from i on *)
Fixpoint section_loop (linewidth : nat) (data : list text) (line : text) (out : list text) : list text :=
  match data with
  | [] => out ++ [line]
  | d :: r =>
      let item := d ++ (match r with [] => lit ";" | _ => lit "," end) in
      if linewidth <? length line + length item
      then section_loop linewidth r item (out ++ [line])
      else section_loop linewidth r (line ++ item) out
  end.
Definition makeSection (data : list text) (linewidth : nat) : list text := section_loop linewidth data [] [].

(** ** formatted output *)
Definition left_w (w : nat) (s : text) : text := s ++ repeat " "%char (w - length s).
Definition right_w (w : nat) (s : text) : text := repeat " "%char (w - length s) ++ s.
Definition print_nat (n : nat) : text := print_int (Z.of_nat n).

(** writeSection, GeometryIGS.hpp 158-170 (std::left stays in force until std::right) *)
Fixpoint section_rows (section_char : ascii) (index : nat) (section : list text) : list text :=
  match section with
  | [] => []
  | s :: r => (left_w 72 s ++ [section_char] ++ right_w 7 (print_nat (index + 1))) :: section_rows section_char (S index) r
  end.
Definition as_text (rows : list text) : text := flat_map (fun r => r ++ [newline]) rows.

(** writeParameterSection, GeometryIGS.hpp 183-197 *)
Fixpoint parameter_rows (patch_idx last_line : nat) (section : list text) : list text :=
  match section with
  | [] => []
  | s :: r => (left_w 64 s ++ right_w 8 (print_nat patch_idx) ++ lit "P" ++ right_w 7 (print_nat last_line))
              :: parameter_rows patch_idx (S last_line) r
  end.

(** writeIGSHeader, GeometryIGS.hpp 244-253 *)
Definition header_rows : list text :=
  section_rows "S"%char 0 [[]; lit "IGES obtained from Bembel."; lit "See <http://www.bembel.eu>"; []].

(** writeGlobalSection, GeometryIGS.hpp 274-333 *)
Definition global_items (file_name date : text) : list text :=
  [lit "1H,"; lit "1H;"; lit "Bembel"; file_name; lit "Bembel"; lit "writeIGSFile"; lit "32"; lit "75"; lit "6"; lit "75";
   lit "15"; lit "Nurbs from Bembel"; lit "1.0"; lit "6"; lit "M"; lit "1000"; lit "1.0"; date; lit "0.000001";
   lit "10000.0"; lit "Maximilian Nolte"; lit "CEM - TU Darmstadt"; lit "3"; lit "0"].
Definition global_rows (file_name date : text) : list text :=
  section_rows "G"%char 0 (makeSection (global_items file_name date) 72).

(** writeDirectory, GeometryIGS.hpp 344-378: the two rows of patch i *)
Definition zero8 : text := right_w 8 (lit "0").
Definition directory_row1 (i start : nat) : text :=
  right_w 8 (lit "128") ++ right_w 8 (print_nat start) ++ zero8 ++ zero8 ++ zero8 ++ zero8 ++ zero8 ++ zero8 ++ zero8
  ++ lit "D" ++ right_w 7 (print_nat ((i + 1) * 2 - 1)).
Definition directory_row2 (i lines : nat) : text :=
  right_w 8 (lit "128") ++ zero8 ++ zero8 ++ right_w 8 (print_nat lines) ++ zero8 ++ right_w 8 (lit " ") ++ right_w 8 (lit " ")
  ++ right_w 8 (lit " ") ++ zero8 ++ lit "D" ++ right_w 7 (print_nat ((i + 1) * 2)).
(** [sizes]: numbers of lines of the patches i, i+1, ... ; start_line counts them, lines 491-500 *)
Fixpoint directory_rows (i start : nat) (sizes : list nat) : list text :=
  match sizes with
  | [] => []
  | n :: r => directory_row1 i start :: directory_row2 i n :: directory_rows (S i) (start + n) r
  end.

(** ** writePatchData, GeometryIGS.hpp 392-470 *)
(** v[i] = x on a std::vector; [slack]: a write directly behind the end falls into unused memory of the
    allocator and has no effect (in the C++ language it is undefined behaviour: None) *)
Definition write_slack (slack : bool) (v : list R) (i : nat) (x : R) : option (list R) :=
  if slack && (i =? length v) then Some v else set v i x.
(** lines 402-405: for (i = 0; i <= degree; ++i) knots[degree + i] = 1 on a vector of size 2 * degree *)
Definition iges_knots (slack : bool) (degree : nat) : option (list R) :=
  for_opt (degree + 1) (fun i v => write_slack slack v (degree + i) 1%R) (repeat 0%R (2 * degree)).

(** lines 413-434: the vectors filled at j = rowIndex * number_of_points_x + colIndex; [f i] is the value of
    control point i (None: division by zero) *)
Definition rearranged (size npx npy : nat) (f : nat -> option R) : option (list R) :=
  for_opt size (fun i v => x <- f i ;; set v ((i mod npy) * npx + i / npy) x) (repeat 0%R size).

Section Printing.
Variable show : R -> text.     (* double_to_string(., precision) *)

Definition quotient (a b : R) : option R := if Req_EM_T b 0 then None else Some (a / b)%R.
Definition coordinate (P : patch) (k i : nat) : option R :=
  w <- get (p_data P) (i * 4 + 3) ;; a <- get (p_data P) (i * 4 + k) ;; quotient a w.

Definition writePatchData (slack : bool) (P : patch) : option (list text) :=
  _ <- assert (length (p_knx P) =? 2) ;;
  _ <- assert (length (p_kny P) =? 2) ;;
  knots_x <- iges_knots slack (p_degx P) ;;
  knots_y <- iges_knots slack (p_degy P) ;;
  let npx := length knots_x - p_degx P in
  let npy := length knots_y - p_degy P in
  let size := length (p_data P) / 4 in
  w <- rearranged size npx npy (fun i => get (p_data P) (i * 4 + 3)) ;;
  x <- rearranged size npx npy (coordinate P 0) ;;
  y <- rearranged size npx npy (coordinate P 1) ;;
  z <- rearranged size npx npy (coordinate P 2) ;;
  Some ([lit "128"; print_int (Z.of_nat npx - 1); print_int (Z.of_nat npy - 1);
         print_int (Z.of_nat (p_degx P) - 1); print_int (Z.of_nat (p_degy P) - 1);
         lit "0"; lit "0"; lit "0"; lit "0"; lit "0"]
        ++ map show knots_x ++ map show knots_y ++ map show w
        ++ flat_map (fun i => [show (nth i x 0%R); show (nth i y 0%R); show (nth i z 0%R)]) (seq 0 size)
        ++ [lit "0.000000"; lit "1.000000"; lit "0.000000"; lit "1.000000"; lit "0"; lit "0"]).

(** ** writeIGSFile, GeometryIGS.hpp 480-536 *)
Fixpoint all_parameter_rows (i first_line : nat) (sections : list (list text)) : list text :=
  match sections with
  | [] => []
  | s :: r => parameter_rows (1 + 2 * i) first_line s ++ all_parameter_rows (S i) (first_line + length s) r
  end.
Definition lsum_nat (l : list nat) : nat := fold_right Nat.add 0 l.
Definition terminate_row (size_global size_directory size_parameter : nat) : text :=
  left_w 72 (right_w 7 (lit "4") ++ lit "S" ++ right_w 7 (print_nat size_global) ++ lit "G" ++
             right_w 7 (print_nat size_directory) ++ lit "D" ++ right_w 7 (print_nat size_parameter) ++ lit "P")
  ++ lit "T" ++ right_w 7 (lit "1").
Definition writeIGSFile (slack : bool) (geometry : list patch) (file_name date : text) : option text :=
  sections <- map_opt (fun P => d <- writePatchData slack P ;; Some (makeSection d 64)) geometry ;;
  let sizes := map (@length text) sections in
  Some (as_text (header_rows ++ global_rows file_name date ++ directory_rows 0 1 sizes ++ all_parameter_rows 0 1 sections
        ++ [terminate_row (length (makeSection (global_items file_name date) 72)) (2 * length geometry) (lsum_nat sizes)])).
End Printing.

(** ** LoadGeometryFileIGS, GeometryIGS.hpp 25-148 *)
(** row[72]; a string may be read at its size (the terminating zero) but not beyond *)
Definition char72 (row : text) : option ascii := get (row ++ [ascii_of_nat 0]) 72.

(** lines 45-48; every round consumes a character or ends in the assertion *)
Fixpoint skip_to_D (fuel : nat) (file : stream) (row : text) : option (stream * text) :=
  c <- char72 row ;;
  if Ascii.eqb c "D"%char then Some (file, row)
  else match fuel with
       | O => None
       | S f => let '(file, row) := getline file row in
                _ <- assert (negb (eofbit file)) ;; skip_to_D f file row
       end.

(** lines 51-75 *)
Fixpoint read_directory (fuel : nat) (file : stream) (row : text) (patch_lines : list Z) : option (stream * text * list Z) :=
  c <- char72 row ;;
  if Ascii.eqb c "P"%char then Some (file, row, patch_lines)
  else match fuel with
       | O => None
       | S f =>
           r <- read_ints (length row) (open_stream row) [] [] ;;
           let '(iss, word, info1) := r in
           i0 <- get info1 0 ;; _ <- assert (i0 =? 128)%Z ;;
           let '(file, row) := getline file row in
           r <- read_ints (length row) (set_str row (clear iss)) word [] ;;
           let '(_, _, info2) := r in
           let '(file, row) := getline file row in
           n <- get info2 3 ;;
           _ <- assert (negb (eofbit file)) ;;
           read_directory f file row (patch_lines ++ [n])
       end.

(** lines 91-94: while (getline(iss, word, ',')) data.push_back(atof(word.c_str())) *)
Fixpoint read_items (fuel : nat) (iss : stream) (word : text) (data : list R) : option (text * list R) :=
  let '(iss', word') := getline_delim ","%char iss word in
  if failbit iss' then Some (word', data)
  else match fuel with
       | O => None   (* not reached *)
       | S f => read_items f iss' word' (data ++ [atof word'])
       end.
Definition not_blank (c : ascii) : bool := negb (Ascii.eqb c " "%char).
(** lines 84-98: the lines of one patch *)
Fixpoint read_lines (n : nat) (file : stream) (row word : text) (data : list R) : option (stream * text * list R) :=
  match n with
  | O => Some (file, row, data)
  | S m =>
      let raw_data := filter not_blank (firstn 64 row) in
      r <- read_items (S (length raw_data)) (open_stream raw_data) word data ;;
      let '(word, data) := r in
      let '(file, row) := getline file row in
      read_lines m file row word data
  end.

(** conversion of double to int *)
Definition to_int (r : R) : Z := if Rlt_dec r 0 then (- Int_part (- r))%Z else Int_part r.
(** the range [a, a + n) of a vector *)
Definition slice (v : list R) (a n : nat) : option (list R) :=
  if a + n <=? length v then Some (firstn n (skipn a v)) else None.
Definition product (A B : list (list R)) : list (list R) :=
  map (fun rs => map (fun xy => (fst xy * snd xy)%R) (combine (fst rs) (snd rs))) (combine A B).

(** lines 100-143: the patch from the numbers (negative sizes make the vector and matrix constructors fail) *)
Definition patch_of_data (inv : (nat -> nat -> R) -> nat -> nat -> nat -> R) (junk : list R) (data : list R) : option patch :=
  d1 <- get data 1 ;; d2 <- get data 2 ;; d3 <- get data 3 ;; d4 <- get data 4 ;;
  let K1 := to_int d1 in let K2 := to_int d2 in let M1 := to_int d3 in let M2 := to_int d4 in
  let N1 := (1 + K1 - M1)%Z in let N2 := (1 + K2 - M2)%Z in
  let A := (N1 + 2 * M1)%Z in let B := (N2 + 2 * M2)%Z in let C := ((1 + K1) * (1 + K2))%Z in
  _ <- assert ((0 <=? A)%Z && (0 <=? B)%Z && (0 <=? K1)%Z && (0 <=? K2)%Z) ;;
  data <- slice data 10 (length data - 10) ;;
  let a := Z.to_nat A in let b := Z.to_nat B in let c := Z.to_nat C in
  let M := Z.to_nat (K2 + 1) in let N := Z.to_nat (K1 + 1) in
  tempknt1 <- slice data 0 (a + 1) ;;
  tempknt2 <- slice data (a + 1) (b + 1) ;;
  w <- slice data (a + b + 2) c ;;
  pts <- slice data (a + b + 2 + c) (3 * c) ;;
  let weights := by_rows M N w in
  let comp k := product (by_rows M N (map (fun i => nth (3 * i + k) pts 0%R) (seq 0 c))) weights in
  init_Patch inv junk [comp 0; comp 1; comp 2; weights] tempknt1 tempknt2.

(** lines 79-145 *)
Fixpoint read_parameters (inv : (nat -> nat -> R) -> nat -> nat -> nat -> R) (junk : list R) (patch_lines : list Z)
  (file : stream) (row : text) (out : list patch) : option (list patch) :=
  match patch_lines with
  | [] => Some out
  | n :: r =>
      t <- read_lines (Z.to_nat n) file row [] [] ;;
      let '(file, row, data) := t in
      P <- patch_of_data inv junk data ;;
      read_parameters inv junk r file row (out ++ [P])
  end.

Definition LoadGeometryFileIGS (inv : (nat -> nat -> R) -> nat -> nat -> nat -> R) (junk : list R) (content : text)
  : option (list patch) :=
  let '(file, row) := getline (open_stream content) [] in
  c <- char72 row ;;
  _ <- assert (Ascii.eqb c "S"%char) ;;
  r <- skip_to_D (length content) file row ;;
  let '(file, row) := r in
  r <- read_directory (length content) file row [] ;;
  let '(file, row, patch_lines) := r in
  read_parameters inv junk patch_lines file row [].
