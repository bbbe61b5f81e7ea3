(** Model of Bembel/src/Geometry/GeometryIO.hpp: the native text format of geometries.
    Files are texts; the file system is not modelled (a file that cannot be opened ends the program). *)
From Coq Require Import Bool Ascii String ZArith Reals List Arith Lia.
From Verif Require Import ModelBase ModelText ModelKnots ModelPatch.
Import ListNotations.
Local Open Scope bool_scope.
Local Open Scope nat_scope.

(** ** LoadGeometryFileDAT, GeometryIO.hpp 25-117 *)

(** while (iss >> word) info.push_back(stoi(word)), lines 56-58 and 63-65 *)
Fixpoint read_ints (fuel : nat) (iss : stream) (word : text) (info : list Z) : option (stream * text * list Z) :=
  let '(iss', word') := extract iss word in
  if failbit iss' then Some (iss', word', info)
  else match fuel with
       | O => None   (* not reached: every successful extraction consumes a character *)
       | S f => z <- stoi word' ;; read_ints f iss' word' (info ++ [z])
       end.

(** for (k < n) { iss >> word; v.push_back(atof(word.c_str())); }, lines 76-79, 85-88 and 101-103 (where the
    values fill the matrix row by row) *)
Fixpoint read_doubles (n : nat) (iss : stream) (word : text) (v : list R) : stream * text * list R :=
  match n with
  | O => (iss, word, v)
  | S m => let '(iss', word') := extract iss word in read_doubles m iss' word' (v ++ [atof word'])
  end.

(** the matrix with the given entries row by row *)
Definition by_rows (M N : nat) (v : list R) : list (list R) :=
  map (fun i => map (fun j => nth (i * N + j) v 0%R) (seq 0 N)) (seq 0 M).

(** lines 93-108: one of the four matrices *)
Definition read_matrix (M N : Z) (file iss : stream) (row word : text)
  : option (stream * stream * text * text * list (list R)) :=
  _ <- assert ((0 <=? M)%Z && (0 <=? N)%Z) ;;
  let '(file, row) := getline file row in
  let iss := set_str row iss in
  let '(iss, word, v) := read_doubles (Z.to_nat M * Z.to_nat N) iss word [] in
  Some (file, clear iss, row, word, by_rows (Z.to_nat M) (Z.to_nat N) v).
Fixpoint read_matrices (k : nat) (M N : Z) (file iss : stream) (row word : text) (tmp : list (list (list R)))
  : option (stream * stream * text * text * list (list (list R))) :=
  match k with
  | O => Some (file, iss, row, word, tmp)
  | S k' => r <- read_matrix M N file iss row word ;;
            let '(file, iss, row, word, A) := r in read_matrices k' M N file iss row word (tmp ++ [A])
  end.

(** lines 46-113: one patch *)
Definition read_patch (inv : (nat -> nat -> R) -> nat -> nat -> nat -> R) (junk : list R)
  (file iss : stream) (row word : text) : option (stream * stream * text * text * patch) :=
  let '(file, row) := getline file row in
  let '(file, row) := getline file row in
  let iss := set_str row iss in
  r <- read_ints (length row) iss word [] ;;
  let '(iss, word, info) := r in
  let '(file, row) := getline file row in
  let iss := set_str row (clear iss) in
  r <- read_ints (length row) iss [] info ;;
  let '(iss, _, info) := r in
  let iss := clear iss in
  let '(file, row) := getline file row in
  let iss := set_str row iss in
  i0 <- get info 0 ;; i1 <- get info 1 ;; i2 <- get info 2 ;; i3 <- get info 3 ;;
  let '(iss, _, knt1) := read_doubles (Z.to_nat (i0 + i2 + 1)) iss [] [] in
  let iss := clear iss in
  let '(file, row) := getline file row in
  let iss := set_str row iss in
  let '(iss, word, knt2) := read_doubles (Z.to_nat (i1 + i3 + 1)) iss [] [] in
  let iss := clear iss in
  r <- read_matrices 4 i3 i2 file iss row word [] ;;
  let '(file, iss, row, word, tmp) := r in
  P <- init_Patch inv junk tmp knt1 knt2 ;;
  Some (file, iss, row, word, P).
Fixpoint read_patches (inv : (nat -> nat -> R) -> nat -> nat -> nat -> R) (junk : list R) (n : nat)
  (file iss : stream) (row word : text) (out : list patch) : option (list patch) :=
  match n with
  | O => Some out
  | S m => r <- read_patch inv junk file iss row word ;;
           let '(file, iss, row, word, P) := r in read_patches inv junk m file iss row word (out ++ [P])
  end.

(** lines 37-39: the first five rows *)
Fixpoint skip_rows (n : nat) (file : stream) (row : text) : stream * text :=
  match n with O => (file, row) | S m => let '(f, r) := getline file row in skip_rows m f r end.
(** lines 42-46 *)
Fixpoint read_header (n : nat) (iss : stream) (word : text) (info : list Z) : option (stream * text * list Z) :=
  match n with
  | O => Some (iss, word, info)
  | S m => let '(iss', word') := extract iss word in z <- stoi word' ;; read_header m iss' word' (info ++ [z])
  end.
Definition LoadGeometryFileDAT (inv : (nat -> nat -> R) -> nat -> nat -> nat -> R) (junk : list R) (content : text)
  : option (list patch) :=
  let '(file, row) := skip_rows 5 (open_stream content) [] in
  let iss := set_str row (open_stream []) in
  r <- read_header 5 iss [] [] ;;
  let '(iss, word, infoInt) := r in
  n <- get infoInt 2 ;;
  read_patches inv junk (Z.to_nat n) file iss row word [].

(** ** writing *)
Definition crlf : text := [return_char; newline].

(** MakeFile, GeometryIO.hpp 125-139 *)
Definition MakeFile (file_name : text) (number_of_patches : nat) : text :=
  lit "# nurbs mesh v.2.1" ++ crlf ++
  lit "# " ++ file_name ++ crlf ++
  lit "# Generated by BEMBEL, see www.bembel.eu" ++ crlf ++
  lit "#" ++ crlf ++
  lit "2 3 " ++ print_int (Z.of_nat number_of_patches) ++ lit " 0 0 " ++ crlf.

(** a row of doubles, each followed by three blanks, and the end of line (lines 161-170 and 173-182) *)
Definition print_row (v : list R) : text := flat_map (fun x => fixed15 x ++ lit "   ") v ++ crlf.

(** WritePatch, GeometryIO.hpp 148-185: the text appended to the file.  knt1[size - 1] is read. *)
Definition WritePatch (current_patch_number : nat) (xyzw : list (list (list R))) (knt1 knt2 : list R) : option text :=
  A <- get xyzw 0 ;;
  let N := m_cols A in
  let M := m_rows A in
  let p1 := (Z.of_nat (length knt1) - Z.of_nat N - 1)%Z in
  let p2 := (Z.of_nat (length knt2) - Z.of_nat M - 1)%Z in
  _ <- assert ((1 <=? length knt1) && (1 <=? length knt2)) ;;
  mats <- map_opt (fun B =>
            v <- map_opt (fun ij => row <- get B (ij / N) ;; get row (ij mod N)) (seq 0 (M * N)) ;;
            Some (match v with [] => [] | _ => print_row v end)) xyzw ;;
  Some (lit "PATCH " ++ print_int (Z.of_nat current_patch_number) ++ lit " " ++ crlf ++
        print_int p1 ++ lit " " ++ print_int p2 ++ lit " " ++ crlf ++
        print_int (Z.of_nat N) ++ lit " " ++ print_int (Z.of_nat M) ++ lit " " ++ crlf ++
        print_row knt1 ++ print_row knt2 ++ concat mats).

(** data[k](r, c) = v *)
Definition set_entry (A : list (list R)) (r c : nat) (v : R) : option (list (list R)) :=
  row <- get A r ;; row' <- set row c v ;; set A r row'.

(** WriteDATFile, GeometryIO.hpp 213-228: the matrix data[k] of a patch *)
Definition patch_matrix (P : patch) (npx npy k : nat) : option (list (list R)) :=
  for_opt (npx * npy) (fun i A => v <- get (p_data P) (4 * i + k) ;; set_entry A (i mod npy) (i / npy) v)
    (repeat (repeat 0%R npx) npy).

(** GeometryIO.hpp 196-233; polynomial_degree_x_ is degree + 1 *)
Definition write_patch (count : nat) (P : patch) : option text :=
  _ <- assert (length (p_knx P) =? 2) ;;
  _ <- assert (length (p_kny P) =? 2) ;;
  knt_x <- for_opt (p_degx P) (fun i v => set v i 0%R) (repeat 1%R (2 * p_degx P)) ;;
  knt_y <- for_opt (p_degy P) (fun i v => set v i 0%R) (repeat 1%R (2 * p_degy P)) ;;
  let npx := length knt_x - p_degx P in
  let npy := length knt_y - p_degy P in
  data <- map_opt (patch_matrix P npx npy) (seq 0 4) ;;
  WritePatch count data knt_x knt_y.
Fixpoint write_patches (count : nat) (G : list patch) : option text :=
  match G with
  | [] => Some []
  | P :: r => t <- write_patch count P ;; u <- write_patches (S count) r ;; Some (t ++ u)
  end.
Definition WriteDATFile (G : list patch) (file_name : text) : option text :=
  t <- write_patches 0 G ;; Some (MakeFile file_name (length G) ++ t).
