(** Models of small stateful parts: util/GenericMatrix.hpp, IO/Stopwatch.hpp, the file type test of
    Geometry/Geometry.hpp, IO/print2file.hpp (binary format) and the assignment of
    AnsatzSpace/FunctionEvaluator.hpp. *)
From Coq Require Import Ascii String ZArith QArith List Arith Lia.
From Verif Require Import ModelBase ModelTree.
Import ListNotations.
Local Close Scope Q_scope.
Local Open Scope nat_scope.

(** * GenericMatrix.hpp *)
Section GenericMatrix.
Context {T : Type}.
Variable dflt : T.  (* the value-initialised element T() *)

(** GenericMatrix.hpp 70-73: the data members *)
Record gmat := GMat { g_rows : nat; g_cols : nat; g_data : list (list T) }.

(** GenericMatrix.hpp 26 *)
Definition g_empty : gmat := GMat 0 0 [].

(** std::vector::resize(n): cut off or append value-initialised elements *)
Definition resize_vec {A} (d : A) (n : nat) (v : list A) : list A := firstn n v ++ repeat d (n - length v).

(** GenericMatrix.hpp 45-51 *)
Definition g_resize (r c : nat) (M : gmat) : gmat :=
  GMat r c (map (resize_vec dflt r) (resize_vec [] c (g_data M))).

(** GenericMatrix.hpp 59-63: m_data_[col][row] *)
Definition g_read (M : gmat) (i j : nat) : option T := col <- get (g_data M) j ;; get col i.
Definition g_write (M : gmat) (i j : nat) (v : T) : option gmat :=
  col <- get (g_data M) j ;; col' <- set col i v ;; d <- set (g_data M) j col' ;;
  Some (GMat (g_rows M) (g_cols M) d).

(** GenericMatrix.hpp 30-34 copy constructor and 65-70 operator= (the argument is a copy; the old
    storage of the target ends up in the argument and is destroyed) *)
Definition g_copy (M : gmat) : gmat := GMat (g_rows M) (g_cols M) (g_data M).

(** GenericMatrix.hpp 36-40: move constructor; result is (new object, source afterwards).  A moved-from
    std::vector is empty. *)
Definition g_move (M : gmat) : gmat * gmat := (GMat (g_rows M) (g_cols M) (g_data M), GMat (g_rows M) (g_cols M) []).

(** programs over named matrices *)
Inductive gop :=
| GResize (k r c : nat)            (* k.resize(r, c) *)
| GWrite (k i j : nat) (v : T)     (* k(i, j) = v *)
| GAssign (k l : nat).             (* k = l *)
Definition g_upd (env : nat -> gmat) (k : nat) (M : gmat) : nat -> gmat := fun l => if l =? k then M else env l.
Definition g_step (o : gop) (env : nat -> gmat) : option (nat -> gmat) :=
  match o with
  | GResize k r c => Some (g_upd env k (g_resize r c (env k)))
  | GWrite k i j v => M <- g_write (env k) i j v ;; Some (g_upd env k M)
  | GAssign k l => Some (g_upd env k (g_copy (env l)))
  end.
Fixpoint g_run (ops : list gop) (env : nat -> gmat) : option (nat -> gmat) :=
  match ops with
  | [] => Some env
  | o :: r => env' <- g_step o env ;; g_run r env'
  end.
End GenericMatrix.
Arguments gmat : clear implicits.
Arguments gop : clear implicits.

(** * Stopwatch.hpp (times in clock ticks) *)
(** Stopwatch.hpp 28-32; [sum_] is never used *)
Record stopwatch := SW { s_p : Z; s_durations : list Z; s_started : bool; s_lapped : bool }.

(** Stopwatch.hpp 35-38; p_ is default-constructed *)
Definition sw_new : stopwatch := SW 0 [] false false.

(** Stopwatch.hpp 47-52; [now] is the clock reading *)
Definition sw_start (now : Z) (s : stopwatch) : option stopwatch :=
  _ <- assert (negb (s_started s)) ;; Some (SW now [] true (s_lapped s)).

(** Stopwatch.hpp 53-62; the clock is read twice *)
Definition sw_lap (now now' : Z) (s : stopwatch) : option (Z * stopwatch) :=
  let out := (now - s_p s)%Z in
  _ <- assert (s_started s) ;; Some (out, SW now' (s_durations s ++ [out]) (s_started s) true).

(** Stopwatch.hpp 63-74 *)
Definition sw_stop (now : Z) (s : stopwatch) : option (Z * stopwatch) :=
  let out := (now - s_p s)%Z in
  _ <- assert (s_started s) ;;
  if s_lapped s then Some (fold_left Z.add (s_durations s) 0%Z, SW (s_p s) (s_durations s) false false)
  else Some (out, s).

(** a run: start, laps, stop *)
Fixpoint sw_laps (times : list (Z * Z)) (s : stopwatch) : option (list Z * stopwatch) :=
  match times with
  | [] => Some ([], s)
  | (a, b) :: r => os <- sw_lap a b s ;; rs <- sw_laps r (snd os) ;; Some (fst os :: fst rs, snd rs)
  end.

(** * Geometry.hpp 89-101: the reader chosen for a file name *)
Inductive reader := ReadDAT | ReadIGS.

(** filename.substr(filename.find('.') + 1); find returns npos without a dot and npos + 1 = 0 *)
Fixpoint after_dot (s : string) : option string :=
  match s with
  | EmptyString => None
  | String c r => if Ascii.eqb c "."%char then Some r else after_dot r
  end.
Definition file_suffix (s : string) : string := match after_dot s with Some r => r | None => s end.

(** None: assert(!"File type unknown!") *)
Definition file_type (s : string) : option reader :=
  if String.eqb (file_suffix s) "dat"%string then Some ReadDAT
  else if String.eqb (file_suffix s) "igs"%string then Some ReadIGS
  else None.

(** * print2file.hpp 101-199: the binary format *)
Definition byte := nat.
(** an int of four bytes, least significant first *)
Fixpoint le_bytes (n : nat) (z : Z) : list byte :=
  match n with
  | O => []
  | S m => Z.to_nat (z mod 256) :: le_bytes m (z / 256)
  end.
Fixpoint le_value (l : list byte) : Z :=
  match l with [] => 0%Z | b :: r => (Z.of_nat b + 256 * le_value r)%Z end.
Definition int_bytes (z : Z) : list byte := le_bytes 4 z.
(** the int stored in four bytes (two's complement) *)
Definition int_value (l : list byte) : Z :=
  let v := le_value l in if (v <? 2 ^ 31)%Z then v else (v - 2 ^ 32)%Z.
Definition INT_MAX : Z := (2 ^ 31 - 1)%Z.

Section Binary.
Context {S : Type}.
Variable size : nat.                  (* sizeof(Scalar) *)
Variable enc : S -> list byte.        (* object representation *)
Variable dec : list byte -> S.

(** a dense matrix: rows, columns, coefficient function *)
Record dmat := DMat { d_rows : nat; d_cols : nat; d_at : nat -> nat -> S }.

(** the coefficients in storage order (print2file.hpp 127-143) *)
Definition stored (rowmajor : bool) (A : dmat) : list S :=
  if rowmajor then flat_map (fun i => map (fun j => d_at A i j) (seq 0 (d_cols A))) (seq 0 (d_rows A))
  else flat_map (fun j => map (fun i => d_at A i j) (seq 0 (d_rows A))) (seq 0 (d_cols A)).

(** print2file.hpp 101-148: the content of the file.  rows * cols * dataSize is computed in int. *)
Definition print2bin (rowmajor : bool) (A : dmat) : option (list byte) :=
  let n := (Z.of_nat (d_rows A) * Z.of_nat (d_cols A) * Z.of_nat size)%Z in
  _ <- assert ((Z.of_nat (d_rows A) <=? INT_MAX)%Z && (Z.of_nat (d_cols A) <=? INT_MAX)%Z && (n <=? INT_MAX)%Z) ;;
  Some (int_bytes (Z.of_nat size) ++ int_bytes (if rowmajor then 1 else 0) ++ int_bytes (Z.of_nat (d_rows A))
        ++ int_bytes (Z.of_nat (d_cols A)) ++ flat_map enc (stored rowmajor A)).

(** istream::read(buf, n): the bytes that are there replace the first bytes of the buffer *)
Definition read_bytes (buf file : list byte) : list byte * list byte :=
  let got := firstn (length buf) file in
  (got ++ skipn (length got) buf, skipn (length buf) file).

(** n-th scalar of a byte buffer *)
Definition scalar_at (data : list byte) (n : nat) : S := dec (firstn size (skipn (n * size) data)).

(** print2file.hpp 150-199: return value and target afterwards; [file] is empty if it could not be opened,
    [junk] the content of the memory returned by new.  A negative size makes new[] throw. *)
Definition bin2Mat (file : list byte) (junk : list byte) (target : dmat) : option (nat * dmat) :=
  let zero := int_bytes 0 in
  let '(b1, f1) := read_bytes zero file in
  let '(b2, f2) := read_bytes zero f1 in
  let '(b3, f3) := read_bytes zero f2 in
  let '(b4, f4) := read_bytes zero f3 in
  let dataSize := int_value b1 in
  let rows := int_value b3 in
  let cols := int_value b4 in
  if negb (dataSize =? Z.of_nat size)%Z then Some (1, target)
  else
    _ <- assert ((0 <=? rows)%Z && (0 <=? cols)%Z && (rows * cols * dataSize <=? INT_MAX)%Z) ;;
    let r := Z.to_nat rows in let c := Z.to_nat cols in
    let buf := resize_vec 0 (r * c * size) junk in
    let '(data, _) := read_bytes buf f4 in
    if (int_value b2 =? 0)%Z then Some (0, DMat r c (fun i j => scalar_at data (j * r + i)))
    else Some (0, DMat r c (fun i j => scalar_at data (i * c + j))).
End Binary.
Arguments dmat : clear implicits.

(** * FunctionEvaluator.hpp *)
(** FunctionEvaluator.hpp 147-157: the data members; [e_fun] are the rows of fun_, G the geometry *)
Record evaluator (G V : Type) := Evaluator { e_rv : list nat; e_space : tree * G; e_fun : list V; e_p2 : nat }.
Arguments Evaluator {G V}. Arguments e_rv {G V}. Arguments e_space {G V}. Arguments e_fun {G V}. Arguments e_p2 {G V}.

(** FunctionEvaluator.hpp 60-77 *)
Definition init_evaluator {G V} (sp : tree * G) (p : nat) (f : list V) : option (evaluator G V) :=
  rv <- reordering_vector (fst sp) ;; Some (Evaluator rv sp f ((p + 1) * (p + 1))).

(** FunctionEvaluator.hpp 29-35: operator= does not copy reordering_vector_ *)
Definition assign_evaluator {G V} (a b : evaluator G V) : evaluator G V := Evaluator (e_rv a) (e_space b) (e_fun b) (e_p2 b).

(** FunctionEvaluator.hpp 109-117: fun_.block(p2 * id, 0, p2, ..) checks its range *)
Definition coefficients {G V} (E : evaluator G V) (n : node) : option (list V) :=
  _ <- assert (e_p2 E * n_id n + e_p2 E <=? length (e_fun E)) ;;
  Some (firstn (e_p2 E) (skipn (e_p2 E * n_id n) (e_fun E))).
(** evaluate and evaluateDiv, 106-127; [ev] is eval_.eval or eval_.evalDiv: superspace (mesh and geometry), (p+1)^2,
    patch, element, point, coefficient block *)
Definition evaluate {G V W P : Type} (ev : tree * G -> nat -> nat -> node -> P -> list V -> W) (E : evaluator G V) (patch : nat) (n : node) (uv : P) : option W :=
  c <- coefficients E n ;; Some (ev (e_space E) (e_p2 E) patch n uv c).

(** FunctionEvaluator.hpp 82-105 *)
Definition evaluateOnPatch {G V W : Type} (ev : tree * G -> nat -> nat -> node -> Q * Q -> list V -> W) (E : evaluator G V) (patch : nat) (x y : Q) : option W :=
  r <- locate (fst (e_space E)) (e_rv E) patch x y ;;
  n <- t_store (fst (e_space E)) (fst r) ;;
  evaluate ev E patch n (snd r).
