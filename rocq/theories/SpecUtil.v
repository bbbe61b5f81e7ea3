(** Specifications for C40, C41, C46, C47, C48. *)
From Coq Require Import Ascii String ZArith List Arith Lia.
From Verif Require Import ModelUtil.
Import ListNotations.

(** ** matrices as values: sizes and a function of the position *)
Section Values.
Context {T : Type}.
Variable dflt : T.
Record vmat := VMat { v_rows : nat; v_cols : nat; v_at : nat -> nat -> T }.
Definition v_empty : vmat := VMat 0 0 (fun _ _ => dflt).
Definition inside (A : vmat) (i j : nat) : Prop := i < v_rows A /\ j < v_cols A.
(** resizing keeps the entries at positions that exist before and after; new entries are T() *)
Definition v_resize (r c : nat) (A : vmat) : vmat :=
  VMat r c (fun i j => if ((i <? v_rows A) && (j <? v_cols A))%bool then v_at A i j else dflt).
Definition v_write (i j : nat) (x : T) (A : vmat) : vmat :=
  VMat (v_rows A) (v_cols A) (fun i' j' => if ((i' =? i) && (j' =? j))%bool then x else v_at A i' j').
Definition v_step (o : gop T) (env : nat -> vmat) : nat -> vmat :=
  match o with
  | GResize k r c => fun l => if l =? k then v_resize r c (env k) else env l
  | GWrite k i j x => fun l => if l =? k then v_write i j x (env k) else env l
  | GAssign k m => fun l => if l =? k then env m else env l
  end.
Definition v_run (ops : list (gop T)) (env : nat -> vmat) : nat -> vmat := fold_left (fun e o => v_step o e) ops env.
(** every write is to an existing position *)
Fixpoint v_valid (ops : list (gop T)) (env : nat -> vmat) : Prop :=
  match ops with
  | [] => True
  | o :: r => match o with GWrite k i j _ => inside (env k) i j | _ => True end /\ v_valid r (v_step o env)
  end.
End Values.
Arguments vmat : clear implicits.

(** ** strings *)
Definition no_dot (s : string) : Prop := ~ In "."%char (list_ascii_of_string s).

(** ** two dense matrices are the same *)
Definition same_matrix {S} (A B : dmat S) : Prop :=
  d_rows A = d_rows B /\ d_cols A = d_cols B /\ forall i j, i < d_rows A -> j < d_cols A -> d_at A i j = d_at B i j.

(** ** clock readings do not decrease *)
Fixpoint increasing (l : list Z) : Prop :=
  match l with a :: (b :: _) as r => (a <= b)%Z /\ increasing r | _ => True end.
