(** Specifications for C45 and C58. *)
From Coq Require Import Ascii String Reals List ZArith.
From Verif Require Import ModelText ModelPatch SpecDat.
Import ListNotations.

(** the items with their separators: a comma after each but the last, a semicolon after the last *)
Fixpoint terminated (items : list text) : list text :=
  match items with
  | [] => []
  | [d] => [d ++ lit ";"]
  | d :: r => (d ++ lit ",") :: terminated r
  end.

(** the lines are made of the given pieces in order, none of which is split between lines *)
Definition made_of (pieces lines : list text) : Prop :=
  exists groups : list (list text), concat groups = pieces /\ lines = map (@concat ascii) groups.

(** an item the reader can recognise: no comma, blank or newline in it *)
Definition plain_item (s : text) : Prop := forall c, In c s -> c <> ","%char /\ c <> " "%char /\ c <> newline.

(** control points after a round trip when numbers v are reproduced as [rd v]: the file holds x/w, y/w, z/w, w *)
Definition reread_patch (rd : R -> R) (P Q : patch) : Prop :=
  p_degx Q = p_degx P /\ p_degy Q = p_degy P /\ p_knx Q = p_knx P /\ p_kny Q = p_kny P /\
  length (p_data Q) = length (p_data P) /\
  forall i k, (i < p_degx P * p_degy P)%nat -> (k < 4)%nat ->
    let w := nth (4 * i + 3) (p_data P) 0%R in
    nth (4 * i + k) (p_data Q) 0%R
      = if (k =? 3)%nat then rd w else (rd (nth (4 * i + k) (p_data P) 0 / w) * rd w)%R.

(** all numbers written for a patch *)
Definition printed_value (P : patch) (v : R) : Prop :=
  v = 0%R \/ v = 1%R \/
  exists i k, (i < p_degx P * p_degy P)%nat /\ (k < 3)%nat /\
    let w := nth (4 * i + 3) (p_data P) 0%R in v = w \/ v = (nth (4 * i + k) (p_data P) 0 / w)%R.

(** a patch that can be written: one polynomial piece, no zero weight, all its numbers printed as short plain items *)
Definition iges_writable (show : R -> text) (P : patch) : Prop :=
  bezier_patch P /\
  (forall i, (i < p_degx P * p_degy P)%nat -> nth (4 * i + 3) (p_data P) 0%R <> 0%R) /\
  (forall v, printed_value P v -> plain_item (show v) /\ (length (show v) <= 63)%nat).

(** number of items written for a patch, plus one *)
Definition iges_items (P : patch) : nat := (17 + 2 * p_degx P + 2 * p_degy P + 4 * (p_degx P * p_degy P))%nat.
