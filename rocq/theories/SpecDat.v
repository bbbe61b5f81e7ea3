(** What survives a round trip through a geometry file. *)
From Coq Require Import Reals List ZArith Ascii.
From Verif Require Import ModelText ModelPatch.
Import ListNotations.
Local Open Scope R_scope.

(** a patch without inner knots: one polynomial piece, (degree_x + 1)(degree_y + 1) control points of four
    coordinates; the sizes fit into int *)
Definition bezier_patch (P : patch) : Prop :=
  p_knx P = [0; 1] /\ p_kny P = [0; 1] /\ (1 <= p_degx P)%nat /\ (1 <= p_degy P)%nat /\
  length (p_data P) = (4 * (p_degx P * p_degy P))%nat /\
  (Z.of_nat (2 * p_degx P) <= 2 ^ 31 - 1)%Z /\ (Z.of_nat (2 * p_degy P) <= 2 ^ 31 - 1)%Z.

(** same degrees and knots, control points that differ by at most [eps] in every coordinate *)
Definition near_patch (eps : R) (P Q : patch) : Prop :=
  p_degx Q = p_degx P /\ p_degy Q = p_degy P /\ p_knx Q = p_knx P /\ p_kny Q = p_kny P /\
  length (p_data Q) = length (p_data P) /\
  forall i, (i < length (p_data P))%nat -> Rabs (nth i (p_data Q) 0 - nth i (p_data P) 0) <= eps.

(** a number that 15 decimals represent exactly *)
Definition has_15_decimals (v : R) : Prop := exists n : Z, v = IZR n / 10 ^ 15.

Definition one_line (s : text) : Prop := ~ In newline s.
