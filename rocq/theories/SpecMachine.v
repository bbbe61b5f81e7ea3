(** Vocabulary for C76: double precision numbers. *)
From Coq Require Import Reals ZArith.
From Flocq Require Import Core.
Local Open Scope R_scope.

(** the finite numbers of the binary64 format (without the bound on the exponent): k * 2^e with |k| < 2^53 and e >= -1074 *)
Definition is_double (x : R) : Prop := exists k e : Z, x = IZR k * bpow radix2 e /\ (Z.abs k < 2 ^ 53)%Z /\ (-1074 <= e)%Z.
