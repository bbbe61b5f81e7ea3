(** The wave number zero and the conjugate wave. *)
From Coq Require Import Reals List.
From Coquelicot Require Import Complex.
From Verif Require Import ModelBase ModelBernstein ModelBall ModelAssembly ModelDuffy ModelOperators.
Import ListNotations.
Local Open Scope R_scope.

(** - conj k: for a real wave number its negative, that is, incoming instead of outgoing waves *)
Definition conjugate_wave (k : Complex.C) : Complex.C := (- fst k, snd k).
Definition wave_operators (k : Complex.C) : list (operator cmat) := [helmholtz_sl k; helmholtz_dl k; helmholtz_adl k; helmholtz_hs k; maxwell_sl k].
(** op', op and the factor s of the entries: op' = s op.  Real part and imaginary part of the operators for the wave number 0 are 1 and 0
    times the Laplace operator; those for the conjugate wave are 1 and -1 times those for the wave *)
Definition wave_zero : list (operator mat * operator mat * R) :=
  flat_map (fun x => [(part_of fst (fst x), snd x, 1); (part_of snd (fst x), snd x, 0)]) [(helmholtz_sl (RtoC 0), laplace_sl); (helmholtz_dl (RtoC 0), laplace_dl); (helmholtz_adl (RtoC 0), laplace_adl)].
Definition wave_conjugate (k : Complex.C) : list (operator mat * operator mat * R) :=
  flat_map (fun x => [(part_of fst (fst x), part_of fst (snd x), 1); (part_of snd (fst x), part_of snd (snd x), -1)]) (combine (wave_operators (conjugate_wave k)) (wave_operators k)).
(** those interpolated in the same way, with the same number of components *)
Definition wave_same (k : Complex.C) : list (operator mat * operator mat * R) := wave_zero ++ wave_conjugate k.
Definition wave_pairs (k : Complex.C) : list (operator mat * operator mat * R) :=
  wave_same k ++ [(part_of fst (helmholtz_hs (RtoC 0)), laplace_hs, 1); (part_of snd (helmholtz_hs (RtoC 0)), laplace_hs, 0)].
