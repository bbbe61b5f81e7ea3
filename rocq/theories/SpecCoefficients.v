(** Periodicity of the kernel. *)
From Coq Require Import Reals Arith List.
From Coquelicot Require Import Coquelicot.
From Verif Require Import RSum ModelBall SpecOperators SpecSpherical SpecHomogenised ModelCoefficients.
Local Open Scope R_scope.

(** the kernel with the coefficients cs: solid harmonics of degree less than N *)
Definition expansion (cs : list R) (N : nat) (x : vec3) : R := modified x + series cs N (fun n m => fst (solid n m x)).
(** the unit vectors; the point with the coordinates a, b on the face of the unit cube around the origin with normal - axis f *)
Definition axis (f : nat) : vec3 := match f with O => e1 | 1%nat => e2 | _ => e3 end.
Definition face (f : nat) (a b : R) : vec3 := match f with O => (-1/2, a, b) | 1%nat => (a, -1/2, b) | _ => (a, b, -1/2) end.
(** difference of the values, and of the normal derivatives, of u at opposite points *)
Definition jump (u : vec3 -> R) (f : nat) (v : vec3) : R := u v - u (vadd v (axis f)).
Definition slope (u : vec3 -> R) (v d : vec3) : R := Derive (fun t => u (vadd v (vscal t d))) 0.
Definition normal_jump (u : vec3 -> R) (f : nat) (v : vec3) : R := slope u v (axis f) - slope u (vadd v (axis f)) (axis f).
(** sum of the squares over the points xs of the three faces *)
Definition defect (u : vec3 -> R) (xs : list (R * R)) : R :=
  rsum (fun k => rsum (fun f => let v := face f (fst (nth k xs (0, 0))) (snd (nth k xs (0, 0))) in
    jump u f v ^ 2 + normal_jump u f v ^ 2) 3) (length xs).
(** Eigen's colPivHouseholderQr().solve in exact arithmetic: a least squares solution *)
Definition residual (rows cols : nat) (A : nat -> nat -> R) (b x : nat -> R) : R := rsum (fun r => (rsum (fun c => A r c * x c) cols - b r) ^ 2) rows.
Definition least_squares (solve : nat -> nat -> (nat -> nat -> R) -> (nat -> R) -> nat -> R) : Prop :=
  forall rows cols A b x, residual rows cols A b (solve rows cols A b) <= residual rows cols A b x.
(** the points (a, b) with a and b in t, at least one more than the degree; t is symmetric about 0 *)
Definition square_grid (t : list R) (deg : nat) (xs : list (R * R)) : Prop := xs = list_prod t t /\ NoDup t /\ (deg < length t)%nat.
Definition mirrored (t : list R) : Prop := forall a, In a t -> In (- a) t.
(** the average of u over the faces by the rule *)
Definition face_average (u : vec3 -> R) (xs : list (R * R)) (ws : list R) : R :=
  rsum (fun k => nth k ws 0 * rsum (fun f => u (face f (fst (nth k xs (0, 0))) (snd (nth k xs (0, 0))))) 3) (length xs) / 3.

(** the sizes of the memory of the calls *)
Definition sized (deg : nat) (mem : vec3 -> memory) : Prop := forall v, let '(jY, st, jL, jG) := mem v in
  length (fst jY) = ((deg + 1) * (deg + 1))%nat /\ length (snd jY) = ((deg + 1) * (deg + 1))%nat /\ length jL = (((deg + 1) * (deg + 2)) / 2)%nat /\ length jG = ((deg + 1) * (deg + 1))%nat.
