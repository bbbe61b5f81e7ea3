(** Model of Bembel/src/Spline/Pascal.hpp, Bernstein.hpp, ShapeFunctions.hpp and Basis.hpp.
    [double] is modelled by exact reals.  A C array [double*] is a memory [nat -> R];
    writes are [upd].  Template recursion on int is recursion on nat; the
    index -1 that occurs for degree 0 is a separate match case. *)
From Coq Require Import Reals Lra Lia Arith List.
Local Open Scope R_scope.

Definition arr := nat -> R.
(** C++ array write  [a[i] = v]. *)
Definition upd (a : arr) (i : nat) (v : R) : arr :=
  fun k => if Nat.eqb k i then v else a k.

(** Pascal.hpp 27-47: template recursion [Binomial<K,N>::value] with the
    specialisations <0,0>, <N,N>, <0,N>.  K > N does not compile in C++; the
    model returns 0 there. *)
Fixpoint Binomial (k n : nat) {struct n} : nat :=
  match n with
  | O => match k with O => 1%nat | S _ => 0%nat end
  | S n' =>
      match k with
      | O => 1%nat
      | S k' => if Nat.eqb k n then 1%nat
                else if Nat.ltb n k then 0%nat
                else (Binomial k' n' + Binomial k n')%nat
      end
  end.

(** Bernstein.hpp 22-38: [BernsteinX<N>], N >= 0. The case N = -1
    (lines 39-42, value 0) is used only through [Bernstein<-1,-1>], see below. *)
Fixpoint BernsteinX (n : nat) (x : R) : R :=
  match n with
  | O => 1
  | S O => x
  | S m => x * BernsteinX m x
  end.

(** Bernstein.hpp 44-48. *)
Definition Bernstein (n p : nat) (x : R) : R :=
  INR (Binomial n p) * BernsteinX n x * BernsteinX (p - n) (1 - x).

(** Bernstein.hpp 55-58 and 91-93: [HiddenBernsteinClass<T,N,P>::EvalCoefs]. *)
Fixpoint hidden_EvalCoefs (n p : nat) (a : arr) (x : R) : R :=
  match n with
  | O => a O * Bernstein 0 p x
  | S m => a n * Bernstein n p x + hidden_EvalCoefs m p a x
  end.

(** Bernstein.hpp 59-63 and 94-97: [EvalDerCoefs]. *)
Fixpoint hidden_EvalDerCoefs (n p : nat) (a : arr) (x : R) : R :=
  match n with
  | O => (a 1%nat - a O) * Bernstein 0 p x
  | S m => (a (S n) - a n) * Bernstein n p x + hidden_EvalDerCoefs m p a x
  end.

(** Bernstein.hpp 75-79 and 108-111: [EvalBasis]: writes in[N], then in[N-1] ... in[0]. *)
Fixpoint hidden_EvalBasis (n p : nat) (a : arr) (x : R) : arr :=
  match n with
  | O => upd a O (Bernstein 0 p x)
  | S m => hidden_EvalBasis m p (upd a n (Bernstein n p x)) x
  end.

(** Bernstein.hpp 80-85 and 112-116: [EvalDerBasis]. *)
Fixpoint hidden_EvalDerBasis (n p : nat) (a : arr) (x : R) : arr :=
  match n with
  | O => upd a O ((- INR p - 1) * Bernstein 0 p x)
  | S m => hidden_EvalDerBasis m p
             (upd a n ((INR p + 1) * (Bernstein m p x - Bernstein n p x))) x
  end.

(** Bernstein.hpp 64-68 and 98-101: [EvalBasisPEQ] ("plus equals"). *)
Fixpoint hidden_EvalBasisPEQ (n p : nat) (a : arr) (x : R) : arr :=
  match n with
  | O => upd a O (a O + Bernstein 0 p x)
  | S m => hidden_EvalBasisPEQ m p (upd a n (a n + Bernstein n p x)) x
  end.

(** Bernstein.hpp 69-74 and 102-106: [EvalDerBasisPEQ]. *)
Fixpoint hidden_EvalDerBasisPEQ (n p : nat) (a : arr) (x : R) : arr :=
  match n with
  | O => upd a O (a O + (- INR p - 1) * Bernstein 0 p x)
  | S m => hidden_EvalDerBasisPEQ m p
             (upd a n (a n + (INR p + 1) * (Bernstein m p x - Bernstein n p x))) x
  end.

(** Bernstein.hpp 167-170. *)
Definition EvalBernstein (p : nat) (a : arr) (x : R) : R := hidden_EvalCoefs p p a x.

(** Bernstein.hpp 197-201. *)
Definition EvalBernsteinBasis (p : nat) (a : arr) (x : R) : arr := hidden_EvalBasis p p a x.

(** Bernstein.hpp 191-195. *)
Definition EvalBernsteinBasisPEQ (p : nat) (a : arr) (x : R) : arr :=
  hidden_EvalBasisPEQ p p a x.

(** Bernstein.hpp 205-209; for P = 0 the class <T,-1,-1> (lines 121-136) returns 0. *)
Definition EvalBernsteinDer (p : nat) (a : arr) (x : R) : R :=
  match p with
  | O => INR 0 * 0
  | S q => INR p * hidden_EvalDerCoefs q q a x
  end.

(** Bernstein.hpp 239-244; for P = 0, in[0] = 0 * Bernstein<-1,-1> = 0 * (1 * 0 * 1)
    (lines 39-47) and the recursion anchor (lines 144-149) writes nothing. *)
Definition EvalBernsteinDerBasis (p : nat) (a : arr) (x : R) : arr :=
  match p with
  | O => upd a O (INR 0 * (1 * 0 * 1))
  | S q => hidden_EvalDerBasis q q (upd a p (INR p * Bernstein q q x)) x
  end.

(** Bernstein.hpp 232-237. *)
Definition EvalBernsteinDerBasisPEQ (p : nat) (a : arr) (x : R) : arr :=
  match p with
  | O => upd a O (a O + INR 0 * (1 * 0 * 1))
  | S q => hidden_EvalDerBasisPEQ q q (upd a p (a p + INR p * Bernstein q q x)) x
  end.

(** util/Constants.hpp 22: MaxP. *)
Definition MaxP : nat := 20.

(** ShapeFunctions.hpp 27-46 and 72-86: run time dispatch
    [PSpecificShapeFunctionHandler<P>::eval*(p, ...)]: compare p with P, P-1, ..., 1 and
    fall through to degree 0.  [p] is an int in C++; negative p behaves like any other
    value that never matches (degree 0). *)
Fixpoint dispatch {A : Type} (bigP : nat) (f : nat -> A) (p : nat) : A :=
  match bigP with
  | O => f O
  | S m => if Nat.eqb p bigP then f bigP else dispatch m f p
  end.

(** ShapeFunctions.hpp 105: [ShapeFunctionHandler = PSpecificShapeFunctionHandler<MaxP>]. *)
Definition evalCoef (p : nat) (a : arr) (x : R) : R :=
  dispatch MaxP (fun P => EvalBernstein P a x) p.
Definition evalDerCoef (p : nat) (a : arr) (x : R) : R :=
  dispatch MaxP (fun P => EvalBernsteinDer P a x) p.
Definition evalBasis (p : nat) (a : arr) (x : R) : arr :=
  dispatch MaxP (fun P => EvalBernsteinBasis P a x) p.
Definition evalDerBasis (p : nat) (a : arr) (x : R) : arr :=
  dispatch MaxP (fun P => EvalBernsteinDerBasis P a x) p.

(** A for loop  [for (int i = 0; i < n; i++) body(i)]. *)
Fixpoint for_loop {A : Type} (n : nat) (body : nat -> A -> A) (s : A) : A :=
  match n with
  | O => s
  | S m => body m (for_loop m body s)
  end.

(** An uninitialised stack array: its content is arbitrary; the model takes it as a
    parameter [junk] so that theorems quantify over it. *)

(** Basis.hpp 57-65 [phi_] (real scalar). *)
Definition phi (junk : arr) (P : nat) (c : arr) (w x : R) : arr :=
  let base := dispatch P (fun q => EvalBernsteinBasis q junk x) P in
  for_loop (P + 1) (fun i c => upd c i (c i + w * base i)) c.

(** Basis.hpp 71-79 [phi_dx_]. *)
Definition phi_dx (junk : arr) (P : nat) (c : arr) (w x : R) : arr :=
  let base := dispatch P (fun q => EvalBernsteinDerBasis q junk x) P in
  for_loop (P + 1) (fun i c => upd c i (c i + w * base i)) c.

(** The common double loop of Basis.hpp 93-94, 112-113, 131-132:
    c(iy * I + ix) += w * X[ix] * Y[iy]. *)
Definition tp_accumulate (I : nat) (X Y : arr) (w : R) (c : arr) : arr :=
  for_loop I (fun iy c =>
    for_loop I (fun ix c => upd c (iy * I + ix) (c (iy * I + ix)%nat + w * X ix * Y iy)) c) c.

(** Basis.hpp 85-97 [phiphi_]. *)
Definition phiphi (junk1 junk2 : arr) (P : nat) (c : arr) (w x y : R) : arr :=
  let X := dispatch P (fun q => EvalBernsteinBasis q junk1 x) P in
  let Y := dispatch P (fun q => EvalBernsteinBasis q junk2 y) P in
  tp_accumulate (P + 1) X Y w c.

(** Basis.hpp 104-116 [phiphi_dx_]. *)
Definition phiphi_dx (junk1 junk2 : arr) (P : nat) (c : arr) (w x y : R) : arr :=
  let dX := dispatch P (fun q => EvalBernsteinDerBasis q junk1 x) P in
  let Y := dispatch P (fun q => EvalBernsteinBasis q junk2 y) P in
  tp_accumulate (P + 1) dX Y w c.

(** Basis.hpp 123-134 [phiphi_dy_]. *)
Definition phiphi_dy (junk1 junk2 : arr) (P : nat) (c : arr) (w x y : R) : arr :=
  let X := dispatch P (fun q => EvalBernsteinBasis q junk1 x) P in
  let dY := dispatch P (fun q => EvalBernsteinDerBasis q junk2 y) P in
  tp_accumulate (P + 1) X dY w c.

(** Matrices of Basis.hpp are memories indexed by (row, column). *)
Definition mat := nat -> nat -> R.
Definition updm (c : mat) (i j : nat) (v : R) : mat :=
  fun k l => if (Nat.eqb k i && Nat.eqb l j)%bool then v else c k l.

(** Basis.hpp 141-164 [Phi_times_Phi_]. The scratch arrays a and b are fully written
    before they are read (lines 151-152, 157-158). *)
Definition Phi_times_Phi (j1 j2 ja jb : arr) (P : nat) (c : mat) (w x1 y1 x2 y2 : R) : mat :=
  let I := (P + 1)%nat in
  let X := dispatch P (fun q => EvalBernsteinBasis q j1 x1) P in
  let Y := dispatch P (fun q => EvalBernsteinBasis q j2 y1) P in
  let a := for_loop I (fun iy a =>
             for_loop I (fun ix a => upd a (iy * I + ix) (w * X ix * Y iy)) a) ja in
  let X2 := dispatch P (fun q => EvalBernsteinBasis q X x2) P in
  let Y2 := dispatch P (fun q => EvalBernsteinBasis q Y y2) P in
  let b := for_loop I (fun iy b =>
             for_loop I (fun ix b => upd b (iy * I + ix) (X2 ix * Y2 iy)) b) jb in
  for_loop (I * I) (fun i c => for_loop (I * I) (fun j c =>
     updm c i j (c i j + a i * b j)) c) c.

Definition zero_arr : arr := fun _ => 0.

(** Basis.hpp 170-200 [Div_Phi_times_Div_Phi_]. *)
Definition Div_Phi_times_Div_Phi (j1 j2 : arr) (P : nat) (c : mat) (weight x1 y1 x2 y2 : R) : mat :=
  let I := (P + 1)%nat in
  let I2 := (I * I)%nat in
  let a_dx := phiphi_dx j1 j2 P zero_arr weight x1 y1 in
  let a_dy := phiphi_dy j1 j2 P zero_arr weight x1 y1 in
  let b_dx := phiphi_dx j1 j2 P zero_arr 1 x2 y2 in
  let b_dy := phiphi_dy j1 j2 P zero_arr 1 x2 y2 in
  let c1 := for_loop I2 (fun i c => for_loop I2 (fun j c =>
              updm c i j (c i j + a_dx i * b_dx j)) c) c in
  let c2 := for_loop I2 (fun i c => for_loop I2 (fun j c =>
              updm c i (j + I2) (c i (j + I2)%nat + a_dx i * b_dy j)) c) c1 in
  let c3 := for_loop I2 (fun i c => for_loop I2 (fun j c =>
              updm c (i + I2) j (c (i + I2)%nat j + a_dy i * b_dx j)) c) c2 in
  for_loop I2 (fun i c => for_loop I2 (fun j c =>
              updm c (i + I2) (j + I2) (c (i + I2)%nat (j + I2)%nat + a_dy i * b_dy j)) c) c3.
