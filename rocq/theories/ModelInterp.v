(** Model of the interpolation part of H2Matrix/H2Multipole.hpp (lines 20-300). Scalars are reals. *)
From Coq Require Import List Arith Reals.
From Verif Require Import ModelBase ModelBernstein.
Import ListNotations.
Local Open Scope nat_scope.

(** ChebychevRoots::init_ChebyshevRoots, 25-30: LinSpaced(n,1,n).reverse() has the entries n - i;
    BEMBEL_PI is taken to be pi *)
Definition chebychev (n : nat) : arr :=
  fun i => (1 / 2 * cos (PI / (2 * INR n) * (2 * INR (n - i) - 1)) + 1 / 2)%R.

(** computeLagrangePolynomials, 40-49; x are the points *)
Definition identity : mat := fun i j => if i =? j then 1%R else 0%R.
Definition lagrange_coefs (n : nat) (x : arr) : mat :=
  for_loop n (fun i r =>
    for_loop (n - 1) (fun j0 r => let j := S j0 in
      for_loop (n - j) (fun k0 r => let k := n - 1 - k0 in
        updm r k i ((r k i - r (k - 1)%nat i) / (x k - x (k - j)%nat))%R) r) r) identity.

(** evaluatePolynomial, 56-67; n is L.size(), which must not be 0 *)
Definition eval_newton (n : nat) (x L : arr) (xi : R) : R :=
  for_loop (n - 1) (fun i0 r => let i := n - 2 - i0 in (r * (xi - x i) + L i)%R) (L (n - 1)%nat).
Definition column (m : mat) (j : nat) : arr := fun i => m i j.

(** computeTransferMatrices, 75-117; junk1, junk2 are the contents of the uninitialised matrices E and T *)
Definition permutation4 (k : nat) : nat := match k with 0 => 0 | 1 => 3 | 2 => 1 | _ => 2 end.
Definition transfer_E (n : nat) (x : arr) (junk1 : mat) : mat :=
  let L := lagrange_coefs n x in
  for_loop n (fun j E => for_loop n (fun i E =>
    updm (updm E i j (eval_newton n x (column L j) (1 / 2 * x i))) i (j + n)
      (eval_newton n x (column L j) (1 / 2 * x i + 1 / 2)))%R E) junk1.
Definition transfer_matrices (n : nat) (x : arr) (junk1 junk2 : mat) : mat :=
  let E := transfer_E n x junk1 in
  for_loop 4 (fun k T => for_loop n (fun i T => for_loop n (fun ii T => for_loop n (fun j T => for_loop n (fun jj T =>
    updm T (j * n + jj) (i * n + ii + n * n * permutation4 k)
      (E i (j + k / 2 * n)%nat * E ii (jj + k mod 2 * n)%nat)%R) T) T) T) T) junk2.

(** Moment1D and Moment1DDerivative, 123-218: p polynomial degree, cl cluster_level, cr cluster_refinements,
    n number of points, (xi, w) the quadrature rule; addScaledBasis1D is phi, addScaledBasis1DDx is phi_dx
    (SuperSpace.hpp 363-383).  The blocks written at i, j are disjoint and cover the matrix, so the matrix is
    given by its entries. *)
Inductive moment_kind := Plain | Deriv.
Definition moment1D (kind : moment_kind) (junk : arr) (p cl cr n : nat) (x : arr) (xi w : list R) : mat :=
  let h := (1 / 2 ^ cr)%R in let H := (1 / 2 ^ cl)%R in
  let L := lagrange_coefs n x in
  fun i c => let j := c / (p + 1) in
    for_loop (length w) (fun k intval =>
      let weight := match kind with
        | Plain => nth k w 0 * sqrt (h * H) * eval_newton n x (column L i) (h * (INR j + nth k xi 0))
        | Deriv => nth k w 0 / sqrt (h * H) * eval_newton n x (column L i) (h * (INR j + nth k xi 0)) end%R in
      match kind with Plain => phi junk p intval weight (nth k xi 0%R) | Deriv => phi_dx junk p intval weight (nth k xi 0%R) end)
      zero_arr (c mod (p + 1)).

(** moment2DComputer, 224-291 *)
Definition updn (f : nat -> nat) (i v : nat) : nat -> nat := fun j => if j =? i then v else f j.
Definition index_st (cr : nat) : (nat -> nat) * (nat -> nat) :=
  for_loop cr (fun j st => let inc := 2 ^ (2 * j) in
    for_loop inc (fun i st =>
      let (s, t) := (st : (nat -> nat) * (nat -> nat)) in
      let s := updn s (4 * i) (2 * s i) in
      let s := updn s (4 * i + 1) (2 * s i + 1) in
      let s := updn s (4 * i + 2) (2 * s i + 1) in
      let s := updn s (4 * i + 3) (2 * s i) in
      let t := updn t (4 * i) (2 * t i) in
      let t := updn t (4 * i + 1) (2 * t i) in
      let t := updn t (4 * i + 2) (2 * t i + 1) in
      let t := updn t (4 * i + 3) (2 * t i + 1) in
      (s, t)) st) ((fun _ => 0), (fun _ => 0)).
Definition moment2D (p cr n : nat) (m1 m2 : mat) (junk : mat) : mat :=
  let (index_s, index_t) := index_st cr in
  let n2 := 2 ^ cr * 2 ^ cr in
  let p1 := p + 1 in
  for_loop n (fun i M => for_loop n (fun j M => for_loop n2 (fun k M => for_loop p1 (fun a M => for_loop p1 (fun b M =>
    updm M (i * n + j) (p1 * p1 * k + a * p1 + b)
      (m1 i (index_s k * p1 + b)%nat * m2 j (index_t k * p1 + a)%nat)%R) M) M) M) M) junk.
