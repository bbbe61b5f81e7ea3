(** Properties C05, C06, C09: knot vectors, span location, interpolation points. *)
From Coq Require Import Reals Lra Lia Arith List ZArith Sorting.
From Verif Require Import RSum ModelBernstein SpecBernstein ProofBernstein ModelKnots ProofKnots.
Import ListNotations.
Local Open Scope R_scope.

(** C05.  [StronglySorted Rle v]: every entry is <= every later entry.
    [count_occ]: number of occurrences. *)
Theorem C05_uniform_knot_vector : forall p interior rep,
  let v := MakeUniformKnotVector p interior rep in
  length v = (2 * p + interior * rep)%nat
  /\ StronglySorted Rle v
  /\ (forall x, In x v -> 0 <= x <= 1)
  /\ (forall k, (k < p)%nat -> nth_error v k = Some 0)
  /\ (forall k, (k < p)%nat -> nth_error v (p + interior * rep + k) = Some 1)
  /\ count_occ Req_EM_T v 0 = p
  /\ count_occ Req_EM_T v 1 = p
  /\ (forall i, (0 < i <= interior)%nat -> count_occ Req_EM_T v (INR i / INR (interior + 1)) = rep).
Proof. exact uniform_shape. Qed.

Theorem C05_bezier_knot_vector : forall p,
  MakeBezierKnotVector p = MakeUniformKnotVector p 0 0
  /\ forall rep, MakeBezierKnotVector p = MakeUniformKnotVector p 0 rep.
Proof. exact bezier_is_uniform. Qed.

Theorem C05_degree_read_back : forall p interior rep, (1 <= p)%nat ->
  1 / INR (interior + 1) > 1 / 10000000 ->
  GetPolynomialDegreeFromKnotVector (MakeUniformKnotVector p interior rep) = p.
Proof. exact degree_read_back. Qed.

Example C05_example : 
  MakeUniformKnotVector 2 1 2 = [0; 0; 1 * (1 / INR 2); 1 * (1 / INR 2); 1; 1]
  /\ GetPolynomialDegreeFromKnotVector (MakeUniformKnotVector 2 1 2) = 2%nat.
Proof.
  split; [reflexivity|]. apply C05_degree_read_back; [lia|]. simpl. lra.
Qed.

(** C06.  Distinct knots more than the tolerance apart: every later entry is equal to or
    more than the tolerance above an earlier one. *)
Theorem C06_unique_knots : forall v, v <> [] ->
  StronglySorted (fun a b => a = b \/ a + generic_tolerance < b) v ->
  exists u, ExtractUniqueKnotVector v = Some u
    /\ StronglySorted Rlt u
    /\ (forall x, In x u <-> In x v).
Proof. exact unique_knots. Qed.

(** Whatever the non-decreasing vector: the result consists of knots of the vector, starts with the first one,
    and its entries are more than the tolerance apart. *)
Theorem C06_unique_knots_separated : forall v u, StronglySorted Rle v ->
  ExtractUniqueKnotVector v = Some u ->
  StronglySorted (fun a b => a + generic_tolerance < b) u /\ incl u v /\ hd_error u = hd_error v.
Proof. exact unique_knots_separated. Qed.

(** For x in [0,last] the returned index names a span that contains x (closed on the right
    only for the last span), except that points within the tolerance of 0 are always
    attributed to the first span. *)
Theorem C06_find_location : forall v x d, (2 <= length v)%nat ->
  StronglySorted Rlt v -> nth 0 v d = 0 -> 0 <= x <= last v d ->
  exists i : nat, FindLocationInKnotVector x v = Z.of_nat i
    /\ (i + 1 < length v)%nat
    /\ nth i v d <= x
    /\ (x < nth (i + 1) v d
        \/ (i + 2 = length v /\ x = nth (i + 1) v d)%nat
        \/ (i = 0%nat /\ x < generic_tolerance)).
Proof. exact find_location. Qed.

(** No index out of range for any x and any vector with at least two entries. *)
Theorem C06_find_location_in_range : forall v x, (2 <= length v)%nat ->
  (0 <= FindLocationInKnotVector x v <= Z.of_nat (length v) - 2)%Z.
Proof. exact find_location_range. Qed.

(** The tolerance at 0 is observable: with knots closer together than the tolerance the
    span returned need not contain x. *)
Theorem C06_find_location_exact_refuted :
  exists v x d, (2 <= length v)%nat /\ StronglySorted Rlt v /\ nth 0 v d = 0 /\ 0 <= x <= last v d
    /\ forall i : nat, FindLocationInKnotVector x v = Z.of_nat i ->
         ~ (nth i v d <= x <= nth (i + 1) v d).
Proof.
  exists [0; 1/10000000; 1], (5/10000000), 0.
  assert (E : FindLocationInKnotVector (5/10000000) [0; 1/10000000; 1] = 0%Z).
  { unfold FindLocationInKnotVector, generic_tolerance.
    destruct Rlt_dec; [|lra]. destruct Rlt_dec; [reflexivity|lra]. }
  split; [simpl; lia|]. split; [repeat constructor; lra|]. split; [reflexivity|].
  split; [simpl; lra|]. intros i Hi. rewrite E in Hi. assert (i = 0%nat) by lia. subst i.
  simpl. lra.
Qed.

Example C06_example :
  StronglySorted (fun a b => a = b \/ a + generic_tolerance < b) [0; 0; 1/2; 1; 1]
  /\ ExtractUniqueKnotVector [0; 0; 1/2; 1; 1] = Some [0; 1/2; 1]
  /\ FindLocationInKnotVector (3/4) [0; 1/2; 1] = 1%Z.
Proof.
  unfold generic_tolerance. split; [|split].
  - repeat first [apply SSorted_nil | apply SSorted_cons | apply Forall_nil | apply Forall_cons];
      first [left; lra | right; lra].
  - simpl. unfold generic_tolerance, push_back. repeat (destruct Rlt_dec; try lra). reflexivity.
  - unfold FindLocationInKnotVector, generic_tolerance. destruct Rlt_dec; [lra|]. simpl.
    repeat (destruct Rle_dec; try lra; repeat (destruct Rlt_dec; try lra)). reflexivity.
Qed.

(** C09 *)
Theorem C09_rescale : forall a b, a < b ->
  Rescale a a b = 0 /\ Rescale b a b = 1
  /\ (forall x, Rescale x a b = (x - a) / (b - a))
  /\ (forall x, a + Rescale x a b * (b - a) = x)
  /\ (forall x, a <= x <= b <-> 0 <= Rescale x a b <= 1).
Proof. exact rescale_spec. Qed.

Theorem C09_interpolation_mask : forall p,
  length (MakeInterpolationMask p) = p
  /\ StronglySorted Rlt (MakeInterpolationMask p)
  /\ (forall m, In m (MakeInterpolationMask p) -> 0 < m < 1)
  /\ (forall i d, (i < p)%nat -> nth i (MakeInterpolationMask p) d = INR (i + 1) / INR (p + 1)).
Proof. exact mask_spec. Qed.

Theorem C09_interpolation_points : forall uniq mask d, uniq <> [] ->
  StronglySorted Rlt uniq -> StronglySorted Rlt mask -> (forall m, In m mask -> 0 < m < 1) ->
  exists pts, MakeInterpolationPoints uniq mask = Some pts
    /\ length pts = ((length uniq - 1) * length mask)%nat
    /\ StronglySorted Rlt pts
    /\ (forall i j, (i + 1 < length uniq)%nat -> (j < length mask)%nat ->
          nth i uniq d < nth (i * length mask + j) pts d < nth (i + 1) uniq d
          /\ nth (i * length mask + j) pts d
             = nth i uniq d + nth j mask d * (nth (i + 1) uniq d - nth i uniq d)).
Proof. exact points_spec. Qed.

(** Solving the interpolation problem: if [im] is the inverse that Eigen is asked for
    (collocation * im = identity), the coefficients returned for every increment give a
    Bernstein polynomial that takes the prescribed values at the mask points. *)
Theorem C09_get_coefficients : forall junk p mask im incr values coefs, (p <= MaxP)%nat ->
  (forall j k, (j <= p)%nat -> (k <= p)%nat ->
     rsum (fun i => collocation junk p mask j i * im i k) (p + 1) = if (j =? k)%nat then 1 else 0) ->
  forall i j, (i < incr)%nat -> (j <= p)%nat ->
  bernstein_form p (fun l => GetCoefficients im p incr values coefs (i * (p + 1) + l)%nat) (mask j)
  = values (i * (p + 1) + j)%nat.
Proof. exact get_coefficients_spec. Qed.

Example C09_example : StronglySorted Rlt [0; 1/2; 1] /\
  MakeInterpolationPoints [0; 1/2; 1] [1/2] = Some [0 + 1/2 * (1/2 - 0); 1/2 + 1/2 * (1 - 1/2)].
Proof. split; [repeat constructor; lra|reflexivity]. Qed.
(** degree 0: the 1x1 collocation matrix is (1), its own inverse. *)
Example C09_get_coefficients_hypothesis : forall junk mask, 
  rsum (fun i => collocation junk 0 mask 0 i * (fun _ _ => 1) i 0%nat) (0 + 1) = 1.
Proof.
  intros. unfold collocation, evalBasis. cbn [rsum Nat.add]. rewrite dispatch_le by lia.
  rewrite EvalBernsteinBasis_spec. cbn [Nat.leb]. unfold bern, C. simpl. field.
Qed.

(* BEGIN ASSUMPTIONS *)
Print Assumptions C05_uniform_knot_vector.
Print Assumptions C05_bezier_knot_vector.
Print Assumptions C05_degree_read_back.
Print Assumptions C06_unique_knots.
Print Assumptions C06_unique_knots_separated.
Print Assumptions C06_find_location.
Print Assumptions C06_find_location_in_range.
Print Assumptions C06_find_location_exact_refuted.
Print Assumptions C09_rescale.
Print Assumptions C09_interpolation_mask.
Print Assumptions C09_interpolation_points.
Print Assumptions C09_get_coefficients.
