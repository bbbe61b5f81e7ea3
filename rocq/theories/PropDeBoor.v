(** Properties C07, C08 and C51: de Boor evaluation.
    [bspline], [spline], [tp_spline], [nondecreasing]: SpecDeBoor (Cox-de Boor definition).
    The result [Some] means that no assertion failed, no access was out of range and no
    denominator was zero. *)
From Coq Require Import Reals Lra Lia Arith List.
From Verif Require Import RSum ModelBase ModelBernstein ModelDeBoor SpecDeBoor
  ProofDeBoor ProofDeBoorDer ProofDeBoorTP.
Import ListNotations.
Local Open Scope R_scope.

(** C07: [ws] is the content of the uninitialised scratch array of 20 entries. *)
Theorem C07_deboor_is_the_bspline : forall ws c knots p pts,
  length knots = (length c + p + 1)%nat -> (p < length c)%nat -> (p <= 19)%nat -> (20 <= length ws)%nat ->
  nondecreasing knots ->
  (forall x, In x pts -> nth p knots 0 <= x < nth (length c) knots 0) ->
  DeBoor ws c knots pts = Some (map (spline knots c p) pts).
Proof.
  intros. apply DeBoor_list; try assumption. intros x Hx. unfold regular_input. auto.
Qed.

Theorem C07_matrix_overload : forall ws rows knots p n pts,
  (forall row, In row rows -> length row = n) ->
  length knots = (n + p + 1)%nat -> (p < n)%nat -> (p <= 20)%nat -> (20 <= length ws)%nat ->
  nondecreasing knots ->
  (forall x, In x pts -> nth p knots 0 <= x < nth n knots 0) ->
  DeBoorMat ws rows knots pts = Some (map (fun row => map (spline knots row p) pts) rows).
Proof.
  intros. apply DeBoorMat_list; unfold MaxP; try assumption. intros row x Hr Hx.
  unfold regular_input. rewrite (H row Hr). auto.
Qed.

Theorem C07_tensor_product : forall ws cp kx ky px py p q n,
  (forall row, In row cp -> length row = n) -> px <> [] -> py <> [] ->
  length kx = (n + p + 1)%nat -> (p < n)%nat -> (p <= 20)%nat -> nondecreasing kx ->
  length ky = (length cp + q + 1)%nat -> (q < length cp)%nat -> (q <= 20)%nat -> nondecreasing ky ->
  (forall x, In x px -> nth p kx 0 <= x < nth n kx 0) ->
  (forall y, In y py -> nth q ky 0 <= y < nth (length cp) ky 0) ->
  (20 <= length ws)%nat ->
  DeBoorTP ws cp kx ky px py
  = Some (map (fun x => map (fun y => tp_spline kx ky cp p q x y) py) px).
Proof.
  intros. apply DeBoorTP_spline; unfold MaxP; try assumption.
  intros x y Hx Hy. unfold tp_input, regular_input. split; [|auto].
  intros row Hr. rewrite (H row Hr). auto.
Qed.

(** The range check of the code admits points at which a denominator vanishes. *)
Theorem C07_no_division_by_zero_on_asserted_range_refuted :
  exists ws c knots x p, length knots = (length c + p + 1)%nat /\ (p < length c)%nat
    /\ nondecreasing knots /\ (20 <= length ws)%nat
    /\ nth p knots 0 <= x <= nth (length c + p) knots 0
    /\ DeBoor ws c knots [x] = None.
Proof.
  exists (repeat 0 20), [1; 2; 3], [0; 0; 1; 1; 1], 1, 1%nat.
  split; [reflexivity|]. split; [simpl; lia|]. split.
  { intros i j Hij Hj. simpl in Hj.
    destruct i as [|[|[|[|[|i]]]]]; destruct j as [|[|[|[|[|j]]]]]; try lia; simpl; lra. }
  split; [simpl; lia|]. split; [simpl; lra|].
  unfold DeBoor. cbn [map_opt]. unfold DeBoor_point. cbn [length Nat.add Nat.sub Nat.leb assert bind get nth_error].
  unfold Rleb. destruct (Rle_dec 0 1); [|lra]. destruct (Rle_dec 1 1); [|lra].
  cbn [andb assert bind span_loop get nth_error Rleb]. unfold Rleb.
  destruct (Rle_dec 0 1); [|lra]. cbn [andb negb Nat.eqb bind get nth_error].
  destruct (Rle_dec 0 1); [|lra]. cbn [andb negb Nat.eqb bind get nth_error].
  destruct (Rle_dec 1 1); [|lra]. cbn [andb negb Nat.eqb bind get nth_error].
  cbn [Nat.leb assert bind Nat.sub andb Nat.ltb firstn skipn deboor_loop deboor_step for_opt].
  unfold weight. cbn [Nat.sub Nat.add get nth_error bind].
  destruct (Req_EM_T (1 - 1) 0); [reflexivity|lra].
Qed.

(** C08 *)
Theorem C08_convex_hull : forall ws c knots p x lo hi,
  length knots = (length c + p + 1)%nat -> (p < length c)%nat -> (p <= 19)%nat -> (20 <= length ws)%nat ->
  nondecreasing knots ->
  nth p knots 0 <= x ->
  (x < nth (length c) knots 0
   \/ (x = nth (length c) knots 0 /\ nth (length c - 1) knots 0 < nth (length c) knots 0)) ->
  (forall y, In y c -> lo <= y <= hi) ->
  exists v, DeBoor ws c knots [x] = Some [v] /\ lo <= v <= hi.
Proof.
  intros ws c knots p x lo hi H1 H2 H3 H4 H5 H6 H7 H8.
  destruct (DeBoor_hull 19 ws c knots p x lo hi) as [v [E Hv]]; try assumption; try lia.
  { unfold closed_input. auto. }
  exists v. unfold DeBoor. cbn [map_opt]. rewrite E. split; [reflexivity|assumption].
Qed.

Theorem C08_constants : forall ws n a knots p x,
  length knots = (n + p + 1)%nat -> (p < n)%nat -> (p <= 19)%nat -> (20 <= length ws)%nat ->
  nondecreasing knots -> nth p knots 0 <= x ->
  (x < nth n knots 0 \/ (x = nth n knots 0 /\ nth (n - 1) knots 0 < nth n knots 0)) ->
  DeBoor ws (repeat a n) knots [x] = Some [a].
Proof.
  intros ws n a knots p x H1 H2 H3 H4 H5 H6 H7.
  destruct (C08_convex_hull ws (repeat a n) knots p x a a) as [v [E Hv]];
    rewrite ?repeat_length; try assumption.
  { intros y Hy. apply repeat_spec in Hy. lra. }
  rewrite E. f_equal. f_equal. lra.
Qed.

(** The B-splines of every knot vector sum to one on the parameter interval. *)
Theorem C08_partition_of_unity : forall knots n p x,
  length knots = (n + p + 1)%nat -> (p < n)%nat -> (p <= 19)%nat -> nondecreasing knots ->
  nth p knots 0 <= x < nth n knots 0 ->
  rsum (fun i => bspline (fun j => nth j knots 0) p i x) n = 1.
Proof. intros. apply bspline_partition; assumption. Qed.

(** Clamped knot vectors interpolate the first and last coefficient. *)
Theorem C08_clamped_ends : forall ws c knots p,
  length knots = (length c + p + 1)%nat -> (p < length c)%nat -> (p <= 19)%nat -> (20 <= length ws)%nat ->
  nondecreasing knots ->
  (nth 0 knots 0 = nth p knots 0 -> nth p knots 0 < nth (p + 1) knots 0 ->
     exists a, get c 0 = Some a /\ DeBoor ws c knots [nth p knots 0] = Some [a])
  /\ (nth (length c) knots 0 = nth (length c + p) knots 0 ->
      nth (length c - 1) knots 0 < nth (length c) knots 0 ->
     exists b, get c (length c - 1)%nat = Some b /\ DeBoor ws c knots [nth (length c) knots 0] = Some [b]).
Proof.
  intros ws c knots p H1 H2 H3 H4 H5.
  destruct (DeBoor_clamped 19 ws c knots p H1 H2 H5 H3 ltac:(lia)) as [A B].
  split; intros G1 G2.
  - exists (nth 0 c 0). unfold DeBoor. cbn [map_opt]. rewrite (A G1 G2).
    rewrite (get_nth c 0 0) by lia. auto.
  - exists (nth (length c - 1) c 0). unfold DeBoor. cbn [map_opt]. rewrite (B G1 G2).
    rewrite (get_nth c (length c - 1) 0) by lia. auto.
Qed.

(** C51: derivative evaluation, at points that are not knots. *)
Theorem C51_derivative : forall ws c knots p x,
  length knots = (length c + p + 1)%nat -> (1 <= p < length c)%nat -> (p <= 20)%nat -> (20 <= length ws)%nat ->
  nondecreasing knots -> nth p knots 0 <= x < nth (length c) knots 0 ->
  (forall i, (1 <= i < length c)%nat -> nth i knots 0 < nth (i + p) knots 0) ->
  ~ In x knots ->
  exists d, DeBoorDer ws [c] knots [x] = Some [[d]] /\ derivable_pt_lim (spline knots c p) x d.
Proof.
  intros ws c knots [|p] x H1 H2 H3 H4 H5 H6 H7 H8; [lia|].
  destruct (DeBoorDer_derivative ws c knots p x) as [d [E D]]; unfold MaxP; try assumption.
  { unfold regular_input. repeat split; try assumption; lia || lra. }
  exists d. unfold DeBoorDer. cbn [map_opt]. rewrite E. split; [reflexivity|assumption].
Qed.

Theorem C51_tensor_partial_x : forall ws cp kx ky p q n x y,
  (forall row, In row cp -> length row = n) ->
  length kx = (n + p + 1)%nat -> (1 <= p < n)%nat -> (p <= 20)%nat -> nondecreasing kx ->
  length ky = (length cp + q + 1)%nat -> (q < length cp)%nat -> (q <= 20)%nat -> nondecreasing ky ->
  nth p kx 0 <= x < nth n kx 0 -> nth q ky 0 <= y < nth (length cp) ky 0 ->
  (20 <= length ws)%nat ->
  (forall i, (1 <= i < n)%nat -> nth i kx 0 < nth (i + p) kx 0) -> ~ In x kx ->
  exists d, DeBoorTPDer ws cp kx ky [x] [y] true false = Some [[d]]
    /\ derivable_pt_lim (fun t => tp_spline kx ky cp p q t y) x d.
Proof.
  intros ws cp kx ky [|p] q n x y H H1 H2 H3 H4 H5 H6 H7 H8 H9 H10 H11 H12 H13; [lia|].
  apply DeBoorTPDer_x; unfold MaxP; try assumption.
  - unfold tp_input, regular_input. split; [|auto].
    intros row Hr. rewrite (H row Hr). repeat split; try assumption; lia || lra.
  - intros row i Hr Hi. apply H12. rewrite <- (H row Hr). assumption.
Qed.

Theorem C51_tensor_partial_y : forall ws cp kx ky p q n x y,
  (forall row, In row cp -> length row = n) ->
  length kx = (n + p + 1)%nat -> (p < n)%nat -> (p <= 20)%nat -> nondecreasing kx ->
  length ky = (length cp + q + 1)%nat -> (1 <= q < length cp)%nat -> (q <= 20)%nat -> nondecreasing ky ->
  nth p kx 0 <= x < nth n kx 0 -> nth q ky 0 <= y < nth (length cp) ky 0 ->
  (20 <= length ws)%nat ->
  (forall i, (1 <= i < length cp)%nat -> nth i ky 0 < nth (i + q) ky 0) -> ~ In y ky ->
  exists d, DeBoorTPDer ws cp kx ky [x] [y] false true = Some [[d]]
    /\ derivable_pt_lim (fun t => tp_spline kx ky cp p q x t) y d.
Proof.
  intros ws cp kx ky p [|q] n x y H H1 H2 H3 H4 H5 H6 H7 H8 H9 H10 H11 H12 H13; [lia|].
  apply DeBoorTPDer_y; unfold MaxP; try assumption.
  unfold tp_input, regular_input. split; [|repeat split; try assumption; lia || lra].
  intros row Hr. rewrite (H row Hr). auto.
Qed.

(** Hypotheses are met: quadratic, one interior knot. *)
Definition ex_knots : list R := [0; 0; 0; 1/2; 1; 1; 1].
Definition ex_coefs : list R := [1; 2; 0; 5].
Example C07_hypotheses : length ex_knots = (length ex_coefs + 2 + 1)%nat /\ (2 < length ex_coefs)%nat
  /\ nondecreasing ex_knots /\ nth 2 ex_knots 0 <= 1/4 < nth (length ex_coefs) ex_knots 0
  /\ (forall i, (1 <= i < length ex_coefs)%nat -> nth i ex_knots 0 < nth (i + 2) ex_knots 0)
  /\ ~ In (1/4) ex_knots.
Proof.
  unfold ex_knots, ex_coefs. split; [reflexivity|]. split; [simpl; lia|]. split.
  { intros i j Hij Hj. simpl in Hj.
    destruct j as [|[|[|[|[|[|[|j]]]]]]]; try lia; destruct i as [|[|[|[|[|[|[|i]]]]]]]; try lia; simpl; lra. }
  split; [simpl; lra|]. split.
  { intros i Hi. simpl in Hi. destruct i as [|[|[|[|i]]]]; try lia; simpl; lra. }
  simpl. lra.
Qed.

(* BEGIN ASSUMPTIONS *)
Print Assumptions C07_deboor_is_the_bspline.
Print Assumptions C07_matrix_overload.
Print Assumptions C07_tensor_product.
Print Assumptions C07_no_division_by_zero_on_asserted_range_refuted.
Print Assumptions C08_convex_hull.
Print Assumptions C08_constants.
Print Assumptions C08_partition_of_unity.
Print Assumptions C08_clamped_ends.
Print Assumptions C51_derivative.
Print Assumptions C51_tensor_partial_x.
Print Assumptions C51_tensor_partial_y.
