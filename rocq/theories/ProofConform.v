(** Traces of B-splines on the edges of elements: joints, ends, reflection. *)
From Coq Require Import Reals Lra Lia Arith Bool List QArith Qreals.
From Verif Require Import RSum ModelBase ModelBernstein SpecBernstein ProofBernstein ModelKnots ProofKnots ModelTree
  ModelDeBoor SpecDeBoor ProofDeBoor ProofDeBoorDer SpecInterp SpecPatch ProofProjection ModelProj SpecProj ProofPiece ProofProj ProofProjMesh.
Import ListNotations.
Local Close Scope Q_scope.
Local Open Scope R_scope.

Lemma elevate_reflect : forall m c c', (forall j j', (j + j' = m)%nat -> c' j' = c j) -> forall j j', (j + j' = m + 1)%nat -> elevate m c' j' = elevate m c j.
Proof.
  intros m c c' H j j' E. unfold elevate. replace (m + 1 - j')%nat with j by lia. replace (m + 1 - j)%nat with j' by lia.
  destruct j as [|j], j' as [|j']; cbn [prev].
  - lia.
  - rewrite (H 0%nat j') by lia. unfold Rdiv. cbn [INR]. ring.
  - rewrite (H j 0%nat) by lia. unfold Rdiv. cbn [INR]. ring.
  - rewrite (H j (S j')) by lia. rewrite (H (S j) j') by lia. ring.
Qed.

Section One.
Variables (pp1 n rep : nat).
Hypothesis Hp : (1 <= pp1)%nat.
Hypothesis Hn : (1 <= n)%nat.
Hypothesis Hr : (1 <= rep)%nat.
Notation cf := (cf pp1 n rep).
Notation tK := (tK pp1 n rep).
Notation sp := (sp pp1 rep).
Notation dim := (dim pp1 n rep).
Variable D : nat.
Hypothesis HD : (D = pp1 - 1 \/ D = pp1)%nat.
Lemma cf_at1 : forall X d, (X < n)%nat -> (d < dim)%nat -> cf D X d D = bs tK (sp X) (pp1 - 1) d (at_el n X 1).
Proof. intros X d HX Hd. rewrite (cf_poly pp1 n rep Hp Hn Hr D X d 1 HD HX Hd). rewrite form_at1. reflexivity. Qed.
Lemma cf_at0 : forall X d, (X < n)%nat -> (d < dim)%nat -> cf D X d 0 = bs tK (sp X) (pp1 - 1) d (at_el n X 0).
Proof. intros X d HX Hd. rewrite (cf_poly pp1 n rep Hp Hn Hr D X d 0 HD HX Hd). rewrite form_at0. reflexivity. Qed.
Lemma span_pos : forall X, (X < n)%nat -> tK (sp X) < tK (sp X + 1)%nat.
Proof. intros X HX. rewrite (sp_lo pp1 n rep), (sp_hi pp1 n rep) by assumption. apply (at_el_lt pp1 n rep Hp Hn Hr). lra. Qed.
Lemma at_next : forall X, at_el n X 1 = at_el n (X + 1) 0.
Proof. intros X. unfold at_el. rewrite plus_INR. simpl. f_equal. ring. Qed.
(** neighbouring elements *)
Lemma cf_join : forall X d, (X + 1 < n)%nat -> (d < dim)%nat -> (rep <= pp1 - 1)%nat -> cf D X d D = cf D (X + 1) d 0.
Proof.
  intros X d HX Hd Hrp. rewrite cf_at1, cf_at0 by (assumption || lia). rewrite <- at_next.
  assert (S1 : sp (X + 1) = (sp X + rep)%nat) by (unfold ProofProj.sp; lia). rewrite S1.
  assert (E1 : tK (sp X + 1)%nat = at_el n X 1) by (apply (sp_hi pp1 n rep); assumption || lia).
  assert (E2 : tK (sp X + rep)%nat = at_el n X 1) by (rewrite <- S1, at_next; apply (sp_lo pp1 n rep); assumption || lia).
  rewrite <- E1. apply (bs_continuous tK (sp X) rep Hr).
  - apply span_pos. lia.
  - rewrite <- S1. apply span_pos. lia.
  - intros m Hm. assert (Lt : (sp (X + 1) + 1 < dim + pp1)%nat) by (apply (sp_lt pp1 n rep); assumption || lia). rewrite S1 in Lt.
    pose proof (tK_mono pp1 n rep Hp Hn Hr) as Mo. assert (A : tK (sp X + 1)%nat <= tK (sp X + m)%nat) by (apply Mo; lia). assert (B : tK (sp X + m)%nat <= tK (sp X + rep)%nat) by (apply Mo; lia). lra.
  - exact Hrp.
Qed.
(** the ends *)
Lemma cf_left : forall d, (d < dim)%nat -> cf D 0 d 0 = if (d =? 0)%nat then 1 else 0.
Proof.
  intros d Hd. rewrite cf_at0 by (assumption || lia). rewrite <- (sp_lo pp1 n rep) by (assumption || lia).
  rewrite (right_end tK (sp 0) (span_pos 0 ltac:(lia)) (pp1 - 1) d).
  - unfold ProofProj.sp. destruct (Nat.eqb_spec (d + (pp1 - 1)) (pp1 - 1 + 0 * rep)), (Nat.eqb_spec d 0); lia || reflexivity.
  - unfold ProofProj.sp. lia.
  - intros m Hm. assert (L0 : (sp 0 < dim + pp1)%nat) by (unfold ProofProj.sp, ProofProj.dim; generalize ((n - 1) * rep)%nat; lia).
    unfold ProofProj.tK. rewrite !(knot_at pp1 n rep) by (assumption || lia). f_equal. f_equal. unfold kidx, ProofProj.sp.
    destruct (Nat.ltb_spec (pp1 - 1 + 0 * rep - m) pp1), (Nat.ltb_spec (pp1 - 1 + 0 * rep) pp1); lia.
Qed.
Lemma cf_right : forall d, (d < dim)%nat -> cf D (n - 1) d D = if (d =? dim - 1)%nat then 1 else 0.
Proof.
  intros d Hd. rewrite cf_at1 by (assumption || lia). rewrite <- (sp_hi pp1 n rep) by (assumption || lia).
  rewrite (left_end tK (sp (n - 1)) (span_pos (n - 1) ltac:(lia)) (pp1 - 1) d).
  - assert (Es : sp (n - 1) = (dim - 1)%nat) by (unfold ProofProj.sp, ProofProj.dim; generalize ((n - 1) * rep)%nat; lia). rewrite Es. reflexivity.
  - intros m Hm. assert (Lm : (sp (n - 1) + m < dim + pp1)%nat) by (unfold ProofProj.sp, ProofProj.dim; generalize ((n - 1) * rep)%nat; lia).
    unfold ProofProj.tK. rewrite !(knot_at pp1 n rep) by (assumption || lia). f_equal. f_equal.
    pose proof (kidx_high pp1 n rep Hp Hn Hr (n - 1) (sp (n - 1) + m) ltac:(lia)) as A. pose proof (kidx_high pp1 n rep Hp Hn Hr (n - 1) (sp (n - 1) + 1) ltac:(lia)) as B.
    assert (U : forall i, (kidx pp1 n rep i <= n)%nat) by (intros i; unfold kidx; destruct (i <? pp1)%nat; lia).
    pose proof (U (sp (n - 1) + m)%nat). pose proof (U (sp (n - 1) + 1)%nat). unfold ProofProj.sp in *. lia.
Qed.
(** reflection *)
Lemma kidx_reflect : forall x y, (x + y + 1 = dim + pp1)%nat -> (kidx pp1 n rep x + kidx pp1 n rep y = n)%nat.
Proof.
  assert (G : forall x y, (x + y + 1 = dim + pp1)%nat -> (x < pp1)%nat -> (kidx pp1 n rep x + kidx pp1 n rep y = n)%nat).
  { intros x y E L. assert (U : (kidx pp1 n rep y <= n)%nat) by (unfold kidx; destruct (y <? pp1)%nat; lia).
    assert (kidx pp1 n rep x = 0%nat) by (unfold kidx; destruct (Nat.ltb_spec x pp1); lia).
    pose proof (kidx_high pp1 n rep Hp Hn Hr (n - 1) y ltac:(lia)) as B. unfold ProofProj.dim in E. revert B E. generalize ((n - 1) * rep)%nat. intros. lia. }
  intros x y E. destruct (lt_dec x pp1) as [L|L]; [apply G; assumption|]. destruct (lt_dec y pp1) as [L'|L']; [rewrite Nat.add_comm; apply G; [lia|assumption]|].
  unfold kidx. destruct (Nat.ltb_spec x pp1), (Nat.ltb_spec y pp1); try lia. unfold ProofProj.dim in E.
  assert (Ez : (x - pp1 + (y - pp1) + 1 = (n - 1) * rep)%nat) by (revert E; generalize ((n - 1) * rep)%nat; intros; lia).
  set (z := (x - pp1)%nat) in *. set (w := (y - pp1)%nat) in *. clearbody z w.
  pose proof (Nat.div_mod z rep ltac:(lia)) as Dz. pose proof (Nat.mod_upper_bound z rep ltac:(lia)) as Uz. set (qz := (z / rep)%nat) in *. set (rz := (z mod rep)%nat) in *.
  assert (Qw : (w / rep = n - 2 - qz)%nat).
  { assert (qz < n - 1)%nat by (apply (Nat.mul_lt_mono_pos_r rep); lia).
    symmetry. apply (Nat.div_unique w rep (n - 2 - qz) (rep - 1 - rz)); [lia|].
    assert ((n - 1) * rep = rep * (n - 2 - qz) + rep * qz + rep)%nat by (replace (n - 1)%nat with (n - 2 - qz + qz + 1)%nat at 1 by lia; ring). lia. }
  rewrite Qw. assert (qz < n - 1)%nat by (apply (Nat.mul_lt_mono_pos_r rep); lia). lia.
Qed.
Lemma cf_reflect : forall X X' d d' j j', (X + X' + 1 = n)%nat -> (d + d' + 1 = dim)%nat -> (j + j' = D)%nat -> cf D X' d' j' = cf D X d j.
Proof.
  intros X X' d d' j j' HX Hd Hj. pose proof (nR pp1 n rep Hp Hn Hr) as Pn.
  assert (B : forall j j', (j + j' = pp1 - 1)%nat -> bc tK (sp X') (pp1 - 1) d' j' = bc tK (sp X) (pp1 - 1) d j).
  { intros i i' Hi. pose proof (tK_mono pp1 n rep Hp Hn Hr) as Mo. apply (bc_reflect tK tK (dim + pp1) (sp X) (sp X') 1 Mo Mo); try lia.
    - intros x y E. unfold ProofProj.tK. rewrite !(knot_at pp1 n rep) by (assumption || lia). pose proof (kidx_reflect x y E) as Q. apply (f_equal INR) in Q. rewrite plus_INR in Q. replace (INR (kidx pp1 n rep x)) with (INR n - INR (kidx pp1 n rep y)) by lra. field. lra.
    - unfold ProofProj.sp, ProofProj.dim. assert ((n - 1) * rep = X * rep + X' * rep)%nat by (replace (n - 1)%nat with (X + X')%nat by lia; ring). lia. }
  unfold ProofProj.cf. destruct (Nat.eqb_spec D (pp1 - 1)) as [E|E]; [apply B; lia|].
  apply elevate_reflect; [exact B|lia].
Qed.
End One.

(** ** traces on the edges of an element *)
Lemma bern_reflect : forall m j j' s, (j + j' = m)%nat -> bern m j' (1 - s) = bern m j s.
Proof.
  intros m j j' s E. unfold bern. replace (1 - (1 - s)) with s by ring. replace (m - j')%nat with j by lia. replace (m - j)%nat with j' by lia.
  replace (Binomial.C m j') with (Binomial.C m j); [ring|]. rewrite pascal_step1 by lia. f_equal. lia.
Qed.
(** the spline on the element C of an edge, with coefficients u, without the dropped entries *)
Definition trace1 (p k n rep : nat) (u : nat -> R) (C : nat) (x : R) : R :=
  rsum (fun d => u d * rsum (fun j => keep (cf (k + 1) n rep p C d j) * bern p j x) (p + 1)) (spline_dim k n rep).
Lemma trace1_ext : forall p k n rep u u' C x, (forall d, (d < spline_dim k n rep)%nat -> u d = u' d) -> trace1 p k n rep u C x = trace1 p k n rep u' C x.
Proof. intros p k n rep u u' C x H. unfold trace1. apply rsum_ext. intros d Hd. rewrite H by exact Hd. reflexivity. Qed.
Lemma trace1_scal : forall p k n rep u C x a, trace1 p k n rep (fun d => a * u d) C x = a * trace1 p k n rep u C x.
Proof. intros. unfold trace1. rewrite <- rsum_scal. apply rsum_ext. intros; ring. Qed.
Lemma trace1_reflect : forall p k n rep u C C' x, (p = k \/ p = k + 1)%nat -> (1 <= n)%nat -> (1 <= rep)%nat -> (C + C' + 1 = n)%nat ->
  trace1 p k n rep u C' (1 - x) = trace1 p k n rep (fun d => u (spline_dim k n rep - 1 - d)%nat) C x.
Proof.
  intros p k n rep u C C' x Hk Hn Hr HC. unfold trace1. rewrite rsum_rev. apply rsum_ext. intros d Hd. f_equal. rewrite rsum_rev. apply rsum_ext. intros j Hj.
  rewrite (bern_reflect p j (p + 1 - 1 - j) x) by lia. f_equal. f_equal.
  apply (cf_reflect (k + 1) n rep ltac:(lia) Hn Hr p ltac:(lia)); [exact HC| |lia]. rewrite dim_spec. lia.
Qed.

Lemma sum_at0 : forall p (f : nat -> R), rsum (fun j => f j * bern p j 0) (p + 1) = f 0%nat.
Proof.
  intros p f. rewrite (rsum_single _ (p + 1) 0) by (try lia; intros j Hj Ne; rewrite bern_at0; apply Nat.eqb_neq in Ne; rewrite Ne; ring). rewrite bern_at0. simpl. ring.
Qed.
Lemma sum_at1 : forall p (f : nat -> R), rsum (fun j => f j * bern p j 1) (p + 1) = f p.
Proof.
  intros p f. rewrite (rsum_single _ (p + 1) p) by (try lia; intros j Hj Ne; rewrite bern_at1 by lia; apply Nat.eqb_neq in Ne; rewrite Ne; ring). rewrite bern_at1, Nat.eqb_refl by lia. ring.
Qed.

Section Trace.
Variables (p kx ky n rep P : nat).
Hypothesis Hk : (Nat.max kx ky = p /\ p <= kx + 1 /\ p <= ky + 1)%nat.
Hypothesis Hp : (p <= 19)%nat.
Hypothesis Hn : (1 <= n)%nat.
Hypothesis Hr : (1 <= rep)%nat.
Notation mp := (p + 1)%nat.
Notation dimx := (spline_dim kx n rep).
Notation dimy := (spline_dim ky n rep).
Notation cx := (cf (kx + 1) n rep p).
Notation cy := (cf (ky + 1) n rep p).
(** the value on the element *)
Definition local_value (A : mat) (nd r0 : nat) (v : arr) (s : R * R) : R :=
  rsum (fun i => rsum (fun j => A (r0 + i)%nat j * v j) nd * (bern p (i mod (p + 1)) (fst s) * bern p (i / (p + 1)) (snd s))) (mp * mp).
Lemma local_value_sum : forall A nd r0 off q X Y v s, holds_cell p kx ky n rep P A nd r0 off q X Y ->
  local_value A nd r0 v s = rsum (fun dy => rsum (fun dx => v (spline_dof kx ky n rep off q dx dy) *
     rsum (fun jy => rsum (fun jx => keep (cx X dx jx * cy Y dy jy) * (bern p jx (fst s) * bern p jy (snd s))) mp) mp) dimx) dimy.
Proof.
  intros A nd r0 off q X Y v s H. unfold local_value.
  rewrite (value_sum p kx ky n rep P Hk Hp Hn Hr A nd r0 off q X Y v (fun i => bern p (i mod (p + 1)) (fst s) * bern p (i / (p + 1)) (snd s)) H).
  apply rsum_ext. intros dy Hdy. apply rsum_ext. intros dx Hdx. f_equal. rewrite rsum_flatten. apply rsum_ext. intros jy Hjy. apply rsum_ext. intros jx Hjx.
  unfold coef. destruct (divmod_pair jy jx mp Hjx) as [-> ->]. replace (mp - 1)%nat with p by lia. reflexivity.
Qed.
(** the sides of an element; ex, ey: first or last coefficient *)
Lemma side_x : forall A nd r0 off q X Y v x y, holds_cell p kx ky n rep P A nd r0 off q X Y -> x = 0 \/ x = 1 ->
  local_value A nd r0 v (x, y) = rsum (fun dy => rsum (fun dx => v (spline_dof kx ky n rep off q dx dy) *
     rsum (fun jy => keep (cx X dx (if Req_EM_T x 0 then 0%nat else p) * cy Y dy jy) * bern p jy y) mp) dimx) dimy.
Proof.
  intros A nd r0 off q X Y v x y H Hx. rewrite (local_value_sum A nd r0 off q X Y v (x, y) H). cbn [fst snd].
  apply rsum_ext. intros dy _. apply rsum_ext. intros dx _. f_equal. apply rsum_ext. intros jy _.
  rewrite (rsum_ext _ (fun jx => keep (cx X dx jx * cy Y dy jy) * bern p jy y * bern p jx x)) by (intros; ring).
  destruct (Req_EM_T x 0) as [->|Ne]; [rewrite (sum_at0 p (fun jx => keep (cx X dx jx * cy Y dy jy) * bern p jy y)); reflexivity|].
  destruct Hx as [->| ->]; [congruence|]. rewrite (sum_at1 p (fun jx => keep (cx X dx jx * cy Y dy jy) * bern p jy y)). reflexivity.
Qed.
Lemma side_y : forall A nd r0 off q X Y v x y, holds_cell p kx ky n rep P A nd r0 off q X Y -> y = 0 \/ y = 1 ->
  local_value A nd r0 v (x, y) = rsum (fun dy => rsum (fun dx => v (spline_dof kx ky n rep off q dx dy) *
     rsum (fun jx => keep (cx X dx jx * cy Y dy (if Req_EM_T y 0 then 0%nat else p)) * bern p jx x) mp) dimx) dimy.
Proof.
  intros A nd r0 off q X Y v x y H Hx. rewrite (local_value_sum A nd r0 off q X Y v (x, y) H). cbn [fst snd].
  apply rsum_ext. intros dy _. apply rsum_ext. intros dx _. f_equal. rewrite rsum_swap. apply rsum_ext. intros jx _.
  rewrite (rsum_ext _ (fun jy => keep (cx X dx jx * cy Y dy jy) * bern p jx x * bern p jy y)) by (intros; ring).
  destruct (Req_EM_T y 0) as [->|Ne]; [rewrite (sum_at0 p (fun jy => keep (cx X dx jx * cy Y dy jy) * bern p jx x)); reflexivity|].
  destruct Hx as [->| ->]; [congruence|]. rewrite (sum_at1 p (fun jy => keep (cx X dx jx * cy Y dy jy) * bern p jx x)). reflexivity.
Qed.
Lemma HDx : (p = kx + 1 - 1 \/ p = kx + 1)%nat. Proof. lia. Qed.
Lemma HDy : (p = ky + 1 - 1 \/ p = ky + 1)%nat. Proof. lia. Qed.
(** inside of a patch *)
Lemma join_x : forall A nd r0 r1 off q X Y v y, (rep <= kx)%nat -> holds_cell p kx ky n rep P A nd r0 off q X Y -> holds_cell p kx ky n rep P A nd r1 off q (X + 1) Y ->
  local_value A nd r0 v (1, y) = local_value A nd r1 v (0, y).
Proof.
  intros A nd r0 r1 off q X Y v y Hrk H0 H1. rewrite (side_x A nd r0 off q X Y v 1 y H0) by (right; reflexivity). rewrite (side_x A nd r1 off q (X + 1) Y v 0 y H1) by (left; reflexivity).
  destruct (Req_EM_T 1 0) as [F|_]; [lra|]. destruct (Req_EM_T 0 0) as [_|F]; [|lra]. destruct H1 as [_ [_ [HX _]]].
  apply rsum_ext. intros dy _. apply rsum_ext. intros dx Hdx. f_equal. apply rsum_ext. intros jy _. f_equal. f_equal. f_equal.
  apply (cf_join (kx + 1) n rep ltac:(lia) Hn Hr p HDx X dx HX); [rewrite dim_spec; exact Hdx|lia].
Qed.
Lemma join_y : forall A nd r0 r1 off q X Y v x, (rep <= ky)%nat -> holds_cell p kx ky n rep P A nd r0 off q X Y -> holds_cell p kx ky n rep P A nd r1 off q X (Y + 1) ->
  local_value A nd r0 v (x, 1) = local_value A nd r1 v (x, 0).
Proof.
  intros A nd r0 r1 off q X Y v x Hrk H0 H1. rewrite (side_y A nd r0 off q X Y v x 1 H0) by (right; reflexivity). rewrite (side_y A nd r1 off q X (Y + 1) v x 0 H1) by (left; reflexivity).
  destruct (Req_EM_T 1 0) as [F|_]; [lra|]. destruct (Req_EM_T 0 0) as [_|F]; [|lra]. destruct H1 as [_ [_ [_ [HY _]]]].
  apply rsum_ext. intros dy Hdy. apply rsum_ext. intros dx _. f_equal. apply rsum_ext. intros jy _. f_equal. f_equal. f_equal.
  apply (cf_join (ky + 1) n rep ltac:(lia) Hn Hr p HDy Y dy HY); [rewrite dim_spec; exact Hdy|lia].
Qed.
(** boundary of a patch *)
Lemma end_x : forall A nd r0 off q X Y v x y d0, holds_cell p kx ky n rep P A nd r0 off q X Y -> (x = 0 /\ X = 0%nat /\ d0 = 0%nat \/ x = 1 /\ X = (n - 1)%nat /\ d0 = (dimx - 1)%nat) ->
  local_value A nd r0 v (x, y) = trace1 p ky n rep (fun d => v (spline_dof kx ky n rep off q d0 d)) Y y.
Proof.
  intros A nd r0 off q X Y v x y d0 H Hx. rewrite (side_x A nd r0 off q X Y v x y H) by tauto. unfold trace1.
  assert (Dx : (1 <= dimx)%nat) by (unfold spline_dim; clear; generalize (rep * (n - 1))%nat; lia).
  assert (E : forall dx, (dx < dimx)%nat -> cx X dx (if Req_EM_T x 0 then 0%nat else p) = if (dx =? d0)%nat then 1 else 0).
  { intros dx Hdx. rewrite <- dim_spec in Hdx. destruct Hx as [[-> [-> ->]]|[-> [-> ->]]].
    - destruct (Req_EM_T 0 0); [|lra]. apply (cf_left (kx + 1) n rep ltac:(lia) Hn Hr p HDx dx Hdx).
    - destruct (Req_EM_T 1 0); [lra|]. rewrite <- dim_spec. apply (cf_right (kx + 1) n rep ltac:(lia) Hn Hr p HDx dx Hdx). }
  apply rsum_ext. intros dy Hdy. rewrite (rsum_single _ dimx d0).
  - f_equal. apply rsum_ext. intros jy _. rewrite E by (destruct Hx as [[_ [_ ->]]|[_ [_ ->]]]; lia). rewrite Nat.eqb_refl, Rmult_1_l. reflexivity.
  - destruct Hx as [[_ [_ ->]]|[_ [_ ->]]]; lia.
  - intros dx Hdx Ne. rewrite rsum_zero; [ring|]. intros jy _. rewrite E by exact Hdx. apply Nat.eqb_neq in Ne. rewrite Ne, Rmult_0_l, keep0. ring.
Qed.
Lemma end_y : forall A nd r0 off q X Y v x y d0, holds_cell p kx ky n rep P A nd r0 off q X Y -> (y = 0 /\ Y = 0%nat /\ d0 = 0%nat \/ y = 1 /\ Y = (n - 1)%nat /\ d0 = (dimy - 1)%nat) ->
  local_value A nd r0 v (x, y) = trace1 p kx n rep (fun d => v (spline_dof kx ky n rep off q d d0)) X x.
Proof.
  intros A nd r0 off q X Y v x y d0 H Hy. rewrite (side_y A nd r0 off q X Y v x y H) by tauto. unfold trace1.
  assert (Dy : (1 <= dimy)%nat) by (unfold spline_dim; clear; generalize (rep * (n - 1))%nat; lia).
  assert (E : forall dy, (dy < dimy)%nat -> cy Y dy (if Req_EM_T y 0 then 0%nat else p) = if (dy =? d0)%nat then 1 else 0).
  { intros dy Hdy. rewrite <- dim_spec in Hdy. destruct Hy as [[-> [-> ->]]|[-> [-> ->]]].
    - destruct (Req_EM_T 0 0); [|lra]. apply (cf_left (ky + 1) n rep ltac:(lia) Hn Hr p HDy dy Hdy).
    - destruct (Req_EM_T 1 0); [lra|]. rewrite <- dim_spec. apply (cf_right (ky + 1) n rep ltac:(lia) Hn Hr p HDy dy Hdy). }
  rewrite (rsum_single _ dimy d0).
  - apply rsum_ext. intros dx Hdx. f_equal. apply rsum_ext. intros jx _. rewrite E by (destruct Hy as [[_ [_ ->]]|[_ [_ ->]]]; lia). rewrite Nat.eqb_refl, Rmult_1_r. reflexivity.
  - destruct Hy as [[_ [_ ->]]|[_ [_ ->]]]; lia.
  - intros dy Hdy Ne. apply rsum_zero. intros dx Hdx. rewrite rsum_zero; [ring|]. intros jx _. rewrite E by exact Hdy. apply Nat.eqb_neq in Ne. rewrite Ne, Rmult_0_r, keep0. ring.
Qed.
End Trace.
