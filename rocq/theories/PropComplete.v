(** C64 continued: the continuous spaces contain all continuous splines. *)
From Coq Require Import Reals Lra Lia Arith Bool List ZArith QArith Qreals Permutation Relations.
From Verif Require Import RSum ModelBase ModelBernstein SpecBernstein ModelTree SpecTree SpecMesh ModelGlue SpecGlue ModelDeBoor SpecDeBoor ProofDeBoor ProofDeBoorDer PropDeBoor ProofIndep ProofTopoInfo ProofGlueMat ProofGlueMesh PropTopo PropGlue
  SpecPatch ProofProjection SpecForms ModelBall ModelOperators ModelForms PropTree PropAssembly PropForms ModelProj SpecProj ProofPiece ProofProj ProofProjMesh PropProj
  ProofOperators PropUtil ModelAnsatz SpecConform ProofConform ProofAnsatz PropConform.
Import ListNotations.
Local Close Scope Q_scope.
Local Open Scope R_scope.

(** ** one variable *)
(** Two coefficient vectors for which the evaluation agrees are equal, if the support of every B-spline meets the interior of
    the parameter interval. *)
Theorem C07_coefficients_unique : forall ws c c' knots p,
  length c = length c' -> length knots = (length c + p + 1)%nat -> (p < length c)%nat -> (p <= 19)%nat -> (20 <= length ws)%nat ->
  nondecreasing knots ->
  (forall i, (i < length c)%nat -> nth i knots 0 < nth (i + p + 1) knots 0 /\ nth p knots 0 < nth (i + p + 1) knots 0 /\ nth i knots 0 < nth (length c) knots 0) ->
  (forall x, nth p knots 0 <= x < nth (length c) knots 0 -> DeBoor ws c knots [x] = DeBoor ws c' knots [x]) -> c = c'.
Proof.
  intros ws c c' knots p Lc Lk Hp H19 Hw Mo Su E. apply (nth_ext _ _ 0 0 Lc). intros i Hi.
  assert (Mk : mono (fun j => nth j knots 0) (length c + p + 1)) by (intros a b Hab Hb; apply Mo; lia).
  assert (Q : nth i c 0 - nth i c' 0 = 0); [|lra].
  apply (bspline_indep (fun j => nth j knots 0) (length c) p (fun i => nth i c 0 - nth i c' 0) Mk Hp Su); [|clear i Hi|exact Hi].
  - destruct (Su 0%nat ltac:(lia)) as [_ [A B]]. destruct (Su (length c - 1)%nat ltac:(lia)) as [_ [A' B']].
    assert (nth (0 + p + 1) knots 0 <= nth (length c) knots 0) by (apply Mo; lia). lra.
  - intros l x Hl Hx. assert (Hx1 : nth p knots 0 <= x < nth (length c) knots 0).
    { assert (nth p knots 0 <= nth l knots 0) by (apply Mo; lia). assert (nth (l + 1) knots 0 <= nth (length c) knots 0) by (apply Mo; lia). lra. }
    specialize (E x Hx1). rewrite (C07_deboor_is_the_bspline ws c knots p [x]) in E; [|assumption..|intros y [<-|[]]; exact Hx1].
    rewrite (C07_deboor_is_the_bspline ws c' knots p [x]) in E; [|rewrite <- ?Lc; assumption..|intros y [<-|[]]; rewrite <- Lc; exact Hx1].
    cbn [map] in E. injection E as E. unfold spline in E. rewrite <- Lc in E.
    rewrite (rsum_ext _ (fun i => nth i c 0 * bspline (fun j => nth j knots 0) p i x - nth i c' 0 * bspline (fun j => nth j knots 0) p i x)) by (intros; ring).
    rewrite rsum_minus. lra.
Qed.

Section One.
Variables (k n rep : nat).
Hypothesis Hn : (1 <= n)%nat.
Hypothesis Hr : (1 <= rep)%nat.
Notation D := (spline_dim k n rep).
Lemma dim_pos : (1 <= D)%nat.
Proof. unfold spline_dim. generalize (rep * (n - 1))%nat. lia. Qed.
Lemma uspline_piece : forall X d s, (X < n)%nat -> (d < D)%nat -> 0 <= s < 1 -> uspline k n rep d (at_el n X s) = bs (tK (k + 1) n rep) (sp (k + 1) rep X) k d (at_el n X s).
Proof.
  intros X d s HX Hd Hs. rewrite <- Bs_spec by exact Hn. rewrite (piece (k + 1) n rep ltac:(lia) Hn Hr X d s HX) by (try assumption; rewrite dim_spec; exact Hd).
  replace (k + 1 - 1)%nat with k by lia. reflexivity.
Qed.
Lemma uspline_0 : forall d, (d < D)%nat -> uspline k n rep d 0 = if (d =? 0)%nat then 1 else 0.
Proof.
  intros d Hd. pose proof (nR (k + 1) n rep ltac:(lia) Hn Hr) as Pn. replace 0 with (at_el n 0 0) at 1 by (unfold at_el; simpl; field; lra). rewrite uspline_piece by (lia || lra).
  pose proof (cf_at0 (k + 1) n rep ltac:(lia) Hn Hr k ltac:(lia) 0 d ltac:(lia)) as E. rewrite dim_spec in E. specialize (E Hd). replace (k + 1 - 1)%nat with k in E by lia. rewrite <- E.
  apply (cf_left (k + 1) n rep ltac:(lia) Hn Hr k ltac:(lia) d). rewrite dim_spec. exact Hd.
Qed.
(** the continuation to 1 is the limit *)
Lemma closed_uspline_limit : forall d eps, (d < D)%nat -> 0 < eps -> exists del, 0 < del /\ forall x, 1 - del < x < 1 -> Rabs (uspline k n rep d x - closed_uspline k n rep d 1) < eps.
Proof.
  intros d eps Hd He. pose proof (nR (k + 1) n rep ltac:(lia) Hn Hr) as Pn. pose proof (tK_mono (k + 1) n rep ltac:(lia) Hn Hr) as Mo.
  set (f := fun y => bs (tK (k + 1) n rep) (sp (k + 1) rep (n - 1)) k d y).
  assert (E1 : at_el n (n - 1) 1 = 1) by (unfold at_el; rewrite minus_INR by lia; simpl; field; lra).
  assert (V1 : f 1 = closed_uspline k n rep d 1).
  { unfold closed_uspline. destruct (Req_EM_T 1 1) as [_|F]; [|lra]. unfold f. rewrite <- E1 at 1.
    pose proof (cf_at1 (k + 1) n rep ltac:(lia) Hn Hr k ltac:(lia) (n - 1) d ltac:(lia)) as E. rewrite dim_spec in E. specialize (E Hd). replace (k + 1 - 1)%nat with k in E by lia. rewrite <- E.
    pose proof (cf_right (k + 1) n rep ltac:(lia) Hn Hr k ltac:(lia) d) as E'. rewrite dim_spec in E'. exact (E' Hd). }
  assert (Df : derivable_pt_lim f 1 (dbs (tK (k + 1) n rep) (sp (k + 1) rep (n - 1)) k d 1)).
  { apply (bs_derivable _ _ _ Mo). rewrite dim_spec. lia. }
  assert (Cf : continuity_pt f 1) by (apply derivable_continuous_pt; eexists; exact Df).
  destruct (Cf eps He) as [alp [Ha C]]. exists (Rmin alp (/ INR n)). split; [apply Rmin_pos; [exact Ha|apply Rinv_0_lt_compat; exact Pn]|].
  intros x Hx1. pose proof (Rmin_l alp (/ INR n)) as M1. pose proof (Rmin_r alp (/ INR n)) as M2.
  assert (Ex : exists s, 0 <= s < 1 /\ x = at_el n (n - 1) s).
  { exists (INR n * x - INR (n - 1)). rewrite minus_INR by lia. simpl INR. split.
    - assert (INR n * (1 - / INR n) = INR n - 1) by (field; lra). assert (INR n * (1 - / INR n) <= INR n * x) by (apply Rmult_le_compat_l; lra).
      assert (INR n * x < INR n * 1) by (apply Rmult_lt_compat_l; lra). lra.
    - unfold at_el. rewrite minus_INR by lia. simpl INR. field. lra. }
  destruct Ex as [s [Hs Ex]]. replace (uspline k n rep d x) with (f x) by (rewrite Ex; symmetry; apply uspline_piece; [lia|exact Hd|exact Hs]).
  rewrite <- V1. specialize (C x). unfold D_x, no_cond, dist in C. cbn [Base R_met R_dist] in C. apply C. split; [split; [exact I|lra]|]. unfold R_dist. rewrite Rabs_left by lra. lra.
Qed.
Lemma uspline_reflect : forall C d z, (C < n)%nat -> (d < D)%nat -> 0 < z < 1 ->
  uspline k n rep (D - 1 - d) (1 - at_el n C z) = uspline k n rep d (at_el n C z).
Proof.
  intros C d z HC Hd Hz. pose proof (nR (k + 1) n rep ltac:(lia) Hn Hr) as Pn.
  assert (E : 1 - at_el n C z = at_el n (n - 1 - C) (1 - z)) by (unfold at_el; rewrite !minus_INR by lia; simpl INR; field; lra). rewrite E.
  rewrite !uspline_piece by (lia || lra).
  pose proof (cf_poly (k + 1) n rep ltac:(lia) Hn Hr k (n - 1 - C) (D - 1 - d) (1 - z) ltac:(lia) ltac:(lia) ltac:(rewrite dim_spec; lia)) as P1.
  pose proof (cf_poly (k + 1) n rep ltac:(lia) Hn Hr k C d z ltac:(lia) ltac:(lia) ltac:(rewrite dim_spec; lia)) as P2.
  replace (k + 1 - 1)%nat with k in P1, P2 by lia. rewrite P1, P2. unfold bernstein_form. rewrite rsum_rev. apply rsum_ext. intros j Hj.
  rewrite (bern_reflect k j (k + 1 - 1 - j) z) by lia. f_equal.
  apply (cf_reflect (k + 1) n rep ltac:(lia) Hn Hr k ltac:(lia)); [lia|rewrite dim_spec; lia|lia].
Qed.
(** linear independence, from the values inside of the elements *)
Lemma uspline_indep : forall c : nat -> R, (rep <= k + 1)%nat -> (forall C z, (C < n)%nat -> 0 < z < 1 -> rsum (fun d => c d * uspline k n rep d (at_el n C z)) D = 0) -> forall d, (d < D)%nat -> c d = 0.
Proof.
  intros c Hk Z d Hd. pose proof (tK_mono (k + 1) n rep ltac:(lia) Hn Hr) as Mo. rewrite dim_spec in Mo. pose proof (nR (k + 1) n rep ltac:(lia) Hn Hr) as Pn.
  assert (exists X, (X < n)%nat /\ (d <= sp (k + 1) rep X <= d + k)%nat) as [X [HX Hs]].
  { unfold sp. replace (k + 1 - 1)%nat with k by lia. pose proof (Nat.div_mod d rep ltac:(lia)) as Dm. pose proof (Nat.mod_upper_bound d rep ltac:(lia)) as Um.
    set (q := (d / rep)%nat) in *. rewrite (Nat.mul_comm rep q) in Dm. destruct (lt_dec q n) as [L|L]; [exists q; split; [exact L|lia]|].
    exists (n - 1)%nat. split; [lia|]. assert (Hq : ((n - 1) * rep <= q * rep)%nat) by (apply Nat.mul_le_mono_r; lia). unfold spline_dim in Hd. rewrite (Nat.mul_comm rep (n - 1)) in Hd. lia. }
  assert (Lo : tK (k + 1) n rep (sp (k + 1) rep X) = at_el n X 0) by (apply (sp_lo (k + 1) n rep); lia).
  assert (Hi : tK (k + 1) n rep (sp (k + 1) rep X + 1) = at_el n X 1) by (apply (sp_hi (k + 1) n rep); lia).
  apply (bs_indep k (tK (k + 1) n rep) (D + (k + 1)) (sp (k + 1) rep X) D c Mo ltac:(lia)); [| | |exact Hs].
  - split; [unfold sp; lia|]. unfold sp, spline_dim. assert (Hq : (X * rep <= (n - 1) * rep)%nat) by (apply Nat.mul_le_mono_r; lia). rewrite (Nat.mul_comm rep (n - 1)). lia.
  - rewrite Lo, Hi. apply (at_el_lt (k + 1) n rep ltac:(lia) Hn Hr). lra.
  - intros x Hx1. rewrite Lo, Hi in Hx1. assert (Ex : exists s, 0 < s < 1 /\ x = at_el n X s).
    { exists (INR n * x - INR X). unfold at_el in *. destruct Hx1 as [A B]. split; [|field; lra].
      apply (Rmult_lt_compat_l (INR n)) in A; [|exact Pn]. apply (Rmult_lt_compat_l (INR n)) in B; [|exact Pn].
      replace (INR n * ((INR X + 0) / INR n)) with (INR X) in A by (field; lra). replace (INR n * ((INR X + 1) / INR n)) with (INR X + 1) in B by (field; lra). lra. }
    destruct Ex as [s [Hs1 ->]]. rewrite <- (Z X s HX Hs1). apply rsum_ext. intros i Hi1. f_equal. symmetry. apply uspline_piece; [exact HX|exact Hi1|lra].
Qed.
Lemma closed_inside : forall d C z, (C < n)%nat -> 0 < z < 1 -> closed_uspline k n rep d (at_el n C z) = uspline k n rep d (at_el n C z).
Proof.
  intros d C z HC Hz. unfold closed_uspline. destruct Req_EM_T as [E|_]; [|reflexivity]. pose proof (at_el_01 (k + 1) n rep ltac:(lia) Hn Hr C z HC ltac:(lra)). lra.
Qed.
End One.

(** ** traces on the edges of a patch *)
Section Edge.
Variables (kx ky n rep : nat).
Hypothesis Hn : (1 <= n)%nat.
Hypothesis Hr : (1 <= rep)%nat.
Notation dimx := (spline_dim kx n rep).
Notation dimy := (spline_dim ky n rep).
Lemma edge_spline : forall off q v i C z, (i < 4)%nat -> (C < n)%nat -> 0 < z < 1 ->
  patch_spline kx ky n rep off q v (along i (at_el n C z))
  = rsum (fun d => v (edge_coef kx ky n rep off q i d) * uspline (edge_deg kx ky i) n rep d (at_el n C z)) (spline_dim (edge_deg kx ky i) n rep).
Proof.
  intros off q v i C z Hi HC Hz. pose proof (dim_pos kx n rep) as Px. pose proof (dim_pos ky n rep) as Py. pose proof (nR 1 n rep ltac:(lia) Hn Hr) as Pn.
  assert (C0 : forall k d, (d < spline_dim k n rep)%nat -> closed_uspline k n rep d 0 = if (d =? 0)%nat then 1 else 0).
  { intros k d Hd. unfold closed_uspline. destruct Req_EM_T as [F|_]; [lra|]. apply uspline_0; assumption. }
  assert (C1 : forall k d, closed_uspline k n rep d 1 = if (d =? spline_dim k n rep - 1)%nat then 1 else 0).
  { intros k d. unfold closed_uspline. destruct Req_EM_T as [_|F]; [reflexivity|lra]. }
  assert (Rf : forall k d, (d < spline_dim k n rep)%nat -> closed_uspline k n rep (spline_dim k n rep - 1 - d) (1 - at_el n C z) = uspline k n rep d (at_el n C z)).
  { intros k d Hd. rewrite <- (uspline_reflect k n rep Hn Hr C d z HC Hd Hz). assert (E : 1 - at_el n C z = at_el n (n - 1 - C) (1 - z)) by (unfold at_el; rewrite !minus_INR by lia; simpl INR; field; lra).
    rewrite E. apply closed_inside; [exact Hn|exact Hr|lia|lra]. }
  unfold patch_spline. destruct i as [|[|[|[|i]]]]; [| | | |lia]; cbn [along fst snd edge_deg edge_coef].
  - rewrite (rsum_single _ dimy 0) by (try lia; intros dy Hdy Ne; apply rsum_zero; intros dx Hdx; rewrite C0 by exact Hdy; apply Nat.eqb_neq in Ne; rewrite Ne; ring).
    apply rsum_ext. intros d Hd. rewrite (C0 ky 0%nat) by lia. rewrite closed_inside by assumption. cbn [Nat.eqb]. ring.
  - apply rsum_ext. intros d Hd. rewrite (rsum_single _ dimx (dimx - 1)) by (try lia; intros dx Hdx Ne; rewrite C1; apply Nat.eqb_neq in Ne; rewrite Ne; ring).
    rewrite C1, Nat.eqb_refl, closed_inside by assumption. ring.
  - rewrite (rsum_single _ dimy (dimy - 1)) by (try lia; intros dy Hdy Ne; apply rsum_zero; intros dx Hdx; rewrite C1; apply Nat.eqb_neq in Ne; rewrite Ne; ring).
    rewrite rsum_rev. apply rsum_ext. intros d Hd. rewrite C1, Nat.eqb_refl, Rf by exact Hd. ring.
  - rewrite rsum_rev. apply rsum_ext. intros d Hd. rewrite (rsum_single _ dimx 0) by (try lia; intros dx Hdx Ne; rewrite C0 by exact Hdx; apply Nat.eqb_neq in Ne; rewrite Ne; ring).
    rewrite (C0 kx 0%nat) by lia. rewrite Rf by exact Hd. cbn [Nat.eqb]. ring.
Qed.
(** opposite traces with a factor have opposite coefficients *)
Lemma opposite_coefficients : forall (f g : nat -> R) k a, (rep <= k + 1)%nat ->
  (forall C z, (C < n)%nat -> 0 < z < 1 -> rsum (fun d => f d * uspline k n rep d (at_el n C z)) (spline_dim k n rep)
     = a * rsum (fun d => g d * uspline k n rep d (1 - at_el n C z)) (spline_dim k n rep)) ->
  forall d d', (d + d' + 1 = spline_dim k n rep)%nat -> f d = a * g d'.
Proof.
  intros f g k a Hk E d d' Hd. assert (Q : f d - a * g (spline_dim k n rep - 1 - d)%nat = 0).
  { apply (uspline_indep k n rep Hn Hr (fun d => f d - a * g (spline_dim k n rep - 1 - d)%nat) Hk); [|lia]. intros C z HC Hz.
    rewrite (rsum_ext _ (fun d => f d * uspline k n rep d (at_el n C z) - a * (g (spline_dim k n rep - 1 - d)%nat * uspline k n rep d (at_el n C z)))) by (intros; ring).
    rewrite rsum_minus, rsum_scal, (E C z HC Hz). rewrite (rsum_rev (fun d => g d * uspline k n rep d (1 - at_el n C z))).
    rewrite (rsum_ext (fun d0 => g (spline_dim k n rep - 1 - d0)%nat * uspline k n rep (spline_dim k n rep - 1 - d0) (1 - at_el n C z)) (fun d0 => g (spline_dim k n rep - 1 - d0)%nat * uspline k n rep d0 (at_el n C z))); [ring|].
    intros i Hi. rewrite (uspline_reflect k n rep Hn Hr C i z HC Hi Hz). reflexivity. }
  replace d' with (spline_dim k n rep - 1 - d)%nat by lia. lra.
Qed.
End Edge.

Section Mesh.
Context {Pt : Type} (close : Pt -> Pt -> bool) (corners : list (list Pt)) (M : nat) (t : tree) (els : list node).
Hypothesis Hm : uniform_mesh close corners M t els.
Variables (ws : list R) (junk : mat) (j1 j2 : arr) (solve : nat -> mat -> arr -> arr).
Hypothesis Hw : (20 <= length ws)%nat.
Hypothesis Hs : good_solve solve.
Notation verts := (fst (patch_vertices close [] corners)).
Hypothesis HM : mesh_ok verts.
Hypothesis HO : oriented verts.
Notation n := (2 ^ M)%nat.
Notation P := (length corners).

Lemma along_square : forall i u, 0 <= u <= 1 -> unit_square (along i u).
Proof. intros i u Hu. unfold unit_square. destruct i as [|[|[|i]]]; cbn [along fst snd]; lra. Qed.
Lemma cell_inside : forall C z, (C < n)%nat -> 0 < z < 1 -> 0 <= at_el n C z <= 1.
Proof. intros C z HC Hz. pose proof (n_pos M) as Hn. pose proof (at_el_01 1 n 1 ltac:(lia) Hn ltac:(lia) C z HC ltac:(lra)). lra. Qed.

(** the coefficients of a continuous spline agree at identified positions *)
Lemma continuous_identified : forall p rep edges v, (1 <= rep <= p)%nat -> patch_topology_info t = Some edges -> continuous_spline verts p n rep v ->
  forall x y, identified (spline_dim p n rep) edges x y -> v x = v y.
Proof.
  intros p rep edges v Hr Ee Cv. destruct (over_mesh close corners M t els Hm) as [npts [HN HR]].
  destruct (C22_mesh verts npts t p rep M HM HO HN HR ltac:(lia)) as [edges' [groups [stored [Ee' [Iff _]]]]]. assert (edges' = edges) by congruence. subst edges'.
  pose proof (n_pos M) as Hn. set (D := spline_dim p n rep) in *. pose proof (dim_pos p n rep) as PD. fold D in PD.
  intros x y Id. induction Id as [x y St| | |]; [|reflexivity|congruence|congruence].
  destruct St as [a [b [i [j [s [s' [X [Y [X' [Y' [Hin [O1 [O2 [Hss [-> ->]]]]]]]]]]]]]]].
  apply Iff in Hin. destruct Hin as [Hab [Hb [Hi [Hj Op]]]].
  assert (OE : forall q k m X Y, on_edge (D - 1) k m X Y -> (k < 4)%nat -> (m < D)%nat /\ grid_dof D (q * (D * D)) X Y = edge_coef p p n rep 0 q k m).
  { intros q k m X0 Y0 O Hk. unfold edge_coef, spline_dof, on_edge, grid_dof in *. fold D. destruct O as [Om O]. split; [lia|]. destruct k as [|[|[|[|k]]]]; [| | | |lia]; destruct O as [O1' O2']; fold D.
    - rewrite O1', O2'. lia.
    - rewrite O1', O2'. lia.
    - rewrite O1'. replace X0 with (D - 1 - m)%nat by lia. lia.
    - rewrite O1'. replace Y0 with (D - 1 - m)%nat by lia. lia. }
  destruct (OE a i s X Y O1 Hi) as [Ls ->]. destruct (OE b j s' X' Y' O2 Hj) as [Ls' ->].
  assert (Dg : forall m, edge_deg p p m = p) by (intros [|[|[|m]]]; reflexivity).
  rewrite <- (Rmult_1_l (v (edge_coef p p n rep 0 b j s'))).
  apply (opposite_coefficients n rep Hn ltac:(lia) (fun d => v (edge_coef p p n rep 0 a i d)) (fun d => v (edge_coef p p n rep 0 b j d)) p 1 ltac:(lia)); [|fold D; lia].
  intros C z HC Hz. rewrite Rmult_1_l. pose proof (cell_inside C z HC Hz) as In1.
  assert (E : 1 - at_el n C z = at_el n (n - 1 - C) (1 - z)) by (pose proof (nR 1 n 1 ltac:(lia) Hn ltac:(lia)); unfold at_el; rewrite !minus_INR by lia; simpl INR; field; lra).
  pose proof (edge_spline p p n rep Hn ltac:(lia) 0 a v i C z Hi HC Hz) as T1. pose proof (edge_spline p p n rep Hn ltac:(lia) 0 b v j (n - 1 - C) (1 - z) Hj ltac:(lia) ltac:(lra)) as T2.
  rewrite !Dg in T1, T2. rewrite <- E in T2. etransitivity; [symmetry; exact T1|]. etransitivity; [|exact T2].
  apply Cv; [lia|lia|apply along_square; exact In1|apply along_square; lra|]. right. exists i, j. split; [exact Hi|]. split; [exact Hj|]. split; [exact Op|]. exists (at_el n C z). repeat split; lra.
Qed.

(** Every continuous spline belongs to the continuous space: there is a coefficient vector whose function is this spline, up to
    what the projector drops (nothing for degrees up to 4). *)
Theorem C64_contains_all : forall p rep S v, (1 <= rep <= p)%nat -> (p <= 19)%nat ->
  ansatz_continuous ws junk j1 j2 solve p M P rep t els = Some S -> continuous_spline verts p n rep v ->
  exists w, forall k e X Y s, nth_error els k = Some e -> at_cell n e X Y -> 0 <= fst s < 1 -> 0 <= snd s < 1 ->
    let value := Q2R (get_h e) * discrete_value p (P * 4 ^ M) (as_cols S) (as_T S) w 0 k (Q2R (get_h e)) s in
    let exact := patch_spline p p n rep 0 (n_patch e) v (patch_point e s) in
    Rabs (value - exact) <= 1 / 10000 * active_coefficients p p n rep 0 (n_patch e) v X Y /\ ((p <= 4)%nat -> value = exact).
Proof.
  intros p rep S v Hr Hp ES Cv. pose proof ES as ES0. unfold ansatz_continuous in ES0. apply bind_some in ES0. destruct ES0 as [A [EA ES0]]. apply bind_some in ES0. destruct ES0 as [edges [Ee _]].
  destruct (C64_complete close corners M t els Hm ws junk j1 j2 solve Hw Hs HM HO p rep S A edges v Hr Hp ES EA Ee (continuous_identified p rep edges v Hr Ee Cv)) as [w Ew].
  exists w. intros k e X Y s Ek C H1 H2 value exact. unfold value. rewrite Ew. pose proof (n_pos M) as Hn.
  assert (Ex : exact = tensor_spline p p n rep 0 (n_patch e) v (Q2R (fst (n_llc e)) + Q2R (get_h e) * fst s) (Q2R (snd (n_llc e)) + Q2R (get_h e) * snd s)).
  { pose proof (cell_patch_point M e X Y s C) as Pp. unfold exact, patch_spline, tensor_spline. pose proof (f_equal fst Pp) as Px. pose proof (f_equal snd Pp) as Py. cbn [fst snd] in Px, Py.
    destruct C as [CX [CY _]]. pose proof (at_el_01 1 n 1 ltac:(lia) Hn ltac:(lia) X (fst s) CX H1) as Ax. pose proof (at_el_01 1 n 1 ltac:(lia) Hn ltac:(lia) Y (snd s) CY H2) as Ay. unfold at_el in Ax, Ay.
    assert (Cl : forall d x, 0 <= x < 1 -> closed_uspline p n rep d x = uspline p n rep d x) by (intros d x Hx1; unfold closed_uspline; destruct Req_EM_T as [F|_]; [lra|reflexivity]).
    apply rsum_ext. intros dy _. apply rsum_ext. intros dx _. rewrite !Cl by (rewrite ?Px, ?Py; assumption). reflexivity. }
  rewrite Ex. split.
  - apply (C25_continuous_error close corners M t els Hm ws junk j1 j2 solve Hw Hs p rep A v k e X Y s Hp ltac:(lia) EA Ek C H1 H2).
  - intros P4. apply (C25_continuous_exact close corners M t els Hm ws junk j1 j2 solve Hw Hs p rep A v k e s P4 ltac:(lia) EA Ek H1 H2).
Qed.

(** ** vector fields *)
Notation side_coef p rep q i d := (if normal_comp i then edge_coef (p - 1) p n rep (P * (spline_dim p n rep * spline_dim (p - 1) n rep)) q i d else edge_coef p (p - 1) n rep 0 q i d).
Lemma not_grid : forall C z m, 0 < z < 1 -> at_el n C z <> INR m / INR n.
Proof.
  intros C z m Hz E. assert (Pn : 0 < INR n) by (apply lt_0_INR; pose proof (n_pos M); lia). unfold at_el in E.
  assert (E' : INR C + z = INR m) by (eapply Rmult_eq_reg_r; [exact E|apply Rinv_neq_0_compat; lra]).
  assert (L1 : INR C < INR m) by lra. assert (L2 : INR m < INR (C + 1)) by (rewrite plus_INR; simpl; lra).
  apply INR_lt in L1. apply INR_lt in L2. lia.
Qed.
Lemma flux_coefficients : forall p rep v, (1 <= rep <= p)%nat -> flux_spline verts p n rep v ->
  forall a b i j d d', (a < P)%nat -> (b < P)%nat -> (i < 4)%nat -> (j < 4)%nat -> opposed verts a i b j -> (d + d' + 1 = spline_dim (p - 1) n rep)%nat ->
  v (side_coef p rep a i d) = - (IZR (out_flux i) * IZR (out_flux j)) * v (side_coef p rep b j d').
Proof.
  intros p rep v Hr Fv a b i j d d' Ha Hb Hi Hj Op Hd. pose proof (n_pos M) as Hn. pose proof (verts_length close corners) as VL.
  apply (opposite_coefficients n rep Hn ltac:(lia) (fun d => v (side_coef p rep a i d)) (fun d => v (side_coef p rep b j d)) (p - 1) _ ltac:(lia)); [|exact Hd].
  clear d d' Hd. intros C z HC Hz.
  assert (E : 1 - at_el n C z = at_el n (n - 1 - C) (1 - z)) by (pose proof (nR 1 n 1 ltac:(lia) Hn ltac:(lia)); unfold at_el; rewrite !minus_INR by lia; simpl INR; field; lra).
  assert (T : forall q k C z, (k < 4)%nat -> (C < n)%nat -> 0 < z < 1 -> vector_spline p n rep P q v (normal_comp k) (along k (at_el n C z))
     = rsum (fun d => v (side_coef p rep q k d) * uspline (p - 1) n rep d (at_el n C z)) (spline_dim (p - 1) n rep)).
  { clear -Hn Hr. intros q k C z Hk HC Hz. unfold vector_spline. destruct k as [|[|[|[|k]]]]; [| | | |lia]; cbn [normal_comp].
    - apply (edge_spline (p - 1) p n rep Hn ltac:(lia) _ q v 0 C z); assumption.
    - apply (edge_spline p (p - 1) n rep Hn ltac:(lia) 0 q v 1 C z); assumption.
    - apply (edge_spline (p - 1) p n rep Hn ltac:(lia) _ q v 2 C z); assumption.
    - apply (edge_spline p (p - 1) n rep Hn ltac:(lia) 0 q v 3 C z); assumption. }
  pose proof (T a i C z Hi HC Hz) as T1. pose proof (T b j (n - 1 - C)%nat (1 - z) Hj ltac:(lia) ltac:(lra)) as T2. rewrite <- E in T2.
  etransitivity; [symmetry; exact T1|]. rewrite <- T2.
  assert (In1 : 0 < at_el n C z < 1).
  { assert (Pn : 0 < INR n) by (apply lt_0_INR; lia). pose proof (at_el_01 1 n 1 ltac:(lia) Hn ltac:(lia) C z HC ltac:(lra)) as B. split; [|lra]. unfold at_el. apply Rdiv_lt_0_compat; [|exact Pn]. pose proof (pos_INR C). lra. }
  pose proof (Fv a b i j (at_el n C z) ltac:(lia) ltac:(lia) Hi Hj Op In1 (fun m => not_grid C z m Hz)) as F0.
  assert (F : IZR (out_flux i) * vector_spline p n rep P a v (normal_comp i) (along i (at_el n C z)) + IZR (out_flux j) * vector_spline p n rep P b v (normal_comp j) (along j (1 - at_el n C z)) = 0).
  { rewrite <- F0, VL. reflexivity. }
  assert (F2 : IZR (out_flux i) * IZR (out_flux i) = 1) by (destruct i as [|[|[|i]]]; cbn; ring).
  set (T1' := vector_spline p n rep P a v (normal_comp i) _) in *. set (T2' := vector_spline p n rep P b v (normal_comp j) _) in *.
  replace T1' with (IZR (out_flux i) * IZR (out_flux i) * T1') by (rewrite F2; ring).
  replace (IZR (out_flux i) * IZR (out_flux i) * T1') with (IZR (out_flux i) * (IZR (out_flux i) * T1')) by ring. replace (IZR (out_flux i) * T1') with (- (IZR (out_flux j) * T2')) by lra. ring.
Qed.

Lemma div_complete : forall p rep S A v, (1 <= rep <= p)%nat -> (p <= 19)%nat ->
  ansatz_div ws junk j1 j2 solve p M P rep t els = Some S -> projector_div ws junk j1 j2 solve p M P rep els = Some A -> flux_spline verts p n rep v ->
  exists w, (forall c k h s, discrete_value p (P * 4 ^ M) (as_cols S) (as_T S) w c k h s = discrete_value p (P * 4 ^ M) (sm_cols A) (sm_entry A) v c k h s).
Proof.
  intros p rep S A v Hr Hp ES EA Fv.
  destruct (div_run close corners M t els Hm ws junk j1 j2 solve Hw Hs p rep Hr Hp) as [A' [EA' [_ [Ec _]]]]. assert (A' = A) by congruence. subst A'.
  unfold ansatz_div in ES. rewrite EA in ES. cbn [bind] in ES. apply bind_some in ES. destruct ES as [edges [Ee ES]]. apply bind_some in ES. destruct ES as [ids [Ei ES]]. apply bind_some in ES. destruct ES as [G [Eg ES]].
  destruct (over_mesh close corners M t els Hm) as [npts [HN HR]]. pose proof (verts_length close corners) as VL.
  destruct (C24_mesh_sides verts npts t HM HN HR) as [edges' [Ee' [Eok ND]]]. assert (edges' = edges) by congruence. subst edges'.
  destruct (C17_interfaces verts npts t HM HN HR) as [edges' [Ee2 [_ [I1 [_ _]]]]]. assert (edges' = edges) by congruence. subst edges'. rewrite VL in *.
  assert (HP : (1 <= P)%nat) by (destruct Hm as [Hc _]; destruct corners; [congruence|simpl; lia]).
  destruct (C24_div_identification p rep M P edges ltac:(lia) HP Eok ND) as [ids' [Ei' [K [Gr [post [trips [Ea' Gl]]]]]]].
  pose proof (flux_coefficients p rep v Hr Fv) as FC.
  set (Sd := (p + rep * (n - 1))%nat) in *. assert (E1 : spline_dim (p - 1) n rep = Sd) by (unfold spline_dim, Sd; clear -Hr; generalize (rep * (n - 1))%nat; lia).
  assert (E2 : spline_dim p n rep = (Sd + 1)%nat) by (unfold spline_dim, Sd; clear; generalize (rep * (n - 1))%nat; lia).
  assert (Sp : (1 <= Sd)%nat) by (unfold Sd; clear -Hr; generalize (rep * (n - 1))%nat; lia). clearbody Sd.
  assert (Ec' : sm_cols A = (2 * P * (Sd * (Sd + 1)))%nat) by (rewrite Ec, E1, E2; ring). rewrite Ec' in Ei, Eg. assert (ids' = ids) by congruence. subst ids'.
  destruct (product_value A G S ES) as [tr [EG [Er V]]]. rewrite Ec' in EG.
  assert (Q : (2 * P * (Sd * (Sd + 1)), as_cols S, tr)%nat = (2 * P * (Sd * (Sd + 1)), post, trips)%nat) by congruence. pose proof (f_equal snd Q) as Q1. pose proof (f_equal (fun x => snd (fst x)) Q) as Q2. cbn [fst snd] in Q1, Q2. subst tr. rewrite <- Q2 in *. clear Q Q2 post EG Ea' Eg.
  assert (Fl : forall i, out_flux i = 1%Z \/ out_flux i = (-1)%Z) by (intros [|[|[|i]]]; cbn; auto).
  assert (FI : forall x y z, flux_ident Sd (Sd + 1) P edges x y z -> (z = 1%Z \/ z = (-1)%Z) /\ v x = IZR z * v y).
  { intros x y z [a [b [i [j [d [d' [X [Y [X' [Y' [Hin [F1 [F2 [Hd [-> [-> Hz]]]]]]]]]]]]]]]].
    apply I1 in Hin. destruct Hin as [Hab [Hb [Hi [Hj Op]]]].
    assert (Op' : opposed verts a i b j) by (apply HO; [lia|lia|exact Hi|exact Hj|intros Q; apply (f_equal fst) in Q; cbn in Q; lia|exact Op]).
    assert (FP : forall q k m X Y, (k < 4)%nat -> flux_point Sd (Sd + 1) k m X Y -> side_coef p rep q k m = vec_dof Sd (Sd + 1) P (normal_comp k) q X Y).
    { clear -E1 E2 Sp. intros q k m X Y Hk O. unfold edge_coef, spline_dof, flux_point, vec_dof in *. rewrite E1, E2. destruct O as [Om O].
      destruct k as [|[|[|[|k]]]]; [| | | |lia]; destruct O as [O1 O2]; cbn [normal_comp].
      - subst. ring.
      - subst. ring.
      - subst Y. replace (Sd - 1 - m)%nat with X by lia. ring.
      - subst X. replace (Sd - 1 - m)%nat with Y by lia. ring. }
    assert (Ds : (d < Sd /\ d' < Sd)%nat) by (split; [apply F1|apply F2]).
    rewrite <- (FP a i d X Y Hi F1), <- (FP b j d' X' Y' Hj F2). rewrite (FC a b i j d d' ltac:(lia) Hb Hi Hj Op' ltac:(rewrite E1; lia)).
    destruct (Fl i) as [Fi|Fi], (Fl j) as [Fj|Fj]; rewrite Fi, Fj in *; (split; [lia|]); [replace z with (-1)%Z by lia|replace z with 1%Z by lia|replace z with 1%Z by lia|replace z with (-1)%Z by lia]; ring. }
  assert (Sg : forall g, In g ids -> exists x y, g = ([x; y], snd g) /\ (snd g = 1%Z \/ snd g = (-1)%Z) /\ v y = IZR (snd g) * v x).
  { intros g Ig. apply Gr in Ig. destruct Ig as [x [y [z [Fx ->]]]]. destruct (FI x y z Fx) as [Zz Vx]. cbn [snd]. exists (Nat.min x y), (Nat.max x y). split; [reflexivity|]. split; [exact Zz|].
    assert (Zq : IZR z * IZR z = 1) by (destruct Zz as [-> | ->]; ring).
    destruct (le_ge_dec x y) as [L|L]; [rewrite Nat.min_l, Nat.max_r by lia|rewrite Nat.min_r, Nat.max_l by lia; exact Vx]. rewrite Vx, <- Rmult_assoc, Zq. ring. }
  assert (Sq : forall r c z, In (r, c, z) trips -> IZR z * IZR z = 1).
  { intros r c z I. destruct (in_dec Nat.eq_dec r (flat_map (fun g => tl (fst g)) ids)) as [D|D].
    - apply in_flat_map in D. destruct D as [g [Ig Hg]]. rewrite (gl_coef _ _ _ _ Gl r c z g I Ig Hg). destruct (Sg g Ig) as [_ [_ [_ [Zz _]]]]. destruct Zz as [-> | ->]; ring.
    - rewrite (gl_one _ _ _ _ Gl r c z I); [ring|]. intros [g [Ig Hg]]. apply D. apply in_flat_map. exists g. split; assumption. }
  set (w := fun c => match find (fun tr : triplet => snd (fst tr) =? c)%nat trips with Some tr => IZR (snd tr) * v (fst (fst tr)) | None => 0 end).
  exists w. assert (Main : forall j, (j < sm_cols A)%nat -> glued_vector trips (as_cols S) w j = v j).
  { intros j Hj. rewrite Ec' in Hj. destruct (has_row _ _ _ _ j Gl Hj) as [cj [vj Ij]].
    destruct (find (fun tr : triplet => snd (fst tr) =? cj)%nat trips) as [[[r c'] z]|] eqn:F.
    2: { pose proof (find_none _ _ F _ Ij) as Q. cbn [fst snd] in Q. rewrite Nat.eqb_refl in Q. discriminate. }
    pose proof F as F0. apply find_some in F0. destruct F0 as [Ir Q]. cbn [fst snd] in Q. apply Nat.eqb_eq in Q. subst c'.
    assert (Wr : glued_vector trips (as_cols S) w r = v r).
    { rewrite (glued_value _ _ _ _ w r cj z Gl Ir). unfold w. rewrite F. cbn [fst snd]. rewrite <- Rmult_assoc, (Sq _ _ _ Ir). ring. }
    destruct (proj1 (gl_same _ _ _ _ Gl _ _ _ _ _ _ Ir Ij) eq_refl) as [->|[g [Ig [Gi Gj]]]]; [exact Wr|].
    destruct (Sg g Ig) as [x [y [Eg [Zz Vy]]]]. rewrite Eg in Ig. pose proof (glued_pair _ _ _ _ w x y (snd g) Gl K Ig) as GP.
    assert (Zq : IZR (snd g) * IZR (snd g) = 1) by (destruct Zz as [-> | ->]; ring).
    rewrite Eg in Gi, Gj. cbn [fst] in Gi, Gj. destruct Gi as [<-|[<-|[]]], Gj as [<-|[<-|[]]]; try exact Wr.
    - rewrite GP, Vy, Wr. reflexivity.
    - rewrite GP in Wr. rewrite Vy in Wr. apply (f_equal (fun q => IZR (snd g) * q)) in Wr. rewrite <- !Rmult_assoc, Zq in Wr. lra. }
  intros c k h s. unfold discrete_value, local_coefficient. f_equal. apply rsum_ext. intros i _. f_equal. rewrite V. apply rsum_ext. intros j Hj. f_equal. apply Main. exact Hj.
Qed.

(** Every patchwise spline field whose normal components match at the interfaces belongs to the div-conforming space. *)
Theorem C65_contains_all : forall p rep S v, (1 <= rep <= p)%nat -> (p <= 19)%nat ->
  ansatz_div ws junk j1 j2 solve p M P rep t els = Some S -> flux_spline verts p n rep v ->
  exists w, forall k e X Y s (second : bool), nth_error els k = Some e -> at_cell n e X Y -> 0 <= fst s < 1 -> 0 <= snd s < 1 ->
    let value := Q2R (get_h e) * discrete_value p (P * 4 ^ M) (as_cols S) (as_T S) w (if second then 1 else 0) k (Q2R (get_h e)) s in
    let exact := vector_spline p n rep P (n_patch e) v second (patch_point e s) in
    Rabs (value - exact) <= 1 / 10000 * (if second then active_coefficients (p - 1) p n rep (P * (spline_dim p n rep * spline_dim (p - 1) n rep)) (n_patch e) v X Y
                                         else active_coefficients p (p - 1) n rep 0 (n_patch e) v X Y) /\ ((p <= 4)%nat -> value = exact).
Proof.
  intros p rep S v Hr Hp ES Fv. pose proof ES as ES0. unfold ansatz_div in ES0. apply bind_some in ES0. destruct ES0 as [A [EA _]].
  destruct (div_complete p rep S A v Hr Hp ES EA Fv) as [w Ew].
  exists w. intros k e X Y s second Ek C H1 H2 value exact. unfold value. rewrite Ew. pose proof (n_pos M) as Hn.
  set (x := Q2R (fst (n_llc e)) + Q2R (get_h e) * fst s). set (y := Q2R (snd (n_llc e)) + Q2R (get_h e) * snd s).
  assert (Ex : exact = if second then tensor_spline (p - 1) p n rep (P * (spline_dim p n rep * spline_dim (p - 1) n rep)) (n_patch e) v x y else tensor_spline p (p - 1) n rep 0 (n_patch e) v x y).
  { pose proof (cell_patch_point M e X Y s C) as Pp. unfold exact, vector_spline, patch_spline, tensor_spline. pose proof (f_equal fst Pp) as Px. pose proof (f_equal snd Pp) as Py. cbn [fst snd] in Px, Py.
    destruct C as [CX [CY _]]. pose proof (at_el_01 1 n 1 ltac:(lia) Hn ltac:(lia) X (fst s) CX H1) as Ax. pose proof (at_el_01 1 n 1 ltac:(lia) Hn ltac:(lia) Y (snd s) CY H2) as Ay. unfold at_el in Ax, Ay.
    assert (Cl : forall q d x, 0 <= x < 1 -> closed_uspline q n rep d x = uspline q n rep d x) by (intros q d x0 Hx1; unfold closed_uspline; destruct Req_EM_T as [F|_]; [lra|reflexivity]).
    destruct second; apply rsum_ext; intros dy _; apply rsum_ext; intros dx _; (rewrite !Cl by (rewrite ?Px, ?Py; assumption)); reflexivity. }
  rewrite Ex. split.
  - destruct (C25_div_error close corners M t els Hm ws junk j1 j2 solve Hw Hs p rep A v k e X Y s Hp ltac:(lia) EA Ek C H1 H2) as [B1 B2]. destruct second; [exact B2|exact B1].
  - intros P4. destruct (C25_div_exact close corners M t els Hm ws junk j1 j2 solve Hw Hs p rep A v k e s P4 ltac:(lia) EA Ek H1 H2) as [B1 B2]. destruct second; [exact B2|exact B1].
Qed.
End Mesh.

(** ** examples *)
(** quadratic splines with one interior knot *)
Example C07_unique_case : let knots := [0; 0; 0; 1 / 2; 1; 1; 1] in nondecreasing knots /\
  (forall i, (i < 4)%nat -> nth i knots 0 < nth (i + 2 + 1) knots 0 /\ nth 2 knots 0 < nth (i + 2 + 1) knots 0 /\ nth i knots 0 < nth 4 knots 0).
Proof.
  intros knots. split.
  - intros i j Hij Hj. unfold knots in *. cbn [length] in Hj.
    do 7 (destruct j as [|j]; [do 7 (destruct i as [|i]; [cbn [nth]; first [lra|lia]|]); lia|]). lia.
  - intros i Hi. unfold knots. do 4 (destruct i as [|i]; [cbn [nth Nat.add]; lra|]). lia.
Qed.
(** the constant 1 is a continuous spline, on every surface *)
Lemma closed_partition : forall k n rep x, (1 <= n)%nat -> (1 <= rep)%nat -> 0 <= x <= 1 -> rsum (fun d => closed_uspline k n rep d x) (spline_dim k n rep) = 1.
Proof.
  intros k n rep x Hn Hr Hx1. pose proof (dim_pos k n rep) as Dp. pose proof (nR (k + 1) n rep ltac:(lia) Hn Hr) as Pn. unfold closed_uspline. destruct (Req_EM_T x 1) as [->|Ne].
  - rewrite (rsum_single _ _ (spline_dim k n rep - 1)); [rewrite Nat.eqb_refl; reflexivity|lia|]. intros j Hj Nj. apply Nat.eqb_neq in Nj. rewrite Nj. reflexivity.
  - assert (Ex : exists X s, (X < n)%nat /\ 0 <= s < 1 /\ x = at_el n X s).
    { destruct (archimed (INR n * x)) as [A1 A2]. set (m := (up (INR n * x) - 1)%Z).
      assert (M1 : IZR m <= INR n * x < IZR m + 1) by (unfold m; rewrite minus_IZR; lra).
      assert (Nx : 0 <= INR n * x < INR n) by (split; [apply Rmult_le_pos; lra|rewrite <- (Rmult_1_r (INR n)) at 2; apply Rmult_lt_compat_l; lra]).
      assert (M0 : (0 <= m)%Z) by (assert (-1 < m)%Z by (apply lt_IZR; lra); lia). rewrite <- (Z2Nat.id m M0) in M1. rewrite <- INR_IZR_INZ in M1.
      exists (Z.to_nat m), (INR n * x - INR (Z.to_nat m)). split; [apply INR_lt; lra|]. split; [lra|]. unfold at_el. field. lra. }
    destruct Ex as [X [s [HX [Hs ->]]]].
    rewrite (rsum_ext _ (fun d => bs (tK (k + 1) n rep) (sp (k + 1) rep X) k d (at_el n X s))) by (intros d Hd; apply uspline_piece; assumption).
    pose proof (tK_mono (k + 1) n rep ltac:(lia) Hn Hr) as Mo. rewrite dim_spec in Mo.
    apply (bs_partition _ _ _ _ _ Mo); [|unfold sp; lia| |lia].
    + rewrite (sp_lo (k + 1) n rep), (sp_hi (k + 1) n rep) by lia. apply (at_el_lt (k + 1) n rep ltac:(lia) Hn Hr). lra.
    + unfold sp, spline_dim. assert (Hq : (X * rep <= (n - 1) * rep)%nat) by (apply Nat.mul_le_mono_r; lia). rewrite (Nat.mul_comm rep (n - 1)). lia.
Qed.
Example C64_constant : forall verts p M rep, (1 <= rep)%nat -> continuous_spline verts p (2 ^ M) rep (fun _ => 1).
Proof.
  intros verts p M rep Hr a b x y Ha Hb Ux Uy _. assert (One : forall q z, unit_square z -> patch_spline p p (2 ^ M) rep 0 q (fun _ => 1) z = 1); [|rewrite !One by assumption; reflexivity].
  intros q z [U1 U2]. unfold patch_spline. etransitivity; [|exact (closed_partition p (2 ^ M) rep (snd z) (n_pos M) Hr U2)]. apply rsum_ext. intros dy _.
  rewrite (rsum_ext _ (fun dx => closed_uspline p (2 ^ M) rep dy (snd z) * closed_uspline p (2 ^ M) rep dx (fst z))) by (intros; ring).
  rewrite rsum_scal, (closed_partition p (2 ^ M) rep (fst z) (n_pos M) Hr U1). ring.
Qed.
(** a vector field on the cube with one coefficient inside of a face *)
Example C65_interior : flux_spline cube 2 (2 ^ 1) 1 (fun c => if (c =? 5)%nat then 1 else 0).
Proof.
  set (v := fun c : nat => if (c =? 5)%nat then 1 else 0). intros a b i j u Ha Hb Hi Hj _ Hu Ng. change (length cube) with 6%nat in *.
  assert (Z : forall q k z, (q < 6)%nat -> (k < 4)%nat -> 0 < z < 1 -> (forall m, z <> INR m / INR (2 ^ 1)) -> vector_spline 2 (2 ^ 1) 1 6 q v (normal_comp k) (along k z) = 0).
  { clear. intros q k z Hq Hk Hz Ng. change (2 ^ 1)%nat with 2%nat in *. pose proof (Ng 1%nat) as N1. simpl INR in N1.
    assert (Ex : exists C s, (C < 2)%nat /\ 0 < s < 1 /\ z = at_el 2 C s).
    { unfold at_el. destruct (Rlt_dec z (1 / 2)) as [L|L]; [exists 0%nat, (2 * z)|exists 1%nat, (2 * z - 1)]; simpl INR; (split; [lia|split; [|field]]). lra.
      destruct (Req_dec z (1 / 2)) as [E|E]; [exfalso; apply N1; rewrite E; lra|lra]. }
    destruct Ex as [C [s [HC [Hs ->]]]]. unfold vector_spline.
    destruct (normal_comp k) eqn:Nk.
    - rewrite (edge_spline 1 2 2 1 ltac:(lia) ltac:(lia) _ q v k C s Hk HC Hs). apply rsum_zero. intros d Hd. replace (v _) with 0; [ring|].
      unfold v. rewrite (proj2 (Nat.eqb_neq _ 5)); [reflexivity|]. unfold edge_coef, spline_dof. change (spline_dim 2 2 1) with 4%nat. change (spline_dim (2 - 1) 2 1) with 3%nat. change (spline_dim 1 2 1) with 3%nat. destruct k as [|[|[|k]]]; try discriminate Nk; lia.
    - rewrite (edge_spline 2 1 2 1 ltac:(lia) ltac:(lia) _ q v k C s Hk HC Hs). apply rsum_zero. intros d Hd. replace (v _) with 0; [ring|].
      unfold v. rewrite (proj2 (Nat.eqb_neq _ 5)); [reflexivity|]. unfold edge_coef, spline_dof. change (spline_dim 2 2 1) with 4%nat. change (spline_dim 1 2 1) with 3%nat.
      destruct k as [|[|[|k]]]; try discriminate Nk; lia. }
  rewrite (Z a i u Ha Hi Hu Ng). rewrite (Z b j (1 - u) Hb Hj); [ring|lra|]. intros m E. change (2 ^ 1)%nat with 2%nat in *.
  assert (Hm2 : INR m < INR 2) by (simpl INR in *; lra). apply INR_lt in Hm2. apply (Ng (2 - m)%nat). rewrite minus_INR by lia. simpl INR in *. lra.
Qed.

(* BEGIN ASSUMPTIONS *)
Print Assumptions C07_coefficients_unique.
Print Assumptions C64_contains_all.
Print Assumptions C65_contains_all.
