(** Continuity of discrete functions: traces along the edges of a patch, the glued coefficients. *)
From Coq Require Import Reals Lra Lia Arith Bool List ZArith QArith Qreals Permutation.
From Verif Require Import RSum ModelBase ModelBernstein SpecBernstein ProofBernstein ModelTree ModelGlue SpecMesh SpecGlue ProofGlueMat SpecPatch ProofProjection ModelProj SpecProj
  ProofPiece ProofProj ProofProjMesh SpecForms ModelAnsatz SpecConform ProofConform.
Import ListNotations.
Local Close Scope Q_scope.
Local Open Scope R_scope.

(** *** points of the grid *)
Lemma grid_point : forall C x C' x', INR C + x = INR C' + x' -> 0 <= x <= 1 -> 0 <= x' <= 1 ->
  C = C' /\ x = x' \/ C' = (C + 1)%nat /\ x = 1 /\ x' = 0 \/ C = (C' + 1)%nat /\ x = 0 /\ x' = 1.
Proof.
  intros C x C' x' E Hx Hx'. destruct (lt_eq_lt_dec C C') as [[L|L]|L].
  - right. left. pose proof (le_INR (C + 1) C' ltac:(lia)) as I. rewrite plus_INR in I. simpl in I.
    assert (x = 1) by lra. assert (x' = 0) by lra. split; [|auto]. apply INR_eq. rewrite plus_INR. simpl. lra.
  - left. subst. split; [reflexivity|lra].
  - right. right. pose proof (le_INR (C' + 1) C ltac:(lia)) as I. rewrite plus_INR in I. simpl in I.
    assert (x = 0) by lra. assert (x' = 1) by lra. split; [|auto]. apply INR_eq. rewrite plus_INR. simpl. lra.
Qed.
Lemma first_cell : forall C x, INR C + x = 0 -> 0 <= x -> C = 0%nat /\ x = 0.
Proof. intros C x E H. pose proof (pos_INR C). split; [|lra]. apply INR_eq. simpl. lra. Qed.
Lemma last_cell : forall C x n, (C < n)%nat -> INR C + x = INR n -> x <= 1 -> C = (n - 1)%nat /\ x = 1.
Proof.
  intros C x n L E H. pose proof (le_INR (C + 1) n ltac:(lia)) as I. rewrite plus_INR in I. simpl in I. assert (x = 1) by lra. split; [|assumption].
  assert (C + 1 = n)%nat by (apply INR_eq; rewrite plus_INR; simpl; lra). lia.
Qed.

(** *** the trace as function of the point *)
Section Line.
Variables (p k n rep : nat).
Hypothesis Hk : (p = k \/ p = k + 1)%nat.
Hypothesis Hn : (1 <= n)%nat.
Hypothesis Hr : (1 <= rep)%nat.
Lemma trace1_join : forall u C, (C + 1 < n)%nat -> (rep <= k)%nat -> trace1 p k n rep u C 1 = trace1 p k n rep u (C + 1) 0.
Proof.
  intros u C HC Hrk. unfold trace1. apply rsum_ext. intros d Hd. f_equal. rewrite (sum_at1 p (fun j => keep (cf (k + 1) n rep p C d j))), (sum_at0 p (fun j => keep (cf (k + 1) n rep p (C + 1) d j))).
  f_equal. apply (cf_join (k + 1) n rep ltac:(lia) Hn Hr p ltac:(lia) C d HC); [rewrite dim_spec; exact Hd|lia].
Qed.
Lemma trace1_point : forall u C x C' x', (C < n)%nat -> (C' < n)%nat -> 0 <= x <= 1 -> 0 <= x' <= 1 -> INR C + x = INR C' + x' -> (rep <= k)%nat \/ (x <> 0 /\ x <> 1) ->
  trace1 p k n rep u C x = trace1 p k n rep u C' x'.
Proof.
  intros u C x C' x' HC HC' Hx Hx' E H. destruct (grid_point C x C' x' E Hx Hx') as [[-> ->]|[[-> [-> ->]]|[-> [-> ->]]]]; [reflexivity| |].
  - apply trace1_join; [exact HC'|]. destruct H as [H|[_ H]]; [exact H|congruence].
  - symmetry. apply trace1_join; [exact HC|]. destruct H as [H|[H _]]; [exact H|congruence].
Qed.
Lemma trace1_opposite : forall u u' a C x C' x', (C < n)%nat -> (C' < n)%nat -> 0 <= x <= 1 -> 0 <= x' <= 1 -> INR C + x + (INR C' + x') = INR n ->
  (rep <= k)%nat \/ (x <> 0 /\ x <> 1) -> (forall d d', (d + d' + 1 = spline_dim k n rep)%nat -> u' d' = a * u d) -> trace1 p k n rep u' C' x' = a * trace1 p k n rep u C x.
Proof.
  intros u u' a C x C' x' HC HC' Hx Hx' E H Hu.
  rewrite <- trace1_scal. rewrite <- (trace1_ext p k n rep (fun d => u' (spline_dim k n rep - 1 - d)%nat) (fun d => a * u d)) by (intros d Hd; apply Hu; lia).
  rewrite <- (trace1_reflect p k n rep u' C (n - 1 - C) x Hk Hn Hr) by lia. symmetry. apply trace1_point; try lra; try lia.
  - rewrite !minus_INR by lia. simpl. lra.
  - destruct H as [H|[H1 H2]]; [left; exact H|right; split; lra].
Qed.
End Line.

Section Patch.
Variables (p kx ky n rep P : nat).
Hypothesis Hk : (Nat.max kx ky = p /\ p <= kx + 1 /\ p <= ky + 1)%nat.
Hypothesis Hp : (p <= 19)%nat.
Hypothesis Hn : (1 <= n)%nat.
Hypothesis Hr : (1 <= rep)%nat.
Notation dimx := (spline_dim kx n rep).
Notation dimy := (spline_dim ky n rep).
Notation holds := (holds_cell p kx ky n rep P).
Notation value := (local_value p).
Definition edge_deg (i : nat) : nat := match i with O | 2%nat => kx | _ => ky end.
(** the coefficients on the edges, counter-clockwise *)
Definition edge_coef (off q i d : nat) : nat :=
  match i with
  | O => spline_dof kx ky n rep off q d 0
  | 1%nat => spline_dof kx ky n rep off q (dimx - 1) d
  | 2%nat => spline_dof kx ky n rep off q (dimx - 1 - d) (dimy - 1)
  | _ => spline_dof kx ky n rep off q 0 (dimy - 1 - d)
  end.
Lemma edge_trace : forall A nd r0 off q X Y v s i u, (i < 4)%nat -> holds A nd r0 off q X Y -> unit_square s ->
  ((INR X + fst s) / INR n, (INR Y + snd s) / INR n) = along i u ->
  exists C x, (C < n)%nat /\ 0 <= x <= 1 /\ INR C + x = INR n * u /\ (x = 0 \/ x = 1 -> corner s) /\
    value A nd r0 v s = trace1 p (edge_deg i) n rep (fun d => v (edge_coef off q i d)) C x.
Proof.
  intros A nd r0 off q X Y v [sx sy] i u Hi H [S1 S2] E. cbn [fst snd] in *. assert (Pn : 0 < INR n) by (apply lt_0_INR; lia).
  pose proof H as [_ [_ [HX [HY _]]]]. pose proof (f_equal fst E) as Ex. pose proof (f_equal snd E) as Ey. cbn [fst snd] in Ex, Ey.
  assert (Qx : INR X + sx = INR n * fst (along i u)) by (rewrite <- Ex; field; lra).
  assert (Qy : INR Y + sy = INR n * snd (along i u)) by (rewrite <- Ey; field; lra).
  assert (R2 : forall Z : nat, (Z < n)%nat -> INR (n - 1 - Z) = INR n - 1 - INR Z) by (intros Z HZ; rewrite !minus_INR by lia; reflexivity).
  destruct i as [|[|[|[|i]]]]; [| | | |lia]; cbn [along fst snd edge_deg edge_coef] in *; clear Ex Ey; unfold corner; cbn [fst snd].
  - destruct (first_cell Y sy ltac:(lra) ltac:(lra)) as [-> ->]. exists X, sx. split; [exact HX|]. split; [exact S1|]. split; [exact Qx|]. split; [tauto|].
    apply (end_y p kx ky n rep P Hk Hp Hn Hr A nd r0 off q X 0 v sx 0 0 H). auto.
  - destruct (last_cell X sx n HX ltac:(lra) ltac:(lra)) as [-> ->]. exists Y, sy. split; [exact HY|]. split; [exact S2|]. split; [exact Qy|]. split; [tauto|].
    apply (end_x p kx ky n rep P Hk Hp Hn Hr A nd r0 off q (n - 1) Y v 1 sy (dimx - 1) H). auto.
  - destruct (last_cell Y sy n HY ltac:(lra) ltac:(lra)) as [-> ->]. exists (n - 1 - X)%nat, (1 - sx). split; [lia|]. split; [lra|]. split; [rewrite R2 by exact HX; lra|]. split; [intros [Q|Q]; split; lra|].
    rewrite (end_y p kx ky n rep P Hk Hp Hn Hr A nd r0 off q X (n - 1) v sx 1 (dimy - 1) H) by auto.
    rewrite <- (trace1_reflect p kx n rep (fun d => v (spline_dof kx ky n rep off q d (dimy - 1))) (n - 1 - X) X (1 - sx) ltac:(lia) Hn Hr) by lia. f_equal. ring.
  - destruct (first_cell X sx ltac:(lra) ltac:(lra)) as [-> ->]. exists (n - 1 - Y)%nat, (1 - sy). split; [lia|]. split; [lra|]. split; [rewrite R2 by exact HY; lra|]. split; [intros [Q|Q]; split; lra|].
    rewrite (end_x p kx ky n rep P Hk Hp Hn Hr A nd r0 off q 0 Y v 0 sy 0 H) by auto.
    rewrite <- (trace1_reflect p ky n rep (fun d => v (spline_dof kx ky n rep off q 0 d)) (n - 1 - Y) Y (1 - sy) ltac:(lia) Hn Hr) by lia. f_equal. ring.
Qed.
(** two cells of a row or a column *)
Lemma same_cell : forall A nd r0 r1 off q X Y v s, holds A nd r0 off q X Y -> holds A nd r1 off q X Y -> value A nd r0 v s = value A nd r1 v s.
Proof.
  intros A nd r0 r1 off q X Y v s H0 H1. rewrite (local_value_sum p kx ky n rep P Hk Hp Hn Hr A nd r0 off q X Y v s H0), (local_value_sum p kx ky n rep P Hk Hp Hn Hr A nd r1 off q X Y v s H1). reflexivity.
Qed.
Lemma move_x : forall A nd r0 r1 off q X X' Y v x x' y, (rep <= kx)%nat -> holds A nd r0 off q X Y -> holds A nd r1 off q X' Y ->
  0 <= x <= 1 -> 0 <= x' <= 1 -> INR X + x = INR X' + x' -> value A nd r0 v (x, y) = value A nd r1 v (x', y).
Proof.
  intros A nd r0 r1 off q X X' Y v x x' y Hrk H0 H1 Hx Hx' E. destruct (grid_point X x X' x' E Hx Hx') as [[-> ->]|[[-> [-> ->]]|[-> [-> ->]]]].
  - apply (same_cell A nd r0 r1 off q X' Y v); assumption.
  - apply (join_x p kx ky n rep P Hk Hp Hn Hr A nd r0 r1 off q X Y); assumption.
  - symmetry. apply (join_x p kx ky n rep P Hk Hp Hn Hr A nd r1 r0 off q X' Y); assumption.
Qed.
Lemma move_y : forall A nd r0 r1 off q X Y Y' v x y y', (rep <= ky)%nat -> holds A nd r0 off q X Y -> holds A nd r1 off q X Y' ->
  0 <= y <= 1 -> 0 <= y' <= 1 -> INR Y + y = INR Y' + y' -> value A nd r0 v (x, y) = value A nd r1 v (x, y').
Proof.
  intros A nd r0 r1 off q X Y Y' v x y y' Hrk H0 H1 Hx Hx' E. destruct (grid_point Y y Y' y' E Hx Hx') as [[-> ->]|[[-> [-> ->]]|[-> [-> ->]]]].
  - apply (same_cell A nd r0 r1 off q X Y' v); assumption.
  - apply (join_y p kx ky n rep P Hk Hp Hn Hr A nd r0 r1 off q X Y); assumption.
  - symmetry. apply (join_y p kx ky n rep P Hk Hp Hn Hr A nd r1 r0 off q X Y'); assumption.
Qed.
End Patch.

(** *** the glue matrix *)
Definition glued_vector (trips : list triplet) (post : nat) (w : arr) : arr := fun j => rsum (fun c => glue_entry trips j c * w c) post.
Lemma glue_entry_row : forall trips j c v, NoDup (map (fun t : triplet => fst (fst t)) trips) -> In (j, c, v) trips -> forall c', glue_entry trips j c' = if (c =? c')%nat then IZR v else 0.
Proof.
  induction trips as [|[[r d] z] l IH]; intros j c v ND I c'; [destruct I|]. cbn [map fst] in ND. inversion ND as [|? ? N1 N2]; subst.
  unfold glue_entry in *. cbn [fold_right fst snd]. destruct I as [I|I].
  - injection I as -> -> ->. rewrite Nat.eqb_refl. cbn [andb].
    assert (Z : fold_right (fun (t : nat * nat * Z) acc => (if ((fst (fst t) =? j) && (snd (fst t) =? c'))%nat then IZR (snd t) else 0) + acc) 0 l = 0).
    { clear -N1. induction l as [|[[r d] z] l IH]; [reflexivity|]. cbn [map fst In] in N1. cbn [fold_right fst snd]. rewrite IH by tauto. destruct (Nat.eqb_spec r j); [tauto|]. cbn [andb]. ring. }
    rewrite Z. destruct (c =? c')%nat; ring.
  - assert (Ne : r <> j). { intros ->. apply N1. apply in_map_iff. exists (j, c, v). auto. }
    apply Nat.eqb_neq in Ne. rewrite Ne. cbn [andb]. rewrite (IH j c v N2 I c'). ring.
Qed.
Lemma glued_value : forall pre post ids trips w j c v, glues pre post ids trips -> In (j, c, v) trips -> glued_vector trips post w j = IZR v * w c.
Proof.
  intros pre post ids trips w j c v G I. assert (ND : NoDup (map (fun t : triplet => fst (fst t)) trips)) by (eapply Permutation_NoDup; [apply Permutation_sym, (gl_rows _ _ _ _ G)|apply seq_NoDup]).
  unfold glued_vector. assert (Hc : (c < post)%nat) by (apply (gl_cols _ _ _ _ G); eauto).
  rewrite (rsum_single _ post c Hc).
  - rewrite (glue_entry_row trips j c v ND I c), Nat.eqb_refl. reflexivity.
  - intros c' Hc' Ne. rewrite (glue_entry_row trips j c v ND I c'). destruct (Nat.eqb_spec c c'); [congruence|ring].
Qed.
Lemma has_row : forall pre post ids trips j, glues pre post ids trips -> (j < pre)%nat -> exists c v, In (j, c, v) trips.
Proof.
  intros pre post ids trips j G Hj. assert (I : In j (map (fun t : triplet => fst (fst t)) trips)) by (eapply Permutation_in; [apply Permutation_sym, (gl_rows _ _ _ _ G)|apply in_seq; lia]).
  apply in_map_iff in I. destruct I as [[[r c] v] [E I]]. cbn [fst] in E. subst r. eauto.
Qed.
(** dofs of a group have the same value, up to the sign for the later ones *)
Lemma glued_same : forall pre post ids trips w x y, glues pre post ids trips -> (forall r c v, In (r, c, v) trips -> v = 1%Z) -> (x < pre)%nat -> (y < pre)%nat ->
  same_group ids x y -> glued_vector trips post w x = glued_vector trips post w y.
Proof.
  intros pre post ids trips w x y G One Hx Hy S. destruct (has_row _ _ _ _ x G Hx) as [c [v I]]. destruct (has_row _ _ _ _ y G Hy) as [c' [v' I']].
  rewrite (glued_value _ _ _ _ w x c v G I), (glued_value _ _ _ _ w y c' v' G I'). rewrite (One _ _ _ I), (One _ _ _ I').
  assert (c = c') by (apply (gl_same _ _ _ _ G _ _ _ _ _ _ I I'); right; exact S). subst. reflexivity.
Qed.
Lemma glued_pair : forall pre post ids trips w x y v, glues pre post ids trips -> groups_ok pre ids -> In ([x; y], v) ids ->
  glued_vector trips post w y = IZR v * glued_vector trips post w x.
Proof.
  intros pre post ids trips w x y v G K I.
  assert (Hx : (x < pre)%nat) by (apply (gk_lt _ _ K _ _ I); left; reflexivity). assert (Hy : (y < pre)%nat) by (apply (gk_lt _ _ K _ _ I); right; left; reflexivity).
  destruct (has_row _ _ _ _ x G Hx) as [c [a Ix]]. destruct (has_row _ _ _ _ y G Hy) as [c' [a' Iy]].
  rewrite (glued_value _ _ _ _ w x c a G Ix), (glued_value _ _ _ _ w y c' a' G Iy).
  assert (c = c') by (apply (gl_same _ _ _ _ G _ _ _ _ _ _ Ix Iy); right; exists ([x; y], v); cbn; auto). subst c'.
  assert (a' = v) by (apply (gl_coef _ _ _ _ G y c a' _ Iy I); left; reflexivity). subst a'.
  assert (Ns : ~ slave ids x).
  { intros [g [Ig Hg]]. assert (H : In x (fst g)) by (destruct (fst g); [exact Hg|right; exact Hg]).
    pose proof (gk_disjoint _ _ K) as ND. assert (g = ([x; y], v)) by (apply (group_unique ids g _ x ND Ig I H); left; reflexivity).
    subst g. cbn in Hg. destruct Hg as [<-|[]]. pose proof (group_nodup ids _ ND I) as N2. cbn [fst] in N2. inversion N2 as [|? ? N1 _]; subst. apply N1. left. reflexivity. }
  rewrite (gl_one _ _ _ _ G x c a Ix Ns). ring.
Qed.
(** the transformation matrix *)
Lemma product_value : forall A G S, product A G = Some S -> exists trips, G = (sm_cols A, as_cols S, trips) /\ as_rows S = sm_rows A /\
  forall r w, rsum (fun c => as_T S r c * w c) (as_cols S) = rsum (fun j => sm_entry A r j * glued_vector trips (as_cols S) w j) (sm_cols A).
Proof.
  intros A [[rows cols] trips] S H. unfold product in H. destruct (Nat.eqb_spec (sm_cols A) rows) as [<-|]; [|discriminate]. cbn [assert bind] in H. injection H as <-.
  exists trips. cbn [as_cols as_rows as_T]. split; [reflexivity|]. split; [reflexivity|]. intros r w. unfold glued_vector.
  rewrite (rsum_ext _ (fun c => rsum (fun j => sm_entry A r j * glue_entry trips j c * w c) (sm_cols A))) by (intros; rewrite <- rsum_scal_r; reflexivity).
  rewrite rsum_swap. apply rsum_ext. intros j _. rewrite <- rsum_scal. apply rsum_ext. intros; ring.
Qed.
