(** C25: the projector from B-splines to the local polynomials of the elements. *)
From Coq Require Import Reals Lra Lia Arith Bool List QArith Qreals Permutation.
From Verif Require Import RSum ModelBase ModelBernstein SpecBernstein ProofBernstein ModelKnots ProofKnots ModelTree SpecTree ProofTreeWF ProofTree ProofTreeHist
  ModelDeBoor SpecDeBoor ProofDeBoor SpecInterp SpecPatch ProofProjection SpecForms PropTree PropAssembly PropForms ModelProj SpecProj ProofPiece ProofProj ProofProjMesh.
Import ListNotations.
Local Close Scope Q_scope.
Local Open Scope R_scope.

Section Mesh.
Context {Pt : Type} (close : Pt -> Pt -> bool) (corners : list (list Pt)) (M : nat) (t : tree) (els : list node).
Hypothesis Hm : uniform_mesh close corners M t els.
(** uninitialised memory, the work space of the spline evaluation and Eigen's solver *)
Variables (ws : list R) (junk : mat) (j1 j2 : arr) (solve : nat -> mat -> arr -> arr).
Hypothesis Hw : (20 <= length ws)%nat.
Hypothesis Hs : good_solve solve.
Notation n := (2 ^ M)%nat.
Notation P := (length corners).

Lemma cell_point : forall e X Y s, at_cell n e X Y -> (INR X + fst s) / INR n = Q2R (fst (n_llc e)) + Q2R (get_h e) * fst s /\ (INR Y + snd s) / INR n = Q2R (snd (n_llc e)) + Q2R (get_h e) * snd s.
Proof. intros e X Y s [_ [_ [-> [-> ->]]]]. assert (0 < INR n) by (apply lt_0_INR; pose proof (n_pos M); lia). split; field; lra. Qed.
Lemma h_pos : forall e X Y, at_cell n e X Y -> 0 < Q2R (get_h e).
Proof. intros e X Y [_ [_ [_ [_ ->]]]]. apply Rinv_0_lt_compat. apply lt_0_INR. pose proof (n_pos M). lia. Qed.

(** *** scalar spaces *)
Lemma disc_run : forall p rep, (p <= 19)%nat -> (1 <= rep)%nat -> exists A, projector_discontinuous ws junk j1 j2 solve p M P rep els = Some A
  /\ sm_rows A = ((p + 1) * (p + 1) * (P * 4 ^ M))%nat /\ sm_cols A = (P * (spline_dim p n (Nat.min rep (p + 1)) * spline_dim p n (Nat.min rep (p + 1))))%nat
  /\ (forall tr, In tr (sm_trips A) -> (fst (fst tr) < sm_rows A)%nat /\ (snd (fst tr) < sm_cols A)%nat /\ projector_tolerance < Rabs (snd tr))
  /\ (forall k e X Y, nth_error els k = Some e -> at_cell n e X Y -> holds_cell p p p n (Nat.min rep (p + 1)) P (sm_entry A) (sm_cols A) (k * ((p + 1) * (p + 1))) 0 (n_patch e) X Y).
Proof.
  intros p rep Hp Hr. destruct (run_facts close corners M t els Hm ws junk j1 j2 solve p p p rep ltac:(lia) Hp Hr Hw Hs) as [l [E [T [V _]]]].
  rewrite used_rep_same in *. unfold projector_discontinuous. rewrite E. cbn [bind pi_dc pi_c pi_trips].
  assert (P4 : (4 ^ M = n * n)%nat) by (rewrite <- Nat.pow_mul_l; reflexivity).
  unfold set_from_triplets.
  assert (F : forallb (in_range ((p + 1) * (p + 1) * n * n * P) (spline_dim p n (Nat.min rep (p + 1)) * spline_dim p n (Nat.min rep (p + 1)) * P)) l = true).
  { apply forallb_forall. intros tr Ht. destruct (T tr Ht) as [A1 [A2 _]]. unfold in_range. apply andb_true_intro. split; apply Nat.ltb_lt; assumption. }
  rewrite F. cbn [assert bind]. eexists. split; [reflexivity|]. cbn [sm_rows sm_cols sm_trips].
  split; [rewrite P4; ring|]. split; [ring|]. split; [exact T|]. exact V.
Qed.
Lemma cont_run : forall p rep, (1 <= p)%nat -> (rep <= p)%nat -> projector_continuous ws junk j1 j2 solve p M P rep els = projector_discontinuous ws junk j1 j2 solve p M P rep els.
Proof.
  intros p rep H1 H2. unfold projector_continuous. apply Nat.leb_le in H1. apply Nat.leb_le in H2. rewrite H1, H2. reflexivity.
Qed.

(** The matrix is defined for every degree the library supports, with one row for every local polynomial of every element and
    one column for every B-spline of every patch; stored values are larger than the tolerance. *)
Theorem C25_discontinuous_defined : forall p rep, (p <= 19)%nat -> (1 <= rep)%nat -> exists A, projector_discontinuous ws junk j1 j2 solve p M P rep els = Some A
  /\ sm_rows A = ((p + 1) * (p + 1) * (P * 4 ^ M))%nat /\ sm_cols A = (P * (spline_dim p n (Nat.min rep (p + 1)) * spline_dim p n (Nat.min rep (p + 1))))%nat
  /\ (forall r c v, In (r, c, v) (sm_trips A) -> (r < sm_rows A)%nat /\ (c < sm_cols A)%nat /\ 1 / 10000 < Rabs v).
Proof.
  intros p rep Hp Hr. destruct (disc_run p rep Hp Hr) as [A [E [R1 [R2 [T _]]]]]. exists A. split; [exact E|]. split; [exact R1|]. split; [exact R2|].
  intros r c v Ht. exact (T (r, c, v) Ht).
Qed.
Theorem C25_continuous_defined : forall p rep, (1 <= rep <= p)%nat -> (p <= 19)%nat -> exists A, projector_continuous ws junk j1 j2 solve p M P rep els = Some A
  /\ sm_rows A = ((p + 1) * (p + 1) * (P * 4 ^ M))%nat /\ sm_cols A = (P * (spline_dim p n rep * spline_dim p n rep))%nat
  /\ (forall r c v, In (r, c, v) (sm_trips A) -> (r < sm_rows A)%nat /\ (c < sm_cols A)%nat /\ 1 / 10000 < Rabs v).
Proof.
  intros p rep Hr Hp. rewrite cont_run by lia. destruct (C25_discontinuous_defined p rep Hp ltac:(lia)) as [A H]. rewrite Nat.min_l in H by lia. exists A. exact H.
Qed.

(** Up to degree 4, the coefficient vector v describes on every element the tensor product spline with these coefficients
    (divided by the width of the element, as all discrete functions). *)
Theorem C25_discontinuous_exact : forall p rep A v k e s, (p <= 4)%nat -> (1 <= rep)%nat ->
  projector_discontinuous ws junk j1 j2 solve p M P rep els = Some A -> nth_error els k = Some e -> 0 <= fst s < 1 -> 0 <= snd s < 1 ->
  Q2R (get_h e) * discrete_value p (P * 4 ^ M) (sm_cols A) (sm_entry A) v 0 k (Q2R (get_h e)) s
  = tensor_spline p p n (Nat.min rep (p + 1)) 0 (n_patch e) v (Q2R (fst (n_llc e)) + Q2R (get_h e) * fst s) (Q2R (snd (n_llc e)) + Q2R (get_h e) * snd s).
Proof.
  intros p rep A v k e s Hp Hr E Ek H1 H2. destruct (disc_run p rep ltac:(lia) Hr) as [A' [E' [_ [_ [_ V]]]]]. rewrite E in E'. injection E' as <-.
  destruct (mesh_cells close corners M t els Hm e (nth_error_In _ _ Ek)) as [[X [Y C]] _]. pose proof (h_pos e X Y C) as Ph.
  destruct (cell_point e X Y s C) as [<- <-].
  rewrite <- (value_exact p p p n (Nat.min rep (p + 1)) P ltac:(lia) ltac:(lia) (n_pos M) ltac:(lia) (sm_entry A) (sm_cols A) _ 0 (n_patch e) X Y v s Hp (V k e X Y Ek C) H1 H2).
  unfold discrete_value, local_coefficient, tensor_bernstein. cbn [Nat.mul Nat.add]. field. lra.
Qed.
(** In general the difference is at most 1/10000 times the sum of the coefficients belonging to the element. *)
Theorem C25_discontinuous_error : forall p rep A v k e X Y s, (p <= 19)%nat -> (1 <= rep)%nat ->
  projector_discontinuous ws junk j1 j2 solve p M P rep els = Some A -> nth_error els k = Some e -> at_cell n e X Y -> 0 <= fst s < 1 -> 0 <= snd s < 1 ->
  Rabs (Q2R (get_h e) * discrete_value p (P * 4 ^ M) (sm_cols A) (sm_entry A) v 0 k (Q2R (get_h e)) s
   - tensor_spline p p n (Nat.min rep (p + 1)) 0 (n_patch e) v (Q2R (fst (n_llc e)) + Q2R (get_h e) * fst s) (Q2R (snd (n_llc e)) + Q2R (get_h e) * snd s))
  <= 1 / 10000 * active_coefficients p p n (Nat.min rep (p + 1)) 0 (n_patch e) v X Y.
Proof.
  intros p rep A v k e X Y s Hp Hr E Ek C H1 H2. destruct (disc_run p rep ltac:(lia) Hr) as [A' [E' [_ [_ [_ V]]]]]. rewrite E in E'. injection E' as <-.
  pose proof (h_pos e X Y C) as Ph. destruct (cell_point e X Y s C) as [<- <-].
  eapply Rle_trans; [|apply (value_error p p p n (Nat.min rep (p + 1)) P ltac:(lia) ltac:(lia) (n_pos M) ltac:(lia) (sm_entry A) (sm_cols A) _ 0 (n_patch e) X Y v s (V k e X Y Ek C) H1 H2)].
  right. f_equal. f_equal. unfold discrete_value, local_coefficient, tensor_bernstein. cbn [Nat.mul Nat.add]. field. lra.
Qed.
Theorem C25_continuous_exact : forall p rep A v k e s, (p <= 4)%nat -> (1 <= rep)%nat ->
  projector_continuous ws junk j1 j2 solve p M P rep els = Some A -> nth_error els k = Some e -> 0 <= fst s < 1 -> 0 <= snd s < 1 ->
  Q2R (get_h e) * discrete_value p (P * 4 ^ M) (sm_cols A) (sm_entry A) v 0 k (Q2R (get_h e)) s
  = tensor_spline p p n rep 0 (n_patch e) v (Q2R (fst (n_llc e)) + Q2R (get_h e) * fst s) (Q2R (snd (n_llc e)) + Q2R (get_h e) * snd s).
Proof.
  intros p rep A v k e s Hp Hr E Ek H1 H2. unfold projector_continuous in E. apply bind_some in E. destruct E as [[] [_ E]]. apply bind_some in E. destruct E as [[] [Q E]].
  unfold assert in Q. destruct (Nat.leb_spec rep p) as [L|L]; [|discriminate]. rewrite (C25_discontinuous_exact p rep A v k e s Hp Hr E Ek H1 H2). rewrite Nat.min_l by lia. reflexivity.
Qed.
Theorem C25_continuous_error : forall p rep A v k e X Y s, (p <= 19)%nat -> (1 <= rep)%nat ->
  projector_continuous ws junk j1 j2 solve p M P rep els = Some A -> nth_error els k = Some e -> at_cell n e X Y -> 0 <= fst s < 1 -> 0 <= snd s < 1 ->
  Rabs (Q2R (get_h e) * discrete_value p (P * 4 ^ M) (sm_cols A) (sm_entry A) v 0 k (Q2R (get_h e)) s
   - tensor_spline p p n rep 0 (n_patch e) v (Q2R (fst (n_llc e)) + Q2R (get_h e) * fst s) (Q2R (snd (n_llc e)) + Q2R (get_h e) * snd s))
  <= 1 / 10000 * active_coefficients p p n rep 0 (n_patch e) v X Y.
Proof.
  intros p rep A v k e X Y s Hp Hr E Ek C H1 H2. unfold projector_continuous in E. apply bind_some in E. destruct E as [[] [_ E]]. apply bind_some in E. destruct E as [[] [Q E]].
  unfold assert in Q. destruct (Nat.leb_spec rep p) as [L|L]; [|discriminate]. pose proof (C25_discontinuous_error p rep A v k e X Y s Hp Hr E Ek C H1 H2) as G. rewrite Nat.min_l in G by lia. exact G.
Qed.

(** *** vector fields: degrees (p, p - 1) for the first component, (p - 1, p) for the second one *)
Lemma div_run : forall p rep, (1 <= rep <= p)%nat -> (p <= 19)%nat -> exists A, projector_div ws junk j1 j2 solve p M P rep els = Some A
  /\ sm_rows A = (2 * ((p + 1) * (p + 1) * (P * 4 ^ M)))%nat /\ sm_cols A = (2 * (P * (spline_dim p n rep * spline_dim (p - 1) n rep)))%nat
  /\ (forall tr, In tr (sm_trips A) -> (fst (fst tr) < sm_rows A)%nat /\ (snd (fst tr) < sm_cols A)%nat /\ projector_tolerance < Rabs (snd tr))
  /\ (forall k e X Y, nth_error els k = Some e -> at_cell n e X Y ->
       holds_cell p p (p - 1) n rep P (sm_entry A) (sm_cols A) (k * ((p + 1) * (p + 1))) 0 (n_patch e) X Y /\
       holds_cell p (p - 1) p n rep P (sm_entry A) (sm_cols A) ((P * 4 ^ M + k) * ((p + 1) * (p + 1))) (P * (spline_dim p n rep * spline_dim (p - 1) n rep)) (n_patch e) X Y).
Proof.
  intros p rep Hr Hp. destruct (run_facts close corners M t els Hm ws junk j1 j2 solve p p (p - 1) rep ltac:(lia) Hp ltac:(lia) Hw Hs) as [l1 [E1 [T1 [V1 [L1 [C1 [N1 W1]]]]]]].
  destruct (run_facts close corners M t els Hm ws junk j1 j2 solve p (p - 1) p rep ltac:(lia) Hp ltac:(lia) Hw Hs) as [l2 [E2 [T2 [V2 [L2 [C2 [N2 W2]]]]]]].
  rewrite used_rep_le in * by lia. replace (p - 1 + 1)%nat with p in * by lia.
  assert (Sz : length l1 = length l2) by (rewrite C1, C2; apply (sizes_agree close corners M t els rep (p + 1) p (p + 1) L1 L2 Hm ltac:(lia) N1 N2 W1 W2)).
  clear L1 L2 C1 C2 N1 N2 W1 W2.
  assert (P4 : (4 ^ M = n * n)%nat) by (rewrite <- Nat.pow_mul_l; reflexivity).
  set (dl := spline_dim p n rep) in *. set (ds := spline_dim (p - 1) n rep) in *. set (mp2 := ((p + 1) * (p + 1))%nat) in *.
  set (dc := (mp2 * n * n * P)%nat) in *. assert (Dc : dc = (P * 4 ^ M * mp2)%nat) by (unfold dc; rewrite P4; ring).
  set (off := (P * (dl * ds))%nat). replace (dl * ds * P)%nat with off in * by (unfold off; ring). replace (ds * dl * P)%nat with off in * by (unfold off; ring).
  set (sh := fun tr : nat * nat * R => ((fst (fst tr) + dc)%nat, (snd (fst tr) + off)%nat, snd tr)).
  assert (In12 : forall tr, In tr (l1 ++ map sh l2) -> (fst (fst tr) < dc + dc)%nat /\ (snd (fst tr) < off + off)%nat /\ projector_tolerance < Rabs (snd tr)).
  { intros tr Ht. apply in_app_iff in Ht. destruct Ht as [Ht|Ht].
    - destruct (T1 tr Ht) as [A1 [A2 A3]]. repeat split; try assumption; lia.
    - apply in_map_iff in Ht. destruct Ht as [tr' [<- Ht]]. destruct (T2 tr' Ht) as [A1 [A2 A3]]. unfold sh. cbn [fst snd]. repeat split; try assumption; lia. }
  exists (mkSM (dc + dc) (off + off) (l1 ++ map sh l2)). split; [|split; [|split; [|split]]].
  - unfold projector_div. assert (B1 : (1 <=? p)%nat = true) by (apply Nat.leb_le; lia). assert (B2 : (rep <=? p)%nat = true) by (apply Nat.leb_le; lia). rewrite B1, B2. cbn [assert bind].
    rewrite E1, E2. cbn [bind pi_trips pi_dc pi_c]. rewrite Sz, Nat.eqb_refl. cbn [assert bind]. unfold set_from_triplets. fold sh.
    assert (F : forallb (in_range (dc + dc) (off + off)) (l1 ++ map sh l2) = true).
    { apply forallb_forall. intros tr Ht. destruct (In12 tr Ht) as [A1 [A2 _]]. unfold in_range. apply andb_true_intro. split; apply Nat.ltb_lt; assumption. }
    rewrite F. reflexivity.
  - cbn [sm_rows]. rewrite Dc. ring.
  - cbn [sm_cols]. lia.
  - exact In12.
  - cbn [sm_cols]. change (sm_entry (mkSM (dc + dc) (off + off) (l1 ++ map sh l2))) with (esum (l1 ++ map sh l2)). intros k e X Y Ek C.
    assert (Lk : (k < P * 4 ^ M)%nat) by (destruct (mesh_grid close corners M t els Hm) as [_ [Le _]]; rewrite <- Le; apply nth_error_Some; congruence).
    assert (Row : forall i, (i < mp2)%nat -> (k * mp2 + i < dc)%nat).
    { intros i Hi. rewrite Dc. assert ((k + 1) * mp2 <= P * 4 ^ M * mp2)%nat by (apply Nat.mul_le_mono_r; lia). lia. }
    assert (S1 : forall r c, (r < dc)%nat -> esum (l1 ++ map sh l2) r c = esum l1 r c).
    { intros r c Hrow. rewrite esum_app, (esum_zero (map sh l2)); [ring|]. intros tr Ht. apply in_map_iff in Ht. destruct Ht as [tr' [<- _]]. left. unfold sh. cbn [fst]. lia. }
    assert (S2 : forall r c, esum (l1 ++ map sh l2) (dc + r) (off + c) = esum l2 r c).
    { intros r c. rewrite esum_app, (esum_zero l1) by (intros tr Ht; left; destruct (T1 tr Ht); lia). rewrite Rplus_0_l. clear. induction l2 as [|tr l IH]; [reflexivity|].
      cbn [map]. unfold esum in *. cbn [fold_right]. rewrite IH. f_equal. unfold sh. cbn [fst snd].
      replace (fst (fst tr) + dc =? dc + r)%nat with (fst (fst tr) =? r)%nat by (destruct (Nat.eqb_spec (fst (fst tr)) r), (Nat.eqb_spec (fst (fst tr) + dc) (dc + r)); lia || reflexivity).
      replace (snd (fst tr) + off =? off + c)%nat with (snd (fst tr) =? c)%nat by (destruct (Nat.eqb_spec (snd (fst tr)) c), (Nat.eqb_spec (snd (fst tr) + off) (off + c)); lia || reflexivity). reflexivity. }
    assert (S3 : forall r c, (c < off)%nat -> esum (l1 ++ map sh l2) (dc + r) c = 0).
    { intros r c Hc. apply esum_zero. intros tr Ht. apply in_app_iff in Ht. destruct Ht as [Ht|Ht]; [left; destruct (T1 tr Ht); lia|].
      apply in_map_iff in Ht. destruct Ht as [tr' [<- _]]. right. unfold sh. cbn [fst snd]. lia. }
    destruct (V1 k e X Y Ek C) as [_ [Hq [HX [HY [Va Vb]]]]]. destruct (V2 k e X Y Ek C) as [_ [_ [_ [_ [Ua Ub]]]]]. fold mp2 in Va, Vb, Ua, Ub.
    split; unfold holds_cell; fold mp2; fold dl ds.
    + replace (dl * ds * P)%nat with off by (unfold off; ring). repeat (split; [lia || assumption|]). split.
      * intros i dx dy Hi Hdx Hdy. rewrite S1 by (apply Row; exact Hi). apply Va; assumption.
      * intros i j Hi Hj Ne. rewrite S1 by (apply Row; exact Hi). destruct (lt_dec j off) as [Lj|Lj]; [apply Vb; assumption|].
        apply esum_zero. intros tr Ht. right. destruct (T1 tr Ht). lia.
    + replace (ds * dl * P)%nat with off by (unfold off; ring). repeat (split; [lia || assumption|]).
      replace ((P * 4 ^ M + k) * mp2)%nat with (dc + k * mp2)%nat by (rewrite Dc; ring). split.
      * intros i dx dy Hi Hdx Hdy. rewrite dof_off, <- Nat.add_assoc, S2. apply Ua; assumption.
      * intros i j Hi Hj Ne. rewrite <- Nat.add_assoc. destruct (lt_dec j off) as [Lj|Lj]; [apply S3; exact Lj|].
        replace j with (off + (j - off))%nat by lia. rewrite S2. apply Ub; [exact Hi|lia|]. intros dx dy Hdx Hdy Q. apply (Ne dx dy Hdx Hdy). rewrite dof_off. lia.
Qed.
(** The assertion that both components have equally many entries always holds. *)
Theorem C25_div_defined : forall p rep, (1 <= rep <= p)%nat -> (p <= 19)%nat -> exists A, projector_div ws junk j1 j2 solve p M P rep els = Some A
  /\ sm_rows A = (2 * ((p + 1) * (p + 1) * (P * 4 ^ M)))%nat /\ sm_cols A = (2 * (P * (spline_dim p n rep * spline_dim (p - 1) n rep)))%nat
  /\ (forall r c v, In (r, c, v) (sm_trips A) -> (r < sm_rows A)%nat /\ (c < sm_cols A)%nat /\ 1 / 10000 < Rabs v).
Proof.
  intros p rep Hr Hp. destruct (div_run p rep Hr Hp) as [A [E [R1 [R2 [T _]]]]]. exists A. split; [exact E|]. split; [exact R1|]. split; [exact R2|].
  intros r c v Ht. exact (T (r, c, v) Ht).
Qed.
Lemma div_assumed : forall p rep A, projector_div ws junk j1 j2 solve p M P rep els = Some A -> (1 <= p /\ rep <= p)%nat.
Proof.
  intros p rep A E. unfold projector_div in E. apply bind_some in E. destruct E as [[] [Q1 E]]. apply bind_some in E. destruct E as [[] [Q2 _]]. unfold assert in Q1, Q2.
  destruct (Nat.leb_spec 1 p); [|discriminate]. destruct (Nat.leb_spec rep p); [|discriminate]. split; assumption.
Qed.
(** the number of the first coefficient of the second component *)
Definition second_component (p rep : nat) : nat := P * (spline_dim p n rep * spline_dim (p - 1) n rep).
Theorem C25_div_exact : forall p rep A v k e s, (p <= 4)%nat -> (1 <= rep)%nat ->
  projector_div ws junk j1 j2 solve p M P rep els = Some A -> nth_error els k = Some e -> 0 <= fst s < 1 -> 0 <= snd s < 1 ->
  Q2R (get_h e) * discrete_value p (P * 4 ^ M) (sm_cols A) (sm_entry A) v 0 k (Q2R (get_h e)) s
  = tensor_spline p (p - 1) n rep 0 (n_patch e) v (Q2R (fst (n_llc e)) + Q2R (get_h e) * fst s) (Q2R (snd (n_llc e)) + Q2R (get_h e) * snd s) /\
  Q2R (get_h e) * discrete_value p (P * 4 ^ M) (sm_cols A) (sm_entry A) v 1 k (Q2R (get_h e)) s
  = tensor_spline (p - 1) p n rep (second_component p rep) (n_patch e) v (Q2R (fst (n_llc e)) + Q2R (get_h e) * fst s) (Q2R (snd (n_llc e)) + Q2R (get_h e) * snd s).
Proof.
  intros p rep A v k e s Hp Hr E Ek H1 H2. destruct (div_assumed p rep A E) as [P1 P2]. destruct (div_run p rep ltac:(lia) ltac:(lia)) as [A' [E' [_ [_ [_ V]]]]]. rewrite E in E'. injection E' as <-.
  destruct (mesh_cells close corners M t els Hm e (nth_error_In _ _ Ek)) as [[X [Y C]] _]. pose proof (h_pos e X Y C) as Ph.
  destruct (cell_point e X Y s C) as [<- <-]. destruct (V k e X Y Ek C) as [V1 V2].
  rewrite <- (value_exact p p (p - 1) n rep P ltac:(lia) ltac:(lia) (n_pos M) ltac:(lia) (sm_entry A) (sm_cols A) _ 0 (n_patch e) X Y v s Hp V1 H1 H2).
  unfold second_component. rewrite <- (value_exact p (p - 1) p n rep P ltac:(lia) ltac:(lia) (n_pos M) ltac:(lia) (sm_entry A) (sm_cols A) _ _ (n_patch e) X Y v s Hp V2 H1 H2).
  unfold discrete_value, local_coefficient, tensor_bernstein. rewrite Nat.mul_1_l. cbn [Nat.mul Nat.add]. split; field; lra.
Qed.
Theorem C25_div_error : forall p rep A v k e X Y s, (p <= 19)%nat -> (1 <= rep)%nat ->
  projector_div ws junk j1 j2 solve p M P rep els = Some A -> nth_error els k = Some e -> at_cell n e X Y -> 0 <= fst s < 1 -> 0 <= snd s < 1 ->
  Rabs (Q2R (get_h e) * discrete_value p (P * 4 ^ M) (sm_cols A) (sm_entry A) v 0 k (Q2R (get_h e)) s
   - tensor_spline p (p - 1) n rep 0 (n_patch e) v (Q2R (fst (n_llc e)) + Q2R (get_h e) * fst s) (Q2R (snd (n_llc e)) + Q2R (get_h e) * snd s))
  <= 1 / 10000 * active_coefficients p (p - 1) n rep 0 (n_patch e) v X Y /\
  Rabs (Q2R (get_h e) * discrete_value p (P * 4 ^ M) (sm_cols A) (sm_entry A) v 1 k (Q2R (get_h e)) s
   - tensor_spline (p - 1) p n rep (second_component p rep) (n_patch e) v (Q2R (fst (n_llc e)) + Q2R (get_h e) * fst s) (Q2R (snd (n_llc e)) + Q2R (get_h e) * snd s))
  <= 1 / 10000 * active_coefficients (p - 1) p n rep (second_component p rep) (n_patch e) v X Y.
Proof.
  intros p rep A v k e X Y s Hp Hr E Ek C H1 H2. destruct (div_assumed p rep A E) as [P1 P2]. destruct (div_run p rep ltac:(lia) ltac:(lia)) as [A' [E' [_ [_ [_ V]]]]]. rewrite E in E'. injection E' as <-.
  pose proof (h_pos e X Y C) as Ph. destruct (cell_point e X Y s C) as [<- <-]. destruct (V k e X Y Ek C) as [V1 V2]. split.
  - eapply Rle_trans; [|apply (value_error p p (p - 1) n rep P ltac:(lia) ltac:(lia) (n_pos M) ltac:(lia) (sm_entry A) (sm_cols A) _ 0 (n_patch e) X Y v s V1 H1 H2)].
    right. f_equal. f_equal. unfold discrete_value, local_coefficient, tensor_bernstein. cbn [Nat.mul Nat.add]. field. lra.
  - unfold second_component. eapply Rle_trans; [|apply (value_error p (p - 1) p n rep P ltac:(lia) ltac:(lia) (n_pos M) ltac:(lia) (sm_entry A) (sm_cols A) _ _ (n_patch e) X Y v s V2 H1 H2)].
    right. f_equal. f_equal. unfold discrete_value, local_coefficient, tensor_bernstein. rewrite Nat.mul_1_l. field. lra.
Qed.

(** *** degrees from 5 on: coefficients below the tolerance are lost *)
Lemma corner_element : forall q, (q < P)%nat -> exists k e, nth_error els k = Some e /\ at_cell n e 0 0 /\ n_patch e = q.
Proof.
  intros q Hq. destruct (mesh_grid close corners M t els Hm) as [pos [Le [Pm Hc]]]. pose proof (n_pos M) as Hn.
  assert (P4 : (4 ^ M = n * n)%nat) by (rewrite <- Nat.pow_mul_l; reflexivity).
  assert (I : In (q * n * n)%nat (seq 0 (P * 4 ^ M))).
  { apply in_seq. rewrite P4. assert ((q + 1) * (n * n) <= P * (n * n))%nat by (apply Nat.mul_le_mono_r; lia). assert (1 * 1 <= n * n)%nat by (apply Nat.mul_le_mono; lia). lia. }
  apply (Permutation_in _ (Permutation_sym Pm)) in I. apply in_map_iff in I. destruct I as [k [Ek Hk]]. apply in_seq in Hk.
  destruct (nth_error els k) as [e|] eqn:E; [|apply nth_error_None in E; lia]. exists k, e. split; [exact E|]. destruct (Hc k e E) as [C Pe]. rewrite Ek in C, Pe.
  rewrite !Nat.div_mul in Pe by lia. rewrite Nat.mod_mul in C by lia. rewrite Nat.div_mul in C by lia. rewrite Nat.mod_mul in C by lia. split; assumption.
Qed.
(** On the first element of every patch, the B-spline number (p, p) is (x y)^p / (p!)^2 in the coordinates of the element, but
    the function described by the corresponding unit vector is zero. *)
Theorem C25_lost_coefficients : forall p A q, (5 <= p <= 19)%nat -> (p <= n)%nat -> (q < P)%nat ->
  projector_continuous ws junk j1 j2 solve p M P 1 els = Some A ->
  let v := fun j => if (j =? spline_dof p p n 1 0 q p p)%nat then 1 else 0 in
  exists k e, nth_error els k = Some e /\ at_cell n e 0 0 /\ n_patch e = q /\ forall s, 0 <= fst s < 1 -> 0 <= snd s < 1 ->
    discrete_value p (P * 4 ^ M) (sm_cols A) (sm_entry A) v 0 k (Q2R (get_h e)) s = 0 /\
    tensor_spline p p n 1 0 q v (Q2R (fst (n_llc e)) + Q2R (get_h e) * fst s) (Q2R (snd (n_llc e)) + Q2R (get_h e) * snd s)
    = (fst s * snd s) ^ p / (INR (fact p) * INR (fact p)).
Proof.
  intros p A q Hp Hpn Hq E v. rewrite cont_run in E by lia. destruct (disc_run p 1 ltac:(lia) ltac:(lia)) as [A' [E' [_ [_ [_ V]]]]]. rewrite E in E'. injection E' as <-. rewrite Nat.min_l in V by lia.
  pose proof (n_pos M) as Hn. destruct (corner_element q Hq) as [k [e [Ek [C Pe]]]]. exists k, e. split; [exact Ek|]. split; [exact C|]. split; [exact Pe|].
  intros s H1 H2. pose proof (V k e 0%nat 0%nat Ek C) as H. rewrite Pe in H.
  assert (Dp : (p < spline_dim p n 1)%nat) by (unfold spline_dim; lia).
  assert (Inj : forall dx dy, (dx < spline_dim p n 1)%nat -> (dy < spline_dim p n 1)%nat -> (dx, dy) <> (p, p) -> v (spline_dof p p n 1 0 q dx dy) = 0).
  { intros dx dy Hdx Hdy Ne. unfold v. destruct (Nat.eqb_spec (spline_dof p p n 1 0 q dx dy) (spline_dof p p n 1 0 q p p)) as [Q|]; [|reflexivity].
    exfalso. apply Ne. unfold spline_dof in Q. set (d := spline_dim p n 1) in *.
    destruct (divmod_pair dy dx d Hdx) as [A1 A2]. destruct (divmod_pair p p d Dp) as [B1 B2]. replace (dy * d + dx)%nat with (p * d + p)%nat in A1, A2 by lia. congruence. }
  assert (Vp : v (spline_dof p p n 1 0 q p p) = 1) by (unfold v; rewrite Nat.eqb_refl; reflexivity).
  assert (Tol : / INR (fact p) * / INR (fact p) <= projector_tolerance).
  { assert (F : / INR (fact p) <= / 120).
    { apply Rinv_le_contravar; [lra|]. replace 120 with (INR (fact 5)) by (simpl; lra). apply le_INR. apply fact_le. lia. }
    pose proof (Rinv_0_lt_compat _ (INR_fact_lt_0 p)). unfold projector_tolerance. apply Rle_trans with (/ 120 * / 120); [apply Rmult_le_compat; lra|lra]. }
  assert (Kz : forall i, (i < (p + 1) * (p + 1))%nat -> keep (coef n 1 (p + 1) (p + 1) (p + 1) 0 0 p p i) = 0).
  { intros i Hi. assert (I1 : (i mod (p + 1) < p + 1)%nat) by (apply Nat.mod_upper_bound; lia). assert (I2 : (i / (p + 1) < p + 1)%nat) by (apply Nat.div_lt_upper_bound; lia).
    unfold coef. replace (p + 1 - 1)%nat with p by lia. rewrite !first_cf by lia. unfold keep. destruct Rlt_dec as [Q|Q]; [|reflexivity]. exfalso.
    pose proof (Rinv_0_lt_compat _ (INR_fact_lt_0 p)). destruct (_ =? p)%nat, (_ =? p)%nat; rewrite ?Rmult_0_l, ?Rmult_0_r, ?Rabs_R0 in Q; unfold projector_tolerance in *; try lra.
    rewrite Rabs_pos_eq in Q by (apply Rmult_le_pos; lra). lra. }
  split.
  - unfold discrete_value, local_coefficient, tensor_bernstein. cbn [Nat.mul Nat.add].
    rewrite (value_sum p p p n 1 P ltac:(lia) ltac:(lia) Hn ltac:(lia) (sm_entry A) (sm_cols A) _ 0 q 0 0 v (fun i => bern p (i mod (p + 1)) (fst s) * bern p (i / (p + 1)) (snd s)) H).
    rewrite rsum_zero; [unfold Rdiv; ring|]. intros dy Hdy. apply rsum_zero. intros dx Hdx.
    destruct (Nat.eq_dec dx p) as [->|N1]; [destruct (Nat.eq_dec dy p) as [->|N2]|].
    + rewrite rsum_zero; [ring|]. intros i Hi. rewrite Kz by exact Hi. ring.
    + rewrite Inj by (try assumption; congruence). ring.
    + rewrite Inj by (try assumption; congruence). ring.
  - destruct (cell_point e 0 0 s C) as [<- <-]. unfold tensor_spline.
    rewrite (rsum_single _ _ p Dp) by (intros dy Hdy N2; apply rsum_zero; intros dx Hdx; rewrite Inj by (try assumption; congruence); ring).
    rewrite (rsum_single _ _ p Dp) by (intros dx Hdx N1; rewrite Inj by (try assumption; congruence); ring).
    rewrite Vp. rewrite <- !Bs_spec by exact Hn. fold (at_el n 0 (fst s)). fold (at_el n 0 (snd s)).
    assert (Dp' : (p < dim (p + 1) n 1)%nat) by (rewrite dim_spec; exact Dp).
    assert (B : forall x, 0 <= x < 1 -> Bs (p + 1) n 1 p (at_el n 0 x) = x ^ p / INR (fact p)).
    { intros x Hx. rewrite (piece (p + 1) n 1) by (try assumption; lia). unfold sp. replace (p + 1 - 1 + 0 * 1)%nat with p by lia. replace (p + 1 - 1)%nat with p by lia. apply first_piece; lia. }
    rewrite !B by assumption. rewrite Rpow_mult_distr. pose proof (INR_fact_lt_0 p). field. lra.
Qed.
End Mesh.

(** ** examples *)
From Coq Require Import ClassicalEpsilon.
(** a solver as Eigen's exists *)
Example C25_solver_exists : exists solve, good_solve solve.
Proof.
  exists (fun N A b => epsilon (inhabits (fun _ => 0)) (fun x => forall r, (r < N)%nat -> rsum (fun c => A r c * x c) N = b r)).
  intros N A b [B HB]. apply (epsilon_spec (inhabits (fun _ : nat => 0)) (fun x => forall r, (r < N)%nat -> rsum (fun c => A r c * x c) N = b r)).
  exists (fun c => rsum (fun l => B c l * b l) N). intros r Hr.
  rewrite (rsum_ext _ (fun c => rsum (fun l => A r c * B c l * b l) N)) by (intros; rewrite <- rsum_scal; apply rsum_ext; intros; ring).
  rewrite rsum_swap. rewrite (rsum_single _ N r Hr).
  - rewrite rsum_scal_r, (HB r r Hr Hr), Nat.eqb_refl. ring.
  - intros l Hl Ne. rewrite rsum_scal_r, (HB r l Hr Hl). destruct (Nat.eqb_spec r l); [congruence|ring].
Qed.
Lemma strip_mesh : forall M, exists t els, uniform_mesh Nat.eqb strip M t els.
Proof.
  intros M. destruct (init_tree_ok Nat.eqb strip M (proj2 strip_ok)) as [t [l [E [W [HP [A ML]]]]]].
  assert (PP : (0 < t_patches t)%nat) by (rewrite HP; simpl; lia).
  pose proof (traverse_ok t l W PP) as T.
  assert (S : exists els, map_opt (t_store t) l = Some els).
  { assert (G : forall l', (forall a, In a l' -> t_store t a <> None) -> exists els, map_opt (t_store t) l' = Some els).
    { induction l' as [|a l' IH]; intros H; [exists []; reflexivity|]. destruct (IH ltac:(intros; apply H; right; assumption)) as [els He].
      destruct (t_store t a) as [e|] eqn:Ea; [|exfalso; apply (H a); [left; reflexivity|exact Ea]]. exists (e :: els). cbn [map_opt]. rewrite Ea. cbn [bind]. rewrite He. reflexivity. }
    apply G. intros a Ha. apply (wf_leaf t l W) in Ha. destruct Ha as [e [Ha _]]. congruence. }
  destruct S as [els Hels]. exists t, els. split; [discriminate|]. split; [exact (proj2 strip_ok)|]. split; [exact E|]. exists l. split; assumption.
Qed.
(** three patches, level 3, degree 4 (exact) and degree 5 (not exact) *)
Example C25_example : exists t els solve A, uniform_mesh Nat.eqb strip 3 t els /\ good_solve solve /\
  projector_continuous (repeat 0 20) (fun _ _ => 0) (fun _ => 0) (fun _ => 0) solve 4 3 (length strip) 1 els = Some A /\ sm_rows A = 4800%nat /\ sm_cols A = 432%nat.
Proof.
  destruct (strip_mesh 3) as [t [els U]]. destruct C25_solver_exists as [solve Hs].
  destruct (C25_continuous_defined Nat.eqb strip 3 t els U (repeat 0 20) (fun _ _ => 0) (fun _ => 0) (fun _ => 0) solve Hw1 Hs 4 1 ltac:(lia) ltac:(lia)) as [A [E [R1 [R2 _]]]].
  exists t, els, solve, A. split; [exact U|]. split; [exact Hs|]. split; [exact E|]. split; [rewrite R1; reflexivity|rewrite R2; reflexivity].
Qed.
Theorem C25_high_degree_refuted : exists t els solve A v k e s, uniform_mesh Nat.eqb strip 3 t els /\ good_solve solve /\
  projector_continuous (repeat 0 20) (fun _ _ => 0) (fun _ => 0) (fun _ => 0) solve 5 3 (length strip) 1 els = Some A /\ nth_error els k = Some e /\ 0 <= fst s < 1 /\ 0 <= snd s < 1 /\
  Q2R (get_h e) * discrete_value 5 (length strip * 4 ^ 3) (sm_cols A) (sm_entry A) v 0 k (Q2R (get_h e)) s
  <> tensor_spline 5 5 (2 ^ 3) 1 0 (n_patch e) v (Q2R (fst (n_llc e)) + Q2R (get_h e) * fst s) (Q2R (snd (n_llc e)) + Q2R (get_h e) * snd s).
Proof.
  destruct (strip_mesh 3) as [t [els U]]. destruct C25_solver_exists as [solve Hs].
  destruct (C25_continuous_defined Nat.eqb strip 3 t els U (repeat 0 20) (fun _ _ => 0) (fun _ => 0) (fun _ => 0) solve Hw1 Hs 5 1 ltac:(lia) ltac:(lia)) as [A [E _]].
  destruct (C25_lost_coefficients Nat.eqb strip 3 t els U (repeat 0 20) (fun _ _ => 0) (fun _ => 0) (fun _ => 0) solve Hw1 Hs 5 A 0 ltac:(lia) ltac:(simpl; lia) ltac:(simpl; lia) E) as [k [e [Ek [C [Pe V]]]]].
  exists t, els, solve, A, (fun j => if (j =? spline_dof 5 5 (2 ^ 3) 1 0 0 5 5)%nat then 1 else 0), k, e, (/ 2, / 2).
  split; [exact U|]. split; [exact Hs|]. split; [exact E|]. split; [exact Ek|]. cbn [fst snd]. split; [lra|]. split; [lra|].
  destruct (V (/ 2, / 2) ltac:(cbn [fst]; lra) ltac:(cbn [snd]; lra)) as [Z T]. rewrite Pe. rewrite Z. cbn [fst snd] in T. rewrite T.
  assert (0 < (/ 2 * / 2) ^ 5 / (INR (fact 5) * INR (fact 5))) by (apply Rdiv_lt_0_compat; [apply pow_lt; lra|apply Rmult_lt_0_compat; apply INR_fact_lt_0]). lra.
Qed.

(* BEGIN ASSUMPTIONS *)
Print Assumptions C25_discontinuous_defined.
Print Assumptions C25_continuous_defined.
Print Assumptions C25_discontinuous_exact.
Print Assumptions C25_discontinuous_error.
Print Assumptions C25_continuous_exact.
Print Assumptions C25_continuous_error.
Print Assumptions C25_div_defined.
Print Assumptions C25_div_exact.
Print Assumptions C25_div_error.
Print Assumptions C25_lost_coefficients.
Print Assumptions C25_high_degree_refuted.
