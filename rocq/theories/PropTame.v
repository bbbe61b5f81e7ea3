(** C23, C64: meshes on which no identification group is ever emptied. *)
From Coq Require Import Reals List Arith Bool ZArith Lia Relations.
From Verif Require Import ModelBase ModelTree ModelGlue SpecTree SpecMesh SpecGlue SpecTame ProofTreeWF ProofTree ProofTreeHist ProofTopoInfo ProofGlueMat ProofGlueId ProofGlueEdge ProofGlueMesh ProofGlueTame PropTopo PropGlue
  RSum ModelBernstein SpecBernstein SpecPatch ModelBall ModelOperators SpecForms ModelForms PropForms ModelProj SpecProj ProofPiece ProofProj ModelAnsatz PropConform.
Import ListNotations.
Local Open Scope nat_scope.

Lemma full_no_gap : forall out : list group, (forall g, In g out -> fst g <> []) -> no_gap out.
Proof.
  assert (N : forall g : group, fst g <> [] -> nonempty g = true) by (intros [[|d r] z] Hg; [exfalso; apply Hg; reflexivity|reflexivity]).
  induction out as [|g [|h r] IH]; intros F; cbn [no_gap]; [exact I|apply N, F; left; reflexivity|].
  split; [left; apply N, F; left; reflexivity|]. apply IH. intros g' Hg. apply F. right. exact Hg.
Qed.
Lemma full_filter : forall out : list group, (forall g, In g out -> fst g <> []) -> filter nonempty out = out.
Proof.
  induction out as [|g r IH]; intros F; [reflexivity|]. cbn [filter]. unfold nonempty at 1. destruct (fst g) eqn:E; [exfalso; apply (F g); [left; reflexivity|exact E]|].
  rewrite IH; [reflexivity|]. intros h Hh. apply F. right. exact Hh.
Qed.

(** If every corner belongs to at most three patches, or to four patches whose edges at this corner are all shared, then no group is
    emptied, whatever the numbering of the patches, the degree, the knot repetition and the level: the identification succeeds, every class of
    identified degrees of freedom is one of its groups, and the glue matrix is built. *)
Theorem C23_few_patches : forall verts npts t p rep M, mesh_ok verts -> oriented verts -> tame verts -> numbered verts npts -> reachable_over verts npts t ->
  1 <= p ->
  let n := one_d_dim p rep M in let D := length verts * (n * n) in
  exists edges ids post trips, patch_topology_info t = Some edges /\ cont_identification p rep M D edges = Some ids /\
    (forall g, In g ids -> 2 <= length (fst g)) /\ (forall x y, x <> y -> (same_group ids x y <-> identified n edges x y)) /\
    assemble_glue D ids = Some (D, post, trips) /\ glues D post ids trips.
Proof.
  intros verts npts t p rep M HM HO HT HN HR Hp n D. destruct (C22_mesh verts npts t p rep M HM HO HN HR Hp) as [edges [groups [stored [Ee [Iff [Eg H]]]]]].
  fold n D in Eg, H. assert (Hn : 2 <= n) by (unfold n, one_d_dim; generalize (rep * (2 ^ M - 1)); intros; lia).
  destruct (over_wf verts npts t HM HN HR) as [Ov [l W]]. destruct (reach_edges verts t l HM HO W Ov) as [edges' [E' [Ok [Sd _]]]]. assert (edges' = edges) by congruence. subst edges'.
  pose proof (groups_full verts HM HO HT n Hn edges Iff D (groups, stored) eq_refl Ok Sd Eg) as F. cbn [fst] in F.
  destruct (H (full_no_gap groups F)) as [ids [post [trips [Ei [Same [Ea [Gl One]]]]]]]. exists edges, ids, post, trips.
  split; [exact Ee|]. split; [exact Ei|]. split; [|split; [exact Same|split; [exact Ea|exact Gl]]].
  intros g Hg. assert (Q : ids = groups).
  { unfold cont_identification in Ei. rewrite (proj2 (Nat.leb_le 1 p) Hp) in Ei. cbn [assert bind] in Ei. fold n in Ei. rewrite Eg in Ei. cbn [bind fst] in Ei.
    rewrite (proj1 (C23_cleanup groups) (full_no_gap groups F)) in Ei. rewrite (full_filter groups F) in Ei. congruence. }
  subst ids. destruct (C22_groups n (length verts) edges ltac:(lia) Ok) as [gs [st' [Eg' [_ [_ [Sh _]]]]]]. fold D in Eg'. assert (gs = groups) by congruence. subst gs.
  destruct (Sh g Hg) as [E0|[L _]]; [exfalso; apply (F g Hg E0)|exact L].
Qed.

(** the hypothesis can be checked *)
Definition patches_at (verts : list (list nat)) (V : nat) : list nat := filter (fun p => existsb (Nat.eqb V) (nth p verts [])) (seq 0 (length verts)).
Definition shared_b (verts : list (list nat)) (p i : nat) : bool :=
  existsb (fun y => negb ((fst y =? p) && (snd y =? i)) && glued_b verts p i (fst y) (snd y)) (slots verts).
Definition tame_b (verts : list (list nat)) : bool :=
  forallb (fun V => (length (patches_at verts V) <=? 3) || ((length (patches_at verts V) =? 4) &&
    forallb (fun x => negb ((pvert verts (fst x) (snd x) =? V) || (pvert verts (fst x) ((snd x + 1) mod 4) =? V)) || shared_b verts (fst x) (snd x)) (slots verts))) (concat verts).
Lemma patches_at_iff : forall verts V p, In p (patches_at verts V) <-> around verts V p.
Proof.
  intros verts V p. unfold patches_at, around. rewrite filter_In, in_seq, existsb_exists. split.
  - intros [A [x [B C]]]. apply Nat.eqb_eq in C. subst x. split; [lia|exact B].
  - intros [A B]. split; [lia|]. exists V. split; [exact B|apply Nat.eqb_refl].
Qed.
Lemma tame_b_ok : forall verts, tame_b verts = true -> tame verts.
Proof.
  intros verts H V l ND Hl. destruct l as [|p0 l0] eqn:El; [cbn; lia|]. rewrite <- El in *. assert (H0 : around verts V p0) by (apply Hl; rewrite El; left; reflexivity). clear El l0.
  assert (Inc : incl l (patches_at verts V)) by (intros p Hp; apply patches_at_iff, Hl, Hp). pose proof (NoDup_incl_length ND Inc) as L.
  assert (IV : In V (concat verts)). { apply in_concat. exists (nth p0 verts []). split; [apply nth_In, H0|apply H0]. }
  unfold tame_b in H. rewrite forallb_forall in H. specialize (H V IV). apply orb_true_iff in H. rewrite andb_true_iff, Nat.leb_le, Nat.eqb_eq in H. destruct H as [H|[H S]].
  - split; [lia|intros; lia].
  - split; [lia|]. intros _ p i [Hp _] Hi At. rewrite forallb_forall in S. specialize (S (p, i) (slots_in _ _ _ Hp Hi)). cbn [fst snd] in S. apply orb_true_iff in S. destruct S as [S|S].
    + apply negb_true_iff, orb_false_iff in S. destruct S as [S1 S2]. apply Nat.eqb_neq in S1, S2. destruct At; contradiction.
    + unfold shared_b in S. apply existsb_exists in S. destruct S as [[q j] [Hin S]]. cbn [fst snd] in S. apply andb_true_iff in S. destruct S as [S1 S2]. exists q, j.
      assert (B : q < length verts /\ j < 4). { unfold slots in Hin. apply in_prod_iff in Hin. destruct Hin as [H1 H2]. apply in_seq in H1, H2. lia. }
      split; [apply B|]. split; [apply B|]. split; [|apply glued_b_iff; exact S2]. intros E. injection E as -> ->. rewrite !Nat.eqb_refl in S1. discriminate.
Qed.
Example cube_tame : tame cube.
Proof. apply tame_b_ok. vm_compute. reflexivity. Qed.
(** a closed mesh with two corners at which four patches meet *)
Definition trapezo4 : list (list nat) := [[0;2;3;4];[7;6;5;1];[7;8;0;6];[9;1;3;2];[0;4;5;6];[5;4;3;1];[9;2;0;8];[7;1;9;8]].
Example trapezo4_tame : mesh_ok trapezo4 /\ oriented trapezo4 /\ tame trapezo4 /\ numbered trapezo4 10 /\ length (patches_at trapezo4 0) = 4.
Proof.
  split; [apply mesh_ok_b; vm_compute; reflexivity|]. split; [apply oriented_b_ok; vm_compute; reflexivity|]. split; [apply tame_b_ok; vm_compute; reflexivity|]. split; [|reflexivity].
  assert (A : forallb (fun v => existsb (fun vs => existsb (Nat.eqb v) vs) trapezo4) (seq 0 10) = true) by (vm_compute; reflexivity).
  assert (B : forallb (forallb (fun v => v <? 10)) trapezo4 = true) by (vm_compute; reflexivity). rewrite forallb_forall in A, B. intros v. split.
  - intros L. specialize (A v ltac:(apply in_seq; lia)). apply existsb_exists in A. destruct A as [vs [Hvs A]]. apply existsb_exists in A. destruct A as [w [Hw Ew]]. apply Nat.eqb_eq in Ew. subst w. eauto.
  - intros [vs [Hvs Hv]]. specialize (B vs Hvs). rewrite forallb_forall in B. apply Nat.ltb_lt, B, Hv.
Qed.
(** five patches are too many: the meshes of C23_past_the_end_refuted and C23_empty_group_refuted are not tame *)
Theorem C23_five_patches_sharp : ~ tame trapezo1 /\ ~ tame trapezo2.
Proof.
  split; intros T.
  - destruct (T 0 (patches_at trapezo1 0)) as [L _]; [apply NoDup_filter, seq_NoDup|intros p Hp; apply patches_at_iff, Hp|]. vm_compute in L. lia.
  - destruct (T 0 (patches_at trapezo2 0)) as [L _]; [apply NoDup_filter, seq_NoDup|intros p Hp; apply patches_at_iff, Hp|]. vm_compute in L. lia.
Qed.

(** the continuous ansatz space of such a mesh exists for every degree, knot repetition and level *)
Section Space.
Context {Pt : Type} (close : Pt -> Pt -> bool) (corners : list (list Pt)) (M : nat) (t : tree) (els : list node).
Hypothesis Hm : uniform_mesh close corners M t els.
Variables (ws : list R) (junk : mat) (j1 j2 : arr) (solve : nat -> mat -> arr -> arr).
Hypothesis Hw : 20 <= length ws.
Hypothesis Hs : good_solve solve.
Notation verts := (fst (patch_vertices close [] corners)).
Theorem C64_few_patches : mesh_ok verts -> oriented verts -> tame verts -> forall p rep, 1 <= rep <= p -> p <= 19 ->
  exists S, ansatz_continuous ws junk j1 j2 solve p M (length corners) rep t els = Some S.
Proof.
  intros HM HO HT p rep Hr Hp. destruct (C64_defined close corners M t els Hm ws junk j1 j2 solve Hw Hs HM HO p rep Hr Hp) as [edges [groups [stored [Ee [Eg [[D _] _]]]]]].
  apply D. destruct (over_mesh close corners M t els Hm) as [npts [HN HR]]. destruct (over_wf verts npts t HM HN HR) as [Ov [l W]]. destruct (reach_edges verts t l HM HO W Ov) as [edges' [E' [Ok [Sd [Iff _]]]]].
  assert (edges' = edges) by congruence. subst edges'. apply full_no_gap.
  assert (Hn : 2 <= spline_dim p (2 ^ M) rep) by (unfold spline_dim; generalize (rep * (2 ^ M - 1)); intros; lia).
  apply (groups_full verts HM HO HT (spline_dim p (2 ^ M) rep) Hn edges Iff (length corners * (spline_dim p (2 ^ M) rep * spline_dim p (2 ^ M) rep)) (groups, stored)); [|exact Ok|exact Sd|exact Eg].
  rewrite (verts_length close corners). reflexivity.
Qed.
End Space.

(* BEGIN ASSUMPTIONS *)
Print Assumptions C23_few_patches.
Print Assumptions C23_five_patches_sharp.
Print Assumptions C64_few_patches.
