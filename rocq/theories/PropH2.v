(** C28, C29, C30: the H2 matrix vector product. *)
From Coq Require Import List Arith Bool Lia ZArith Reals Lra Permutation QArith.
From Verif Require Import ModelBase ModelBernstein RSum ModelTree ModelBlock ModelPar ModelH2 SpecTree SpecBlock SpecH2
  ProofTree ProofTreeWF ProofTreeHist ProofTreeGeo ProofTreeLook ProofBlock ProofPar ProofH2 ProofH2Prod PropTree PropBlock.
Import ListNotations.
Local Close Scope Q_scope.
Local Open Scope nat_scope.

(** an H2 matrix set up for a uniformly refined mesh of P patches and level M: the block cluster tree is the
    one of the mesh, the root is not admissible with itself (it has infinite radius), and the moment matrix
    has the columns of one cluster of level max(0, M - min_cluster_level) (H2Matrix.hpp 114-127) *)
Definition h2_of_mesh (H : h2) (P M : nat) : Prop :=
  exists (Pt : Type) (close : Pt -> Pt -> bool) corners near,
    length corners = P /\ 0 < P /\ (forall c, In c corners -> length c = 4) /\
    init_tree close corners M = Some (h_tree H) /\
    near [] [] = true /\ (0 <= h_mincl H)%Z /\ block_tree (h_tree H) near (h_mincl H) = Some (h_blocks H) /\
    0 < h_k H /\ 0 < h_np H /\ 0 < h_nF H /\ 0 < h_vd H /\
    h_mc H = h_k H * 4 ^ Nat.min (Z.to_nat (h_mincl H)) M.
(** length of one vector component *)
Definition comp_size (H : h2) (P M : nat) : nat := h_k H * (P * 4 ^ M).

(** A is the matrix described by the blocks: whenever a leaf block contains position (i, j) of the components
    (rc, cc), the entry of A there is the one of that block *)
Definition described_by (H : h2) (P M : nat) (A : mat) : Prop :=
  forall rc cc i j B rs cs, rc < h_vd H -> cc < h_vd H -> i < comp_size H P M -> j < comp_size H P M ->
    In B (leaves (h_blocks H)) -> in_block (h_tree H) (h_k H) i j B ->
    start_index (h_tree H) (h_k H) (b_c1 B) = Some rs -> start_index (h_tree H) (h_k H) (b_c2 B) = Some cs ->
    A (rc * comp_size H P M + i) (cc * comp_size H P M + j) = block_entry H rc cc B (i - rs) (j - cs).

Lemma setup_wf : forall H P M, h2_of_mesh H P M -> exists l near, WF (h_tree H) l /\ t_patches (h_tree H) = P /\ 0 < P /\ 
  all_level (h_tree H) M /\ t_maxlevel (h_tree H) = M /\ near [] [] = true /\ (0 <= h_mincl H)%Z /\
  block_tree (h_tree H) near (h_mincl H) = Some (h_blocks H) /\ 0 < h_k H /\ 0 < h_np H /\ 0 < h_nF H /\ 0 < h_vd H /\
  h_mc H = h_k H * 4 ^ Nat.min (Z.to_nat (h_mincl H)) M /\
  (forall i j, i < comp_size H P M -> j < comp_size H P M -> one (in_block (h_tree H) (h_k H) i j) (leaves (h_blocks H))).
Proof.
  intros H P M [Pt [close [corners [near [HP [Hp [H4 [E [Hr [H0 [Eb [K1 [K2 [K3 [K4 K5]]]]]]]]]]]]]]].
  destruct (init_tree_ok close corners M H4) as [t' [l [E' [W [P' [A ML]]]]]]. rewrite E in E'. injection E' as <-.
  exists l, near. split; [assumption|]. split; [congruence|]. repeat (split; [assumption|]).
  intros i j Hi Hj. apply one_exactly.
  destruct (C26_uniform_meshes Pt close corners M (h_tree H) near (h_mincl H)) as [bt [Eb' Q]]; auto.
  { intros Z. rewrite Z in HP. simpl in HP. lia. }
  rewrite Eb in Eb'. injection Eb' as <-. apply Q; auto; rewrite HP; assumption.
Qed.

Lemma inb_spec : forall H B i j, inb H B i j = true <-> in_block (h_tree H) (h_k H) i j B.
Proof.
  intros H B i j. unfold inb, in_block.
  destruct (start_index (h_tree H) (h_k H) (b_c1 B)) as [rs|]; [|split; [discriminate|intros [? [? [? [? [? _]]]]]; discriminate]].
  destruct (end_index (h_tree H) (h_k H) (b_c1 B)) as [re|]; [|split; [discriminate|intros [? [? [? [? [_ [? _]]]]]]; discriminate]].
  destruct (start_index (h_tree H) (h_k H) (b_c2 B)) as [cs|]; [|split; [discriminate|intros [? [? [? [? [_ [_ [? _]]]]]]]; discriminate]].
  destruct (end_index (h_tree H) (h_k H) (b_c2 B)) as [ce|]; [|split; [discriminate|intros [? [? [? [? [_ [_ [_ [? _]]]]]]]]; discriminate]].
  rewrite !andb_true_iff, !Nat.leb_le, !Nat.ltb_lt. split.
  - intros [[? ?] [? ?]]. exists rs, re, cs, ce. auto 10.
  - intros [a [b [c [d [E1 [E2 [E3 [E4 H12]]]]]]]]. injection E1 as <-. injection E2 as <-. injection E3 as <-. injection E4 as <-. lia.
Qed.

(** the value of one parallel region *)
Lemma region_entry : forall H P M A, h2_of_mesh H P M -> described_by H P M A ->
  forall nthr rc cc x v, 0 < nthr -> rc < h_vd H -> cc < h_vd H -> h2_region H nthr rc cc x v ->
  forall i, i < comp_size H P M -> 
    v i = rsum (fun j => A (rc * comp_size H P M + i)%nat (cc * comp_size H P M + j)%nat * x j)%R (comp_size H P M).
Proof.
  intros H P M A S D nthr rc cc x v Hn Hrc Hcc R i Hi.
  destruct (setup_wf H P M S) as [l [near [W [HP [Hp [Al [ML [Hr [H0 [Eb [K1 [K2 [K3 [K4 [K5 On]]]]]]]]]]]]]]].
  pose proof Hp as Hp'. rewrite <- HP in Hp'.
  rewrite (region_ok H l M near W Hp' Al ML Hr H0 Eb K1 K2 K3 K5 nthr rc cc x v i Hn R).
  unfold vsize. rewrite HP. fold (comp_size H P M). rewrite lsum_rsum. apply rsum_ext. intros j Hj.
  apply (one_lsum (in_block (h_tree H) (h_k H) i j)); [apply On; assumption| |].
  - intros B HB Hb. pose proof (proj2 (inb_spec H B i j) Hb) as ->.
    destruct Hb as [rs [re [cs [ce [E1 [E2 [E3 [E4 Hb]]]]]]]].
    rewrite (D rc cc i j B rs cs Hrc Hcc Hi Hj HB); [|exists rs, re, cs, ce; auto 10|assumption|assumption].
    unfold base. rewrite E1, E3. reflexivity.
  - intros B HB Hb. destruct (inb H B i j) eqn:E; [|reflexivity]. apply inb_spec in E. contradiction.
Qed.

Lemma in_component_pairs : forall vd cc rc, In (cc, rc) (component_pairs vd) -> cc < vd /\ rc < vd.
Proof.
  intros vd cc rc Hi. unfold component_pairs in Hi. apply in_flat_map in Hi. destruct Hi as [x [Hx Hi]].
  apply in_map_iff in Hi. destruct Hi as [y [E Hy]]. injection E as <- <-. apply in_seq in Hx. apply in_seq in Hy. lia.
Qed.
Lemma components_entry : forall H P M A xall, h2_of_mesh H P M -> described_by H P M A ->
  forall prs d d', h2_components H (comp_size H P M) xall prs d d' -> (forall cc rc, In (cc, rc) prs -> cc < h_vd H /\ rc < h_vd H) ->
  forall r i, i < comp_size H P M -> 
    d' (r * comp_size H P M + i) = (d (r * comp_size H P M + i)%nat +
      lsum (fun p => if (snd p =? r)%nat then rsum (fun j => A (r * comp_size H P M + i)%nat (fst p * comp_size H P M + j)%nat * xall (fst p * comp_size H P M + j)%nat) (comp_size H P M) else 0) prs)%R.
Proof.
  intros H P M A xall S D prs d d' C. set (vs := comp_size H P M) in *.
  induction C as [d|cc rc rest d d' v nthr Hn R C IH]; intros Hp r i Hi; [simpl; lra|].
  rewrite IH by (try assumption; intros; apply Hp; right; assumption). cbn [lsum fst snd].
  destruct (Hp cc rc) as [Hcc Hrc]; [left; reflexivity|].
  destruct (Nat.eqb_spec rc r) as [->|Ne].
  - destruct (Nat.leb_spec (r * vs) (r * vs + i)); [|lia]. destruct (Nat.ltb_spec (r * vs + i) (r * vs + vs)); [|lia]. cbn [andb].
    replace (r * vs + i - r * vs) with i by lia.
    rewrite (region_entry H P M A S D nthr r cc _ v Hn Hrc Hcc R i Hi). fold vs. lra.
  - assert (F : ((rc * vs <=? r * vs + i) && (r * vs + i <? rc * vs + vs)) = false).
    { destruct (Nat.leb_spec (rc * vs) (r * vs + i)), (Nat.ltb_spec (r * vs + i) (rc * vs + vs)); try reflexivity. nia. }
    rewrite F. lra.
Qed.
Lemma lsum_flat : forall {X Y} (g : X -> list Y) (f : Y -> R) l, lsum f (flat_map g l) = lsum (fun x => lsum f (g x)) l.
Proof. intros X Y g f l. induction l as [|x l IH]; [reflexivity|]. simpl. rewrite lsum_app, IH. reflexivity. Qed.

(** C29: the product is multiplication with T^T A T, A given by the blocks, for every schedule *)
Theorem C29_product : forall H P M A n TM alpha rhs res res',
  h2_of_mesh H P M -> described_by H P M A ->
  let D := h_vd H * comp_size H P M in
  h2_product H D n TM alpha rhs res res' ->
  forall i, res' i = (res i + alpha * rsum (fun q => TM q i * rsum (fun q' => A q q' * rsum (fun j => TM q' j * rhs j) n) D) D)%R.
Proof.
  intros H P M A n TM alpha rhs res res' S De D [dst [C ->]] i. f_equal. f_equal.
  destruct (setup_wf H P M S) as [l [near [W [HP [Hp [Al [ML [Hr [H0 [Eb [K1 [K2 [K3 [K4 [K5 On]]]]]]]]]]]]]]].
  assert (Hvs : D / h_vd H = comp_size H P M) by (unfold D; rewrite Nat.mul_comm, Nat.div_mul by lia; reflexivity).
  rewrite Hvs in C. unfold D. rewrite !rsum_flatten. apply rsum_ext. intros r Hrd. apply rsum_ext. intros e He. f_equal.
  rewrite (components_entry H P M A _ S De _ _ _ C (fun cc rc => in_component_pairs (h_vd H) cc rc) r e He). unfold zero_arr at 1. rewrite Rplus_0_l.
  unfold component_pairs. rewrite lsum_flat, lsum_seq, rsum_flatten. apply rsum_ext. intros c Hc.
  rewrite lsum_map. cbn [fst snd]. rewrite lsum_seq, (rsum_single _ _ r Hrd).
  - rewrite Nat.eqb_refl. reflexivity.
  - intros r' _ Ne. apply Nat.eqb_neq in Ne. rewrite Ne. reflexivity.
Qed.

(** such a matrix exists *)
Theorem C29_matrix_exists : forall H P M, h2_of_mesh H P M -> exists A, described_by H P M A.
Proof.
  intros H P M S. destruct (setup_wf H P M S) as [l [near [W [HP [Hp [Al [ML [Hr [H0 [Eb [K1 [K2 [K3 [K4 [K5 On]]]]]]]]]]]]]]].
  set (vs := comp_size H P M).
  exists (fun q q' => match find (fun B => inb H B (q mod vs) (q' mod vs)) (leaves (h_blocks H)) with
    | Some B => block_entry H (q / vs) (q' / vs) B (q mod vs - base H (b_c1 B)) (q' mod vs - base H (b_c2 B)) | None => 0%R end).
  intros rc cc i j B rs cs Hrc Hcc Hi Hj HB Hb E1 E2. fold vs in Hi, Hj |- *.
  destruct (divmod_mul rc i vs Hi) as [-> ->]. destruct (divmod_mul cc j vs Hj) as [-> ->].
  destruct (On i j Hi Hj) as [l1 [B' [l2 [El [Hb' Hn]]]]].
  assert (EB : B = B').
  { rewrite El in HB. apply in_app_or in HB. simpl in HB. destruct HB as [HB|[HB|HB]]; auto; exfalso; apply (Hn B); auto; apply in_or_app; auto. }
  subst B'. destruct (find (fun B0 => inb H B0 i j) (leaves (h_blocks H))) as [B'|] eqn:F.
  - apply find_some in F. destruct F as [F1 F2]. apply inb_spec in F2.
    assert (EB : B' = B).
    { rewrite El in F1. apply in_app_or in F1. simpl in F1. destruct F1 as [F1|[F1|F1]]; auto; exfalso; apply (Hn B'); auto; apply in_or_app; auto. }
    subst B'. unfold base. rewrite E1, E2. reflexivity.
  - apply (find_none _ _ F) in HB. apply inb_spec in Hb. congruence.
Qed.

(** C29: the product is linear in the vector *)
Theorem C29_linear : forall H P M n TM alpha x y a b px py pxy,
  h2_of_mesh H P M -> let D := h_vd H * comp_size H P M in
  h2_product H D n TM alpha x zero_arr px -> h2_product H D n TM alpha y zero_arr py ->
  h2_product H D n TM alpha (fun j => a * x j + b * y j)%R zero_arr pxy ->
  forall i, pxy i = (a * px i + b * py i)%R.
Proof.
  intros H P M n TM alpha x y a b px py pxy S D Hx Hy Hxy i. destruct (C29_matrix_exists H P M S) as [A De].
  rewrite (C29_product H P M A n TM alpha x _ px S De Hx), (C29_product H P M A n TM alpha y _ py S De Hy),
    (C29_product H P M A n TM alpha _ _ pxy S De Hxy). unfold zero_arr. fold D.
  rewrite (rsum_ext (fun q => TM q i * rsum (fun q' => A q q' * rsum (fun j => TM q' j * (a * x j + b * y j)) n) D)%R
     (fun q => a * (TM q i * rsum (fun q' => A q q' * rsum (fun j => TM q' j * x j) n) D) + b * (TM q i * rsum (fun q' => A q q' * rsum (fun j => TM q' j * y j) n) D))%R).
  - rewrite rsum_plus, !rsum_scal. lra.
  - intros q _. rewrite (rsum_ext (fun q' => A q q' * rsum (fun j => TM q' j * (a * x j + b * y j)) n)%R
      (fun q' => a * (A q q' * rsum (fun j => TM q' j * x j) n) + b * (A q q' * rsum (fun j => TM q' j * y j) n))%R).
    + rewrite rsum_plus, !rsum_scal. lra.
    + intros q' _. rewrite (rsum_ext (fun j => TM q' j * (a * x j + b * y j))%R (fun j => a * (TM q' j * x j) + b * (TM q' j * y j))%R) by (intros; lra).
      rewrite rsum_plus, !rsum_scal. lra.
Qed.

(** C28: any two executions, with any numbers of threads in the regions and any interleaving, agree *)
Theorem C28_schedule_independent : forall H P M n TM alpha rhs res r1 r2,
  h2_of_mesh H P M -> let D := h_vd H * comp_size H P M in
  h2_product H D n TM alpha rhs res r1 -> h2_product H D n TM alpha rhs res r2 -> forall i, r1 i = r2 i.
Proof.
  intros H P M n TM alpha rhs res r1 r2 S D H1 H2 i. destruct (C29_matrix_exists H P M S) as [A De].
  rewrite (C29_product H P M A n TM alpha rhs _ r1 S De H1), (C29_product H P M A n TM alpha rhs _ r2 S De H2). reflexivity.
Qed.
(** and an execution exists *)
Theorem C28_execution_exists : forall H D n TM alpha rhs res, exists res', h2_product H D n TM alpha rhs res res'.
Proof.
  intros H D n TM alpha rhs res. 
  assert (E : forall prs vs x d, exists d', h2_components H vs x prs d d').
  { induction prs as [|[cc rc] prs IH]; intros vs x d; [exists d; constructor|].
    destruct (region_exists (length (leaves (h_blocks H)))
      (fun i acc => match get (leaves (h_blocks H)) i with Some B => leaf_body H rc cc (fun i => x (cc * vs + i)) (forward (h_np H) (h_nF H) (h_mc H) (h_mom H cc) (h_T H) (fun i => x (cc * vs + i))) B acc | None => acc end)
      (fun acc d e => d e + (fst acc e + backward (h_np H) (h_nF H) (h_mc H) (h_mom H rc) (h_T H) (h_steps H) (snd acc) e))%R
      1 ((zero_arr, fun _ _ _ => 0%R) : h2_acc) zero_arr) as [v Hv].
    edestruct (IH vs x) as [d' Hd']. exists d'. eapply (comp_cons H vs x cc rc prs d d' v 1); [lia|exact Hv|exact Hd']. }
  edestruct E as [dst Hdst]. eexists. exists dst. split; [exact Hdst|reflexivity].
Qed.
(** C28: no access of a leaf is out of range, and the level index of a low-rank leaf is a valid index *)
Theorem C28_accesses_in_range : forall H P M B, h2_of_mesh H P M -> In B (leaves (h_blocks H)) ->
  exists rs re cs ce, start_index (h_tree H) (h_k H) (b_c1 B) = Some rs /\ end_index (h_tree H) (h_k H) (b_c1 B) = Some re /\
    start_index (h_tree H) (h_k H) (b_c2 B) = Some cs /\ end_index (h_tree H) (h_k H) (b_c2 B) = Some ce /\
    rs <= re <= comp_size H P M /\ cs <= ce <= comp_size H P M /\
    (b_cc B = Dense \/ b_cc B = LowRank /\
      (0 <= fmm_level H (b_c1 B) <= Z.of_nat (h_steps H))%Z /\
      id_of (h_tree H) (b_c1 B) < P * 4 ^ (h_steps H - Z.to_nat (fmm_level H (b_c1 B))) /\
      id_of (h_tree H) (b_c2 B) < P * 4 ^ (h_steps H - Z.to_nat (fmm_level H (b_c1 B)))).
Proof.
  intros H P M B S HB.
  destruct (setup_wf H P M S) as [l [near [W [HP [Hp [Al [ML [Hr [H0 [Eb [K1 [K2 [K3 [K4 [K5 On]]]]]]]]]]]]]]].
  pose proof Hp as Hp'. rewrite <- HP in Hp'.
  destruct (leaf_facts H l M near W Hp' Al ML Hr H0 Eb K1 K2 K3 K5 B HB) as [rs [re [cs [ce [E1 [E2 [E3 [E4 [L1 [L2 [L3 [L4 Hcc]]]]]]]]]]]].
  unfold vsize in L3, L4. rewrite HP in L3, L4. exists rs, re, cs, ce. repeat (split; [assumption|]). unfold comp_size.
  split; [lia|]. split; [lia|]. destruct Hcc as [Hd|[Hl [f [Hf [Hfs [_ [_ [I1 [I2 _]]]]]]]]]; [left; assumption|].
  right. split; [assumption|]. rewrite Hf, Nat2Z.id. rewrite HP in I1, I2. split; [lia|]. auto.
Qed.

(** C30: <forward(x) on level f, y> = <x, backward(y on level f)>; N columns on level f *)
Theorem C30_adjoint : forall np nF mc mom T x y f steps N, 0 < np -> 0 < nF -> 0 < mc -> f <= steps ->
  rsum (fun row => rsum (fun col => forward np nF mc mom T x f row col * y row col)%R N) (nF * np) =
  rsum (fun e => x e * backward np nF mc mom T steps (fun g row col => if (g =? f)%nat then y row col else 0) e)%R (N * (mc * 4 ^ f)).
Proof.
  intros np nF mc mom T x y f steps N Hnp HnF Hmc Hf.
  assert (Hs : 0 < mc * 4 ^ f) by (pose proof (Nat.pow_nonzero 4 f ltac:(lia)); nia).
  rewrite (rsum_flatten _ N), rsum_swap. apply rsum_ext. intros col Hc.
  etransitivity.
  { apply rsum_ext. intros row Hr. rewrite forward_ok by assumption. rewrite <- rsum_scal_r. reflexivity. }
  rewrite rsum_swap. apply rsum_ext. intros d Hd. rewrite backward_ok by assumption.
  rewrite (rsum_single (level_part _ _ _ _ _ _ _) _ f).
  - unfold level_part. cbv beta. rewrite Nat.eqb_refl. destruct (divmod_mul col d (mc * 4 ^ f) Hd) as [-> ->]. rewrite <- rsum_scal.
    apply rsum_ext. intros row _. lra.
  - lia.
  - intros g _ Ne. unfold level_part. cbv beta. apply Nat.eqb_neq in Ne. rewrite Ne. apply rsum_zero. intros; lra.
Qed.

(** ** a concrete case: three patches in a row, refined twice; two far apart patches form low-rank leaves *)
Definition ex_near (a b : addr) : bool :=
  match a, b with
  | [], _ => true
  | _, [] => true
  | _, _ => (pos_patch a <=? S (pos_patch b)) && (pos_patch b <=? S (pos_patch a))
  end.
Lemma ex_leaves_some : exists l,
  (t <- init_tree Nat.eqb strip 2 ;; bt <- block_tree t ex_near 1 ;;
   Some (map (fun B => (b_cc B, Z.of_nat (t_maxlevel t) - 1 - level_of t (b_c1 B))%Z) (leaves bt))) = Some l
  /\ In (LowRank, 1%Z) l /\ In (Dense, 0%Z) l.
Proof. eexists. split; [vm_compute; reflexivity|]. simpl. tauto. Qed.
Example h2_example : exists H, h2_of_mesh H 3 2 /\ h_mincl H = 1%Z /\ h_vd H = 2 /\
  (exists B, In B (leaves (h_blocks H)) /\ b_cc B = LowRank /\ fmm_level H (b_c1 B) = 1%Z) /\
  (exists B, In B (leaves (h_blocks H)) /\ b_cc B = Dense).
Proof.
  destruct ex_leaves_some as [ll [X [X1 X2]]].
  apply bind_some in X. destruct X as [t [E X]]. apply bind_some in X. destruct X as [bt [Eb X]]. injection X as <-.
  apply in_map_iff in X1. destruct X1 as [B [EB HB]]. injection EB as EB1 EB2.
  apply in_map_iff in X2. destruct X2 as [B' [EB' HB']]. injection EB' as EB1' _.
  exists (mkH2 t 1%Z bt 4 2 2 16 2 (fun _ _ _ => 1%R) (fun _ _ => 1%R) (fun _ _ _ _ _ _ => 1%R)).
  split; [|split; [reflexivity|split; [reflexivity|split; [exists B|exists B']; auto]]].
  exists nat, Nat.eqb, strip, ex_near. cbn [h_tree h_mincl h_blocks h_k h_np h_nF h_vd h_mc].
  split; [reflexivity|]. split; [lia|]. split; [intros c Hc; repeat (destruct Hc as [<-|Hc]; [reflexivity|]); destruct Hc|].
  split; [exact E|]. split; [reflexivity|]. split; [lia|]. split; [exact Eb|]. repeat (split; [lia|]). reflexivity.
Qed.

(* BEGIN ASSUMPTIONS *)
Print Assumptions C29_product.
Print Assumptions C29_matrix_exists.
Print Assumptions C29_linear.
Print Assumptions C28_schedule_independent.
Print Assumptions C28_execution_exists.
Print Assumptions C28_accesses_in_range.
Print Assumptions C30_adjoint.
