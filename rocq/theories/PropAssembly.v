(** C33, C50: dense assembly and potential evaluation under every schedule. *)
From Coq Require Import List Arith Bool Lia Reals Lra QArith Qreals Permutation.
From Verif Require Import ModelBase ModelBernstein RSum ModelTree ModelPar ModelAssembly SpecTree
  ProofTree ProofTreeWF ProofTreeHist ProofTreeGeo ProofPar ProofAssembly PropTree.
Import ListNotations.
Local Close Scope Q_scope.
Local Open Scope nat_scope.

(** the elements of the mesh in the order of its iterator *)
Definition mesh_elements (t : tree) (els : list node) : Prop :=
  exists l, traverse t = Some l /\ map_opt (t_store t) l = Some els.

(** the entry of the assembled matrix for degrees of freedom a, b of the elements e1, e2 in components i, j *)
Definition row_of (k N i a : nat) (e : node) : nat := k * (i * N + n_id e) + a.

Lemma els_length : forall t l els, map_opt (t_store t) l = Some els -> length els = length l /\
  forall i, i < length l -> exists e, nth_error els i = Some e /\ t_store t (nth i l []) = Some e.
Proof.
  intros t l. induction l as [|a l IH]; intros els E; cbn [map_opt] in E.
  - injection E as <-. split; [reflexivity|]. simpl. intros; lia.
  - apply bind_some in E. destruct E as [e [Ea E]]. apply bind_some in E. destruct E as [r [Er E]]. injection E as <-.
    destruct (IH r Er) as [L H]. split; [simpl; lia|]. intros [|i] Hi; simpl; [eauto|]. apply H. simpl in Hi. lia.
Qed.

(** uniformly refined meshes: the elements are numbered 0 .. N-1 *)
Lemma uniform_ids : forall {Pt} (close : Pt -> Pt -> bool) corners M t els,
  corners <> [] -> (forall c, In c corners -> length c = 4) -> init_tree close corners M = Some t -> mesh_elements t els ->
  length els = t_elements t /\ t_elements t = length corners * 4 ^ M /\
  (forall i, i < length els -> exists e, nth_error els i = Some e /\ n_id e = i).
Proof.
  intros Pt close corners M t els Hc H4 E [l [El Em]].
  destruct (init_tree_ok close corners M H4) as [t' [l' [E' [W [P [A ML]]]]]]. rewrite E in E'. injection E' as <-.
  assert (HP : 0 < t_patches t) by (rewrite P; destruct corners; [congruence|simpl; lia]).
  rewrite (traverse_ok t l' W HP) in El. injection El as <-. destruct (els_length t l' els Em) as [L H].
  destruct (uniform_list t l' M W A) as [HL HN]. rewrite P in HL.
  rewrite L, (wf_count t l' W). split; [reflexivity|]. split; [rewrite <- (wf_count t l' W); assumption|].
  intros i Hi. rewrite <- (wf_count t l' W) in Hi. destruct (H i Hi) as [e [He Se]]. exists e. split; [assumption|].
  rewrite (nk_id _ _ (wf_node t l' W _ e Se)). apply HN. assumption.
Qed.

(** C33: on uniformly refined meshes every entry is written exactly once *)
Theorem C33_each_entry_once : forall (Pt : Type) (close : Pt -> Pt -> bool) corners M t els vd k form ws,
  corners <> [] -> (forall c, In c corners -> length c = 4) -> init_tree close corners M = Some t -> mesh_elements t els ->
  interleave (assembly_tasks vd k (t_elements t) form els) ws ->
  NoDup (map fst ws) /\ forall r c, In (r, c) (map fst ws) <-> r < vd * k * t_elements t /\ c < vd * k * t_elements t.
Proof.
  intros Pt close corners M t els vd k form ws Hc H4 E Me It.
  destruct (uniform_ids close corners M t els Hc H4 E Me) as [L [_ H]]. apply interleave_perm in It.
  assert (Hids : forall q, q < t_elements t -> exists e, In e els /\ n_id e = q).
  { intros q Hq. rewrite <- L in Hq. destruct (H q Hq) as [e [He <-]]. exists e. split; [eapply nth_error_In; eauto|reflexivity]. }
  apply (Permutation_map fst) in It. split.
  - eapply Permutation_NoDup; [exact It|]. apply addresses_nodup; assumption.
  - intros r c. rewrite <- (addresses_range vd k (t_elements t) form els L Hids). split; apply Permutation_in; [apply Permutation_sym|]; exact It.
Qed.

(** C33: the matrix does not depend on the schedule, nor on the memory it is written to *)
Theorem C33_assembly : forall (Pt : Type) (close : Pt -> Pt -> bool) corners M t els vd k form m,
  corners <> [] -> (forall c, In c corners -> length c = 4) -> init_tree close corners M = Some t -> mesh_elements t els ->
  assembled vd k (t_elements t) form els m ->
  forall i j e1 e2 a b, i < vd -> j < vd -> In e1 els -> In e2 els -> a < k -> b < k ->
    m (row_of k (t_elements t) i a e1) (row_of k (t_elements t) j b e2) = form e1 e2 (i * k + a) (j * k + b).
Proof.
  intros Pt close corners M t els vd k form m Hc H4 E Me Am.
  destruct (uniform_ids close corners M t els Hc H4 E Me) as [L [_ H]].
  assert (Hids : forall q, q < t_elements t -> exists e, In e els /\ n_id e = q).
  { intros q Hq. rewrite <- L in Hq. destruct (H q Hq) as [e [He <-]]. exists e. split; [eapply nth_error_In; eauto|reflexivity]. }
  apply (assembled_entry vd k (t_elements t) form els L Hids m Am).
Qed.

(** every row of the matrix is one of these *)
Theorem C33_rows_covered : forall (Pt : Type) (close : Pt -> Pt -> bool) corners M t els vd k r,
  corners <> [] -> (forall c, In c corners -> length c = 4) -> init_tree close corners M = Some t -> mesh_elements t els ->
  r < vd * k * t_elements t ->
  exists i a e, i < vd /\ a < k /\ In e els /\ r = row_of k (t_elements t) i a e.
Proof.
  intros Pt close corners M t els vd k r Hc H4 E Me Hr.
  destruct (uniform_ids close corners M t els Hc H4 E Me) as [L [_ H]].
  assert (Hids : forall q, q < t_elements t -> exists e, In e els /\ n_id e = q).
  { intros q Hq. rewrite <- L in Hq. destruct (H q Hq) as [e [He <-]]. exists e. split; [eapply nth_error_In; eauto|reflexivity]. }
  destruct (row_decomp vd k (t_elements t) els L Hids r Hr) as [i [q [a [Hi [Hq [Ha ->]]]]]]. rewrite <- L in Hq. destruct (H q Hq) as [e [He Eq]].
  exists i, a, e. unfold row_of. rewrite Eq. split; [assumption|]. split; [assumption|]. split; [eapply nth_error_In; eauto|reflexivity].
Qed.

(** C33: a symmetric bilinear form gives a symmetric Galerkin matrix *)
Theorem C33_symmetric : forall (Pt : Type) (close : Pt -> Pt -> bool) corners M t els vd k form m pr,
  corners <> [] -> (forall c, In c corners -> length c = 4) -> init_tree close corners M = Some t -> mesh_elements t els ->
  assembled vd k (t_elements t) form els m ->
  (forall e1 e2 a b, In e1 els -> In e2 els -> form e1 e2 a b = form e2 e1 b a) ->
  forall u v, projected (vd * k * t_elements t) pr m u v = projected (vd * k * t_elements t) pr m v u.
Proof.
  intros Pt close corners M t els vd k form m pr Hc H4 E Me Am Hs u v. set (D := vd * k * t_elements t). unfold projected.
  assert (Sy : forall q q', q < D -> q' < D -> m q q' = m q' q).
  { intros q q' Hq Hq'.
    destruct (C33_rows_covered Pt close corners M t els vd k q Hc H4 E Me Hq) as [i [a [e1 [Hi [Ha [I1 ->]]]]]].
    destruct (C33_rows_covered Pt close corners M t els vd k q' Hc H4 E Me Hq') as [j [b [e2 [Hj [Hb [I2 ->]]]]]].
    rewrite !(C33_assembly Pt close corners M t els vd k form m Hc H4 E Me Am) by assumption. apply Hs; assumption. }
  rewrite (rsum_ext _ (fun q => rsum (fun q' => pr q u * (m q q' * pr q' v))%R D)) by (intros; rewrite rsum_scal; reflexivity).
  rewrite rsum_swap. apply rsum_ext. intros q Hq. rewrite <- rsum_scal. apply rsum_ext. intros q' Hq'. rewrite (Sy q q' Hq Hq'). lra.
Qed.

(** a matrix is assembled *)
Theorem C33_assembly_exists : forall vd k N form els, exists m, assembled vd k N form els m.
Proof. intros. eexists. exists zero_mat. eexists. split; [apply interleave_seq|reflexivity]. Qed.

(** C33 is false for locally refined meshes: the element numbers restart on every level, so elements share
    numbers (their blocks overwrite each other) and there are numbers beyond the matrix *)
Theorem C33_local_refinement_refuted : exists t els, reachable t /\ mesh_elements t els /\
  (exists e1 e2, In e1 els /\ In e2 els /\ e1 <> e2 /\ n_id e1 = n_id e2) /\
  (exists e, In e els /\ t_elements t <= n_id e).
Proof.
  assert (X : exists ids, (t0 <- init_tree Nat.eqb strip 1 ;; t <- run t0 hist ;; l <- traverse t ;; els <- map_opt (t_store t) l ;;
      Some (t_elements t, map (fun e => (n_id e, n_level e)) els)) = Some (39, ids) /\
      In (4, 2) ids /\ In (4, 1) ids /\ In (97, 3) ids).
  { eexists. split; [vm_compute; reflexivity|]. simpl. tauto. }
  destruct X as [ids [X [I1 [I2 I3]]]].
  apply bind_some in X. destruct X as [t0 [E0 X]]. apply bind_some in X. destruct X as [t [E X]].
  apply bind_some in X. destruct X as [l [El X]]. apply bind_some in X. destruct X as [els [Ee X]]. injection X as X1 <-.
  exists t, els. split.
  - exists nat, Nat.eqb, strip, 1, hist, t0. split; [discriminate|]. split; [apply strip_ok|]. split; [assumption|]. split; [apply hist_valid; assumption|assumption].
  - split; [exists l; auto|].
    apply in_map_iff in I1, I2, I3. destruct I1 as [e1 [Q1 J1]]. destruct I2 as [e2 [Q2 J2]]. destruct I3 as [e3 [Q3 J3]].
    split; [exists e1, e2|exists e3].
    + split; [assumption|]. split; [assumption|]. split; [intros Z; congruence|congruence].
    + split; [assumption|]. injection Q3 as Q3 _. rewrite X1, Q3. lia.
Qed.

(** C50: the potential is the sum over all elements and quadrature points, whatever the schedule *)
Theorem C50_potential : forall f xi w npts odim els nthreads v, 0 < nthreads ->
  potential f xi w npts odim els nthreads v ->
  forall i o, i < npts -> o < odim ->
  v i o = rsum (fun e => match nth_error els e with
    | Some el => rsum (fun j => f el (nth j xi (0, 0)) (Q2R (get_h el) * Q2R (get_h el) * nth j w 0) i o) (length w)
    | None => 0 end)%R (length els).
Proof.
  intros f xi w npts odim els nthreads v Hn R i o Hi Ho. unfold potential in R.
  eapply (region_value _ _ _ (fun m : mat => m i o) (fun m : mat => m i o)) in R; try exact Hn.
  - rewrite R. unfold zero_mat. rewrite Rplus_0_l. reflexivity.
  - intros e acc He. cbv beta. destruct (get els e) as [el|] eqn:G; [|apply nth_error_None in G; lia].
    rewrite potential_body_val by assumption. unfold get in G. rewrite G. reflexivity.
  - reflexivity.
  - reflexivity.
Qed.
Theorem C50_schedule_independent : forall f xi w npts odim els n1 n2 v1 v2, 0 < n1 -> 0 < n2 ->
  potential f xi w npts odim els n1 v1 -> potential f xi w npts odim els n2 v2 ->
  forall i o, i < npts -> o < odim -> v1 i o = v2 i o.
Proof.
  intros f xi w npts odim els n1 n2 v1 v2 H1 H2 P1 P2 i o Hi Ho.
  rewrite (C50_potential f xi w npts odim els n1 v1 H1 P1 i o Hi Ho), (C50_potential f xi w npts odim els n2 v2 H2 P2 i o Hi Ho). reflexivity.
Qed.
Theorem C50_execution_exists : forall f xi w npts odim els nthreads, exists v, potential f xi w npts odim els nthreads v.
Proof. intros. apply region_exists. Qed.

(** ** concrete cases *)
(** two threads, two elements: thread 1 takes the first element, thread 0 the second, thread 1 commits first *)
Example schedule_example : forall (body : nat -> nat -> nat), body 0 0 = 1 -> body 1 0 = 10 ->
  parallel_region 2 2 body (fun a v => v + a) 0 0 11.
Proof.
  intros body B0 B1. exists (mkTeam [1; 0] [(3, 10); (3, 1)] 11). split; [|split; [|reflexivity]].
  - eapply steps_cons. { eapply (step_take 2 body _ (mkTeam [] [(0, 0); (0, 0)] 0) 1 0 0); [reflexivity|lia|simpl; tauto|reflexivity]. }
    rewrite B0. cbn [claimed shared].
    eapply steps_cons. { eapply (step_skip 2 body _ (mkTeam [0] [(0, 0); (1, 1)] 0) 0 0 0); [reflexivity|lia|simpl; tauto|reflexivity]. }
    eapply steps_cons. { eapply (step_take 2 body _ (mkTeam [0] [(1, 0); (1, 1)] 0) 0 1 0); [reflexivity|lia|simpl; intros [?|[]]; discriminate|reflexivity]. }
    rewrite B1. cbn [claimed shared].
    eapply steps_cons. { eapply (step_skip 2 body _ (mkTeam [1; 0] [(2, 10); (1, 1)] 0) 1 1 1); [reflexivity|lia|simpl; tauto|reflexivity]. }
    eapply steps_cons. { eapply (step_critical 2 body _ (mkTeam [1; 0] [(2, 10); (2, 1)] 0) 1 1); reflexivity. }
    eapply steps_cons. { eapply (step_critical 2 body _ (mkTeam [1; 0] [(2, 10); (3, 1)] 1) 0 10); reflexivity. }
    apply steps_refl.
  - intros [|[|k]] i a G; unfold get in G; simpl in G; try (injection G as <- <-; reflexivity). destruct k; discriminate.
Qed.
Example assembly_example : exists t els, init_tree Nat.eqb strip 1 = Some t /\ mesh_elements t els /\ length els = 12.
Proof.
  assert (X : exists n, (t <- init_tree Nat.eqb strip 1 ;; l <- traverse t ;; els <- map_opt (t_store t) l ;; Some (length els)) = Some n /\ n = 12).
  { eexists. split; [vm_compute; reflexivity|reflexivity]. }
  destruct X as [n [X ->]]. apply bind_some in X. destruct X as [t [E X]]. apply bind_some in X. destruct X as [l [El X]].
  apply bind_some in X. destruct X as [els [Ee X]]. injection X as X. exists t, els. split; [assumption|]. split; [exists l; auto|assumption].
Qed.

(* BEGIN ASSUMPTIONS *)
Print Assumptions C33_each_entry_once.
Print Assumptions C33_assembly.
Print Assumptions C33_rows_covered.
Print Assumptions C33_symmetric.
Print Assumptions C33_assembly_exists.
Print Assumptions C33_local_refinement_refuted.
Print Assumptions C50_potential.
Print Assumptions C50_schedule_independent.
Print Assumptions C50_execution_exists.
