(** C10-C13: element tree.  Statements use ModelTree (the code) and SpecTree (vocabulary). *)
From Coq Require Import List Arith Bool Lia QArith Permutation.
From Verif Require Import ModelBase ModelTree SpecTree ProofTree ProofTreeWF ProofTreeHist ProofTreeGeo ProofTreeLook.
Import ListNotations.
Local Close Scope Q_scope.
Local Open Scope nat_scope.

(** initialisation with level M *)
Theorem C10_uniform_elements : forall (Pt : Type) (close : Pt -> Pt -> bool) corners M,
  corners <> [] -> (forall c, In c corners -> length c = 4) ->
  exists t l, init_tree close corners M = Some t /\ traverse t = Some l /\
    length l = length corners * 4 ^ M /\ t_elements t = length corners * 4 ^ M /\ t_maxlevel t = M /\
    NoDup l /\ (forall a, In a l <-> is_leaf t a) /\
    (forall k, k < length corners * 4 ^ M -> exists n, t_store t (nth k l []) = Some n /\
       n_id n = k /\ n_level n = M /\ n_patch n = k / 4 ^ M).
Proof.
  intros Pt close corners M Hc H4.
  destruct (init_tree_ok close corners M H4) as [t [l [E [W [P [A ML]]]]]].
  assert (HP : 0 < t_patches t) by (rewrite P; destruct corners; [congruence|simpl; lia]).
  destruct (uniform_list t l M W A) as [HL HN]. rewrite P in HL.
  exists t, l. split; [assumption|]. split; [apply traverse_ok; assumption|]. split; [assumption|].
  split; [rewrite <- (wf_count t l W); assumption|]. split; [assumption|]. split; [apply (wf_nodup t l W)|].
  split; [apply (wf_leaf t l W)|]. intros k Hk. destruct (HN k) as [Hi Hl]; [lia|].
  assert (Ik : In (nth k l []) l) by (apply nth_In; lia).
  apply (wf_leaf t l W) in Ik. destruct Ik as [n [En _]]. exists n. split; [assumption|].
  pose proof (wf_node t l W _ n En) as K. split; [rewrite (nk_id _ _ K); assumption|].
  split; [rewrite (nk_level _ _ K); assumption|]. rewrite (nk_patch _ _ K).
  rewrite <- pos_patch_div by (eapply wf_vaddr; [exact W|congruence]). rewrite Hi, Hl. reflexivity.
Qed.

(** every valid history of refinements is free of undefined behaviour *)
Theorem C10_histories_defined : forall (Pt : Type) (close : Pt -> Pt -> bool) corners M t0 os,
  corners <> [] -> (forall c, In c corners -> length c = 4) ->
  init_tree close corners M = Some t0 -> ops_valid t0 os ->
  exists t, run t0 os = Some t /\ reachable t /\ t_patches t = length corners.
Proof.
  intros Pt close corners M t0 os Hc H4 E0 V.
  destruct (init_tree_ok close corners M H4) as [t0' [l0 [E0' [W0 [P0 _]]]]]. assert (t0' = t0) by congruence. subst t0'.
  destruct (run_ok os t0 l0 W0 V) as [t' [l' [E' [W' P']]]]. exists t'. split; [assumption|].
  split; [|congruence]. exists Pt, close, corners, M, os, t0. auto.
Qed.

(** after any history (local refinement included) the traversal visits each leaf exactly once and
    in an order in which the leaves partition the finest ids from left to right *)
Theorem C10_any_history_traversal : forall t, reachable t ->
  exists l, traverse t = Some l /\ NoDup l /\ (forall a, In a l <-> is_leaf t a) /\
    length l = t_elements t /\
    (forall a n, In a l -> t_store t a = Some n -> n_level n <= t_maxlevel t) /\
    contiguous (t_maxlevel t) 0
      (map (fun a => match t_store t a with Some n => (n_id n, n_level n) | None => (0, 0) end) l)
      (t_patches t * 4 ^ t_maxlevel t).
Proof.
  intros t R. destruct (reachable_wf t R) as [[l W] HP]. exists l.
  split; [apply traverse_ok; assumption|]. split; [apply (wf_nodup t l W)|]. split; [apply (wf_leaf t l W)|].
  split; [apply (wf_count t l W)|].
  assert (Hlev : forall a, In a l -> pos_level a <= t_maxlevel t).
  { intros a Ha. apply (wf_leaf t l W) in Ha. destruct Ha as [n [En _]]. apply (wf_ml t l W). congruence. }
  split.
  - intros a n Ha En. rewrite (nk_level _ _ (wf_node t l W a n En)). auto.
  - rewrite (node_list_eq t l W). apply (wf_order t l W). exact Hlev.
Qed.

(** iteration over a cluster visits exactly the leaves of the cluster, as a contiguous part of the traversal *)
Theorem C10_cluster_iteration : forall t a, reachable t -> exists_node t a ->
  exists l1 m l2, traverse t = Some (l1 ++ m ++ l2) /\ cluster_elements t a = Some m /\
    (forall b, In b m <-> is_leaf t b /\ under a b).
Proof.
  intros t a R Ha. destruct (reachable_wf t R) as [[l W] HP].
  destruct (cluster_split t l a W Ha HP) as [l1 [m [l2 [E [C [_ [H _]]]]]]].
  exists l1, m, l2. split; [rewrite <- E; apply traverse_ok; assumption|]. auto.
Qed.

(** data of every node: id, level, patch and lower left corner are those of its position in the tree *)
Theorem C10_node_data : forall t a n, reachable t -> t_store t a = Some n ->
  n_id n = pos_id a /\ n_level n = pos_level a /\ n_patch n = pos_patch a /\
  (fst (n_llc n) == inject_Z (Z.of_nat (pos_x a)) / pow2Q (pos_level a) /\
   snd (n_llc n) == inject_Z (Z.of_nat (pos_y a)) / pow2Q (pos_level a))%Q.
Proof.
  intros t a n R En. destruct (reachable_wf t R) as [[l W] HP]. pose proof (wf_node t l W a n En) as K.
  destruct K. auto.
Qed.

(** C11: tiling, for every history *)
Theorem C11_leaves_tile_patches : forall t p x y, reachable t -> p < t_patches t ->
  (0 <= x)%Q -> (x < 1)%Q -> (0 <= y)%Q -> (y < 1)%Q ->
  exists! a, is_leaf t a /\ exists n, t_store t a = Some n /\ n_patch n = p /\ covers n x y.
Proof.
  intros t p x y R. destruct (reachable_wf t R) as [[l W] HP]. intros. eapply tiling; eauto.
Qed.

(** C12 *)
Theorem C12_reordering_is_permutation : forall (Pt : Type) (close : Pt -> Pt -> bool) corners M t,
  corners <> [] -> (forall c, In c corners -> length c = 4) -> init_tree close corners M = Some t ->
  exists rv, reordering_vector t = Some rv /\ Permutation rv (seq 0 (length corners * 4 ^ M)).
Proof.
  intros Pt close corners M t Hc H4 E. destruct (init_tree_ok close corners M H4) as [t' [l [E' [W [P [A ML]]]]]].
  assert (t' = t) by congruence. subst t'.
  destruct (reordering_ok t l M W A ML) as [rv [Er [Pr _]]]; [rewrite P; destruct corners; [congruence|simpl; lia]|].
  exists rv. rewrite <- P. auto.
Qed.

Theorem C12_lookup_finds_element : forall (Pt : Type) (close : Pt -> Pt -> bool) corners M t rv p x y,
  corners <> [] -> (forall c, In c corners -> length c = 4) -> init_tree close corners M = Some t ->
  reordering_vector t = Some rv -> p < length corners ->
  (0 <= x)%Q -> (x <= 1)%Q -> (0 <= y)%Q -> (y <= 1)%Q ->
  exists a n u v, locate t rv p x y = Some (a, (u, v)) /\ is_leaf t a /\ t_store t a = Some n /\ n_patch n = p /\
    in_closed n x y /\ (0 <= u <= 1 /\ 0 <= v <= 1)%Q /\
    (x == fst (n_llc n) + get_h n * u /\ y == snd (n_llc n) + get_h n * v)%Q.
Proof.
  intros Pt close corners M t rv p x y Hc H4 E Er Hp. destruct (init_tree_ok close corners M H4) as [t' [l [E' [W [P [A ML]]]]]].
  assert (t' = t) by congruence. subst t'. intros. eapply locate_ok; eauto. rewrite P. assumption.
Qed.

(** C13 *)
Theorem C13_global_ids_distinct : forall t a b na nb, reachable t ->
  t_store t a = Some na -> t_store t b = Some nb -> global_id t na = global_id t nb -> a = b.
Proof.
  intros t a b na nb R. destruct (reachable_wf t R) as [[l W] HP]. intros. eapply global_id_inj; eauto.
Qed.

Theorem C13_global_ids_of_a_level : forall (Pt : Type) (close : Pt -> Pt -> bool) corners M t lev g,
  corners <> [] -> (forall c, In c corners -> length c = 4) -> init_tree close corners M = Some t -> lev <= M ->
  let P := length corners in
  (exists a n, t_store t a = Some n /\ n_level n = lev /\ global_id t n = g) <->
  P * ((4 ^ lev - 1) / 3) <= g < P * ((4 ^ (lev + 1) - 1) / 3).
Proof.
  intros Pt close corners M t lev g Hc H4 E Hl P. destruct (init_tree_ok close corners M H4) as [t' [l [E' [W [HP [A ML]]]]]].
  assert (t' = t) by congruence. subst t'. split.
  - intros [a [n [En [Ln <-]]]]. pose proof (wf_node t l W a n En) as K. unfold P. rewrite <- HP, <- Ln.
    apply (global_id_level t a); auto; [eapply wf_vaddr; [exact W|congruence]|].
    apply (wf_addr_patch t l a W). congruence.
  - intros H. destruct (uniform_all_ids t l M W A lev (g - P * ((4 ^ lev - 1) / 3)) Hl) as [a [Ha [La Ia]]].
    + rewrite HP. fold P. pose proof (pow4_pos lev). set (w := 4 ^ lev) in *.
      assert (D : (4 ^ (lev + 1) - 1) / 3 = w + (w - 1) / 3).
      { rewrite Nat.pow_add_r. fold w. change (4 ^ 1) with 4. replace (w * 4 - 1) with (w - 1 + w * 3) by lia.
        rewrite Nat.div_add by lia. lia. }
      rewrite D in H. nia.
    + destruct (t_store t a) as [n|] eqn:En; [|congruence]. exists a, n. pose proof (wf_node t l W a n En) as K.
      split; [assumption|]. split; [rewrite (nk_level _ _ K); assumption|]. unfold global_id.
      rewrite <- pow4_2, (nk_level _ _ K), (nk_id _ _ K), La, Ia, HP. fold P. lia.
Qed.

(** ** concrete cases *)
Definition strip : list (list nat) := [[0;1;2;3]; [1;4;5;2]; [4;6;7;5]].
Example strip_ok : strip <> [] /\ (forall c, In c strip -> length c = 4).
Proof. split; [discriminate|]. simpl. intros c H. repeat destruct H as [<-|H]; reflexivity || tauto. Qed.

(** a history with local refinement: uniform level 1, refine node [2;1] twice, then patch 0 *)
Definition hist : list op := [OpNode [2; 1]; OpNode [2; 1]; OpPatch 0].
Example hist_runs : exists t, (t0 <- init_tree Nat.eqb strip 1 ;; run t0 hist) = Some t /\ t_elements t = 39 /\ t_maxlevel t = 3.
Proof. eexists. split; [vm_compute; reflexivity|]. split; reflexivity. Qed.
Example hist_valid : forall t0, init_tree Nat.eqb strip 1 = Some t0 -> ops_valid t0 hist.
Proof.
  intros t0 E. assert (E' : Some t0 = init_tree Nat.eqb strip 1) by congruence. clear E.
  vm_compute in E'. injection E' as ->. 
  split; [vm_compute; discriminate|]. intros t1 E1. vm_compute in E1. injection E1 as <-.
  split; [vm_compute; discriminate|]. intros t2 E2. vm_compute in E2. injection E2 as <-.
  split; [vm_compute; lia|]. intros; exact I.
Qed.
(** the reordering vector of one patch at level 2 *)
Example reorder_example : (t <- init_tree Nat.eqb [[0;1;2;3]] 2 ;; reordering_vector t)
  = Some [0; 1; 4; 5; 3; 2; 7; 6; 12; 13; 8; 9; 15; 14; 11; 10].
Proof. vm_compute. reflexivity. Qed.
(** point (1, 1/2) lies on the boundary: element [1;2;0] of patch 0 is used, local coordinates (1, 0) *)
Example locate_example : (t <- init_tree Nat.eqb [[0;1;2;3]] 2 ;; rv <- reordering_vector t ;; 
   r <- locate t rv 0 1 (1 # 2)%Q ;; Some (fst r)) = Some [1; 2; 0].
Proof. vm_compute. reflexivity. Qed.

(* BEGIN ASSUMPTIONS *)
Print Assumptions C10_uniform_elements.
Print Assumptions C10_histories_defined.
Print Assumptions C10_any_history_traversal.
Print Assumptions C10_cluster_iteration.
Print Assumptions C10_node_data.
Print Assumptions C11_leaves_tile_patches.
Print Assumptions C12_reordering_is_permutation.
Print Assumptions C12_lookup_finds_element.
Print Assumptions C13_global_ids_distinct.
Print Assumptions C13_global_ids_of_a_level.
