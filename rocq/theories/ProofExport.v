(** Element lists and exports (C70, C71). *)
From Coq Require Import String List Arith Bool Lia ZArith Reals QArith Qreals Lra.
From Verif Require Import ModelBase ModelTree ModelBall ModelExport SpecTree SpecMesh SpecExport ProofTree ProofTreeWF ProofTreeHist ProofTreeGeo ProofTreeLook ProofTopo ProofConf ProofConfStep ProofConfTree ProofConfHist ProofConfPts ProofConfIdx.
Import ListNotations.
Local Close Scope Q_scope.
Local Open Scope nat_scope.

(** ** tables *)
Lemma by_counter_ok : forall {A} (f : addr -> node -> option A) (g : addr -> A) (s : store) (l : list addr) i out,
  (forall a, In a l -> exists n, s a = Some n /\ f a n = Some (g a)) -> i + length l <= length out ->
  exists out', by_counter f s l i out = Some out' /\ length out' = length out /\
    (forall j, j < length out -> nth j out' None =
       if (i <=? j) && (j <? i + length l) then Some (g (nth (j - i) l [])) else nth j out None).
Proof.
  intros A f g s l. induction l as [|a l IH]; intros i out H L; cbn [by_counter].
  - exists out. split; [reflexivity|]. split; [reflexivity|]. intros j Hj.
    destruct (Nat.leb_spec i j), (Nat.ltb_spec j (i + length (@nil addr))); simpl in *; try reflexivity; lia.
  - destruct (H a (or_introl eq_refl)) as [n [En Ef]]. rewrite En. cbn [bind]. rewrite Ef. cbn [bind]. simpl in L.
    destruct (set_spec out i (Some (g a))) as [out1 [E1 [L1 N1]]]; [lia|]. rewrite E1. cbn [bind].
    destruct (IH (S i) out1) as [out' [E' [L' N']]]; [intros b Hb; apply H; right; assumption|lia|].
    exists out'. split; [assumption|]. split; [lia|]. intros j Hj. rewrite N' by lia. rewrite N1. cbn [length].
    destruct (Nat.leb_spec (S i) j), (Nat.ltb_spec j (S i + length l)), (Nat.leb_spec i j), (Nat.ltb_spec j (i + S (length l))), (Nat.eqb_spec j i);
      cbn [andb]; try lia; try reflexivity.
    + replace (j - i) with (S (j - S i)) by lia. reflexivity.
    + subst j. rewrite Nat.sub_diag. reflexivity.
Qed.
Lemma nth_ext_map : forall {A B} (g : A -> B) l (out : list (option B)) (d : A), length out = length l ->
  (forall j, j < length l -> nth j out None = Some (g (nth j l d))) -> out = map (fun a => Some (g a)) l.
Proof.
  intros A B g l out d L H. apply (nth_ext _ _ None None); [rewrite map_length; assumption|]. intros j Hj. rewrite H by lia.
  rewrite (nth_indep _ None (Some (g d))) by (rewrite map_length; lia). rewrite (map_nth (fun a => Some (g a))). reflexivity.
Qed.

Lemma element_table_ok : forall {A} (f : addr -> node -> option A) (g : addr -> A) t l, WF t l -> 0 < t_patches t ->
  (forall a n, is_leaf t a -> t_store t a = Some n -> f a n = Some (g a)) ->
  element_table f t = Some (map (fun a => Some (g a)) l).
Proof.
  intros A f g t l W HP H. unfold element_table. rewrite (traverse_ok t l W HP). cbn [bind].
  destruct (by_counter_ok f g (t_store t) l 0 (repeat None (t_elements t))) as [out [E [L N]]].
  - intros a Ha. apply (wf_leaf t l W) in Ha. pose proof Ha as [n [En _]]. exists n. split; [assumption|]. apply H; assumption.
  - rewrite repeat_length, <- (wf_count t l W). lia.
  - rewrite E. f_equal. rewrite repeat_length, <- (wf_count t l W) in *. apply (nth_ext_map g l out []); [assumption|].
    intros j Hj. rewrite N by assumption. rewrite (proj2 (Nat.ltb_lt j (0 + length l))) by lia. simpl. rewrite Nat.sub_0_r. reflexivity.
Qed.

Lemma by_id_ok : forall {A} (f : addr -> node -> option A) (g : addr -> A) (s : store) (l : list addr) k out,
  (forall j, j < length l -> exists n, s (nth j l []) = Some n /\ n_id n = k + j /\ f (nth j l []) n = Some (g (nth j l []))) ->
  k + length l <= length out ->
  exists out', by_id f s l out = Some out' /\ length out' = length out /\
    (forall j, j < length out -> nth j out' None =
       if (k <=? j) && (j <? k + length l) then Some (g (nth (j - k) l [])) else nth j out None).
Proof.
  intros A f g s l. induction l as [|a l IH]; intros i out H L; cbn [by_id].
  - exists out. split; [reflexivity|]. split; [reflexivity|]. intros j Hj.
    simpl. destruct (Nat.leb_spec i j), (Nat.ltb_spec j (i + 0)); cbn [andb]; try reflexivity. lia.
  - destruct (H 0 ltac:(simpl; lia)) as [n [En [Ei Ef]]]. cbn [nth] in En, Ef. rewrite En. cbn [bind]. rewrite Ef. cbn [bind]. simpl in L.
    rewrite Nat.add_0_r in Ei. rewrite Ei.
    destruct (set_spec out i (Some (g a))) as [out1 [E1 [L1 N1]]]; [lia|]. rewrite E1. cbn [bind].
    destruct (IH (S i) out1) as [out' [E' [L' N']]]; [|lia|].
    { intros j Hj. destruct (H (S j)) as [m [Em [Im Fm]]]; [simpl; lia|]. cbn [nth] in Em, Fm. exists m. split; [assumption|]. split; [lia|assumption]. }
    exists out'. split; [assumption|]. split; [lia|]. intros j Hj. rewrite N' by lia. rewrite N1. cbn [length].
    destruct (Nat.leb_spec (S i) j), (Nat.ltb_spec j (S i + length l)), (Nat.leb_spec i j), (Nat.ltb_spec j (i + S (length l))), (Nat.eqb_spec j i);
      cbn [andb]; try lia; try reflexivity.
    + replace (j - i) with (S (j - S i)) by lia. reflexivity.
    + subst j. rewrite Nat.sub_diag. reflexivity.
Qed.

Lemma id_table_ok : forall {A} (f : addr -> node -> option A) (g : addr -> A) t l M, WF t l -> 0 < t_patches t -> all_level t M ->
  (forall a n, is_leaf t a -> t_store t a = Some n -> f a n = Some (g a)) ->
  id_table f t (length l) = Some (map (fun a => Some (g a)) l).
Proof.
  intros A f g t l M W HP U H. unfold id_table. rewrite (traverse_ok t l W HP). cbn [bind].
  destruct (uniform_list t l M W U) as [_ Ids].
  destruct (by_id_ok f g (t_store t) l 0 (repeat None (length l))) as [out [E [L N]]].
  - intros j Hj. assert (Lf : is_leaf t (nth j l [])) by (apply (wf_leaf t l W), nth_In; assumption).
    pose proof Lf as [n [En _]]. exists n. split; [assumption|]. split; [|apply H; assumption].
    rewrite (nk_id _ _ (wf_node t l W _ n En)). apply Ids. assumption.
  - rewrite repeat_length. apply Nat.le_refl.
  - rewrite E. f_equal. rewrite repeat_length in *. apply (nth_ext_map g l out []); [assumption|].
    intros j Hj. rewrite N by assumption. rewrite (proj2 (Nat.ltb_lt j (0 + length l))) by lia. simpl. rewrite Nat.sub_0_r. reflexivity.
Qed.

(** ** elements of a uniform tree by their coordinates *)
Lemma uniform_coords : forall t l M, WF t l -> all_level t M -> forall lev p X Y, lev <= M -> p < t_patches t -> X < 2 ^ lev -> Y < 2 ^ lev ->
  exists a, t_store t a <> None /\ pos_level a = lev /\ pos_patch a = p /\ pos_x a = X /\ pos_y a = Y.
Proof.
  intros t l M W U lev. induction lev as [|lev IH]; intros p X Y Hl Hp HX HY.
  - exists [p]. split; [apply (wf_patch t l W); assumption|]. simpl in HX, HY. unfold pos_patch. simpl. repeat split; lia.
  - rewrite Nat.pow_succ_r' in HX, HY. destruct (IH p (X / 2) (Y / 2)) as [a [Ha [La [Pa [Xa Ya]]]]]; [lia|assumption|apply Nat.div_lt_upper_bound; lia|apply Nat.div_lt_upper_bound; lia|].
    assert (Hne : a <> []) by (eapply wf_nonroot; eauto).
    assert (Q : exists i, i < 4 /\ quad_x i = X mod 2 /\ quad_y i = Y mod 2).
    { pose proof (Nat.mod_upper_bound X 2 ltac:(lia)). pose proof (Nat.mod_upper_bound Y 2 ltac:(lia)).
      destruct (X mod 2) as [|[|]], (Y mod 2) as [|[|]]; try lia; [exists 0|exists 3|exists 1|exists 2]; simpl; lia. }
    destruct Q as [i [Hi [Qx Qy]]]. exists (i :: a). split.
    { destruct (t_store t a) as [n|] eqn:En; [|congruence]. destruct (n_ref n) eqn:Er; [eapply wf_refined_son; eauto|].
      exfalso. assert (pos_level a = M) by (apply U; exists n; auto). lia. }
    split; [rewrite pos_level_cons by assumption; lia|]. split.
    { unfold pos_patch in *. destruct a; [congruence|exact Pa]. }
    rewrite pos_x_cons, pos_y_cons by assumption. rewrite Xa, Ya, Qx, Qy. rewrite <- !Nat.div_mod by lia. auto.
Qed.
Lemma uniform_leaf : forall t l M a, WF t l -> all_level t M -> t_store t a <> None -> pos_level a = M -> is_leaf t a.
Proof.
  intros t l M a W U Ha La. destruct (t_store t a) as [n|] eqn:En; [|congruence]. destruct (n_ref n) eqn:Er; [|exists n; auto].
  exfalso. assert (Hne : a <> []) by (eapply wf_nonroot; [exact W|congruence]).
  (* the first leaf below a son is deeper *)
  assert (D : forall k b, t_store t b <> None -> M < pos_level b -> t_maxlevel t < pos_level b + k -> False).
  { induction k as [|k IH]; intros b Hb Lb Hk.
    - pose proof (wf_ml t l W b Hb). lia.
    - destruct (t_store t b) as [m|] eqn:Em; [|congruence]. destruct (n_ref m) eqn:Rm.
      + assert (Hnb : b <> []) by (intros ->; rewrite (wf_root t l W) in Em; congruence).
        apply (IH (0 :: b)); [eapply wf_refined_son; eauto; lia|rewrite pos_level_cons by assumption; lia|rewrite pos_level_cons by assumption; lia].
      + assert (pos_level b = M) by (apply U; exists m; auto). lia. }
  apply (D (S (t_maxlevel t)) (0 :: a)).
  - eapply wf_refined_son; eauto; lia.
  - rewrite pos_level_cons by assumption. lia.
  - rewrite pos_level_cons by assumption. lia.
Qed.

(** ** neighbours of the elements *)
Section Nbr.
Variable verts : list (list nat).
Hypothesis M : mesh_ok verts.
Variable t : tree.
Variable l : list addr.
Hypothesis W : WF t l.
Hypothesis Ov : over verts t.
Notation s := (t_store t).
Notation sp := (same_point verts).

(** twice the midpoint of edge i *)
Definition mx (a : addr) (i : nat) : nat := px a i + px a (nx i).
Definition my (a : addr) (i : nat) : nat := py a i + py a (nx i).

Lemma same_edge_mid : forall n a i b j, exs s a -> exs s b -> length a = S n -> length b = S n -> i < 4 -> j < 4 ->
  (se s a i b j <-> sp (2 * 2 ^ n) (pos_patch a) (mx a i) (my a i) (pos_patch b) (mx b j) (my b j)).
Proof.
  intros n a i b j Xa Xb La Lb Hi Hj. unfold same_edge.
  rewrite !(same_level verts M t l W Ov n) by (auto using nx_lt).
  assert (Pa : pos_patch a < length verts) by (eapply patch_lt; eassumption).
  assert (Pb : pos_patch b < length verts) by (eapply patch_lt; eassumption).
  pose proof (pow2_pos n) as HE.
  assert (B : forall c k, exs s c -> length c = S n -> px c k <= 2 ^ n /\ py c k <= 2 ^ n).
  { intros c k Xc Lc. pose proof (pos_bound t l W c k Xc) as B. unfold pos_level in B. rewrite Lc in B. simpl in B. rewrite Nat.sub_0_r in B. exact B. }
  unfold mx, my. split.
  - intros [[H1 H2]|[H1 H2]].
    + apply mid_same_2; auto using slot_adjacent.
    + rewrite (Nat.add_comm (px b j)), (Nat.add_comm (py b j)). apply mid_same_2; auto using slot_adjacent.
      pose proof (slot_adjacent b j Hj). unfold adjacent in *. lia.
  - intros H. apply mid_same_1 in H; auto using slot_adjacent; try apply B; auto.
Qed.

Lemma mid_on_edge : forall n a i k r, exs s a -> length a = S n -> i < 4 -> k < 4 ->
  on_edge (2 * 2 ^ n) k r (mx a i) (my a i) -> k = i /\ on_patch_edge (2 ^ n) i (pos_x a) (pos_y a).
Proof.
  intros n a i k r Xa La Hi Hk [H1 H2].
  destruct (pos_xy_lt a (wf_vaddr t l a W Xa)) as [Bx By]. unfold pos_level in Bx, By. rewrite La in Bx, By. simpl in Bx, By. rewrite Nat.sub_0_r in Bx, By.
  unfold mx, my, px, py, nx, on_patch_edge in *. four Hi; four Hk; simpl in *; lia.
Qed.
Lemma mid_corner : forall n a i k, exs s a -> length a = S n -> i < 4 -> k < 4 -> ~ corner_pos (2 * 2 ^ n) k (mx a i) (my a i).
Proof.
  intros n a i k Xa La Hi Hk C. apply (corner_parity verts) in C. apply (em verts (mx a i) (my a i)); [exact C|]. apply (adj_mid verts). unfold adjacent, px, py, nx. four Hi; simpl; lia.
Qed.

(** neighbour across an edge: either in the same patch, or across glued patch edges *)
Lemma nbr_cases : forall n a i b j, exs s a -> exs s b -> length a = S n -> length b = S n -> i < 4 -> j < 4 -> (b, j) <> (a, i) ->
  se s a i b j ->
  (pos_patch a = pos_patch b /\ ~ on_patch_edge (2 ^ n) i (pos_x a) (pos_y a)) \/
  (pos_patch a <> pos_patch b /\ on_patch_edge (2 ^ n) i (pos_x a) (pos_y a) /\ glued verts (pos_patch a) i (pos_patch b) j).
Proof.
  intros n a i b j Xa Xb La Lb Hi Hj Ne S. apply (same_edge_mid n) in S; auto.
  assert (Pa : pos_patch a < length verts) by (eapply patch_lt; eassumption).
  assert (G : pos_patch a = pos_patch b -> mx a i = mx b j /\ my a i = my b j -> ~ on_patch_edge (2 ^ n) i (pos_x a) (pos_y a)).
  { intros Ep [Ex Ey] F.
    destruct (pos_xy_lt b (wf_vaddr t l b W Xb)) as [Bx By]. unfold pos_level in Bx, By. rewrite Lb in Bx, By. simpl in Bx, By. rewrite Nat.sub_0_r in Bx, By.
    destruct (pos_xy_lt a (wf_vaddr t l a W Xa)) as [Ax Ay]. unfold pos_level in Ax, Ay. rewrite La in Ax, Ay. simpl in Ax, Ay. rewrite Nat.sub_0_r in Ax, Ay.
    assert (E : j = i /\ pos_x a = pos_x b /\ pos_y a = pos_y b).
    { unfold mx, my, px, py, nx, on_patch_edge in *. four Hi; four Hj; simpl in *; lia. }
    destruct E as [-> [E1 E2]]. apply Ne. f_equal. symmetry.
    apply pos_unique; auto; try congruence; eapply wf_vaddr; eassumption. }
  destruct S as [[Ep E]|[[k [m [Hk [Hm [C1 _]]]]]|[k [m [r [r' [Hk [Hm [O1 [O2 Gl]]]]]]]]]].
  - left. auto.
  - exfalso. eapply (mid_corner n a i k); eassumption.
  - destruct (mid_on_edge n a i k r Xa La Hi Hk O1) as [-> F1]. destruct (mid_on_edge n b j m r' Xb Lb Hj Hm O2) as [-> F2].
    right. assert (Gd : glued verts (pos_patch a) i (pos_patch b) j) by (destruct Gl as [[A _]|[A _]]; [left|right]; assumption).
    split; [|split; assumption]. intros Ep. rewrite <- Ep in Gl, Gd. destruct Gl as [[A <-]|[A _]].
    + apply (aligned_self verts M) in A; auto. subst j.
      apply (G Ep); [|assumption]. apply (on_edge_fun verts _ _ _ _ _ _ _ Hi O1 O2).
    + apply (opposed_self verts M) in A; auto.
Qed.


Lemma len_level : forall a, exs s a -> length a = S (pos_level a).
Proof. intros a Xa. pose proof (wf_nonroot t l a W Xa). unfold pos_level. destruct a; [congruence|simpl; lia]. Qed.

Variable L : nat.
Hypothesis U : all_level t L.

Lemma adj_interior : forall a i, is_leaf t a -> i < 4 -> ~ on_patch_edge (2 ^ L) i (pos_x a) (pos_y a) ->
  exists b, adj_at s a i = Some b /\ pos_patch b = pos_patch a.
Proof.
  intros a i La Hi F. pose proof (U a La) as Lv. assert (Xa : exs s a) by (destruct La as [n [En _]]; unfold exs; congruence).
  destruct (pos_xy_lt a (wf_vaddr t l a W Xa)) as [Ax Ay]. rewrite Lv in Ax, Ay.
  destruct (wf_addr_patch t l a W Xa) as [_ Pa].
  set (X' := match i with 1 => pos_x a + 1 | 3 => pos_x a - 1 | _ => pos_x a end).
  set (Y' := match i with 0 => pos_y a - 1 | 2 => pos_y a + 1 | _ => pos_y a end).
  set (j := match i with 0 => 2 | 1 => 3 | 2 => 0 | _ => 1 end).
  destruct (uniform_coords t l L W U L (pos_patch a) X' Y') as [b [Xb [Lb [Pb [Ex Ey]]]]]; [lia|assumption| | |].
  { unfold X', on_patch_edge in *. four Hi; simpl in *; lia. }
  { unfold Y', on_patch_edge in *. four Hi; simpl in *; lia. }
  exists b. split; [|assumption]. destruct Ov as [K _]. apply (cf_adj t K a i b Xa Hi). exists j.
  assert (Hj : j < 4) by (unfold j; four Hi; simpl; lia).
  split; [assumption|]. split; [assumption|]. rewrite (len_level a Xa), (len_level b Xb), Lv, Lb. split; [reflexivity|]. split.
  { intros E. injection E as -> E. revert E. unfold j. four Hi; simpl; lia. }
  apply (same_edge_mid L); auto; [rewrite (len_level a Xa); congruence|rewrite (len_level b Xb); congruence|].
  left. split; [congruence|]. unfold mx, my, px, py. rewrite Ex, Ey. unfold X', Y', j, nx, on_patch_edge in *. four Hi; simpl in *; lia.
Qed.

Lemma adj_glued : forall a i q j, is_leaf t a -> i < 4 -> j < 4 -> q < length verts -> (q, j) <> (pos_patch a, i) -> glued verts (pos_patch a) i q j ->
  on_patch_edge (2 ^ L) i (pos_x a) (pos_y a) ->
  exists b, adj_at s a i = Some b /\ pos_patch b <> pos_patch a.
Proof.
  intros a i q j La Hi Hj Hq Ne G F. pose proof (U a La) as Lv. assert (Xa : exs s a) by (destruct La as [n [En _]]; unfold exs; congruence).
  destruct (pos_xy_lt a (wf_vaddr t l a W Xa)) as [Ax Ay]. rewrite Lv in Ax, Ay.
  assert (Pa : pos_patch a < length verts) by (eapply patch_lt; eassumption).
  set (E := 2 ^ L) in *.
  assert (Hr : exists k, k < E /\ on_edge (2 * E) i (2 * k + 1) (mx a i) (my a i)).
  { unfold mx, my, px, py, nx, on_patch_edge, on_edge in *.
    four Hi; simpl in *; [exists (pos_x a)|exists (pos_y a)|exists (E - 1 - pos_x a)|exists (E - 1 - pos_y a)]; lia. }
  destruct Hr as [k [Hk Or]].
  assert (Hr' : exists k', k' < E /\ ((aligned verts (pos_patch a) i q j /\ 2 * k + 1 = 2 * k' + 1) \/ (opposed verts (pos_patch a) i q j /\ 2 * k + 1 + (2 * k' + 1) = 2 * E))).
  { destruct G as [G|G]; [exists k|exists (E - 1 - k)]; (split; [lia|]); [left|right]; (split; [assumption|lia]). }
  destruct Hr' as [k' [Hk' Gl]].
  set (X' := match j with 0 => k' | 1 => E - 1 | 2 => E - 1 - k' | _ => 0 end).
  set (Y' := match j with 0 => 0 | 1 => k' | 2 => E - 1 | _ => E - 1 - k' end).
  destruct (uniform_coords t l L W U L q X' Y') as [b [Xb [Lb [Pb [Ex Ey]]]]]; [lia|destruct Ov as [_ [_ ->]]; assumption| | |].
  { fold E. unfold X'. four Hj; simpl; lia. }
  { fold E. unfold Y'. four Hj; simpl; lia. }
  assert (Nab : (b, j) <> (a, i)) by (intros Eb; injection Eb as -> ->; congruence).
  assert (Hs : se s a i b j).
  { apply (same_edge_mid L); auto; [rewrite (len_level a Xa); congruence|rewrite (len_level b Xb); congruence|].
    right. right. exists i, j, (2 * k + 1), (2 * k' + 1). fold E. rewrite Pb. split; [assumption|]. split; [assumption|]. split; [assumption|]. split; [|assumption].
    unfold mx, my, px, py, on_edge. rewrite Ex, Ey. unfold X', Y', nx. four Hj; simpl; lia. }
  exists b. split.
  - destruct Ov as [K _]. apply (cf_adj t K a i b Xa Hi). exists j. split; [assumption|]. split; [assumption|].
    rewrite (len_level a Xa), (len_level b Xb), Lv, Lb. split; [reflexivity|]. split; assumption.
  - assert (La' : length a = S L) by (rewrite (len_level a Xa); congruence). assert (Lb' : length b = S L) by (rewrite (len_level b Xb); congruence).
    destruct (nbr_cases L a i b j Xa Xb La' Lb' Hi Hj Nab Hs) as [[_ N]|[N _]]; [|congruence].
    fold E in N. contradiction.
Qed.

Lemma adj_free : forall a i, is_leaf t a -> i < 4 -> free_edge verts (pos_patch a) i -> on_patch_edge (2 ^ L) i (pos_x a) (pos_y a) ->
  adj_at s a i = None.
Proof.
  intros a i La Hi Fr F. pose proof (U a La) as Lv. assert (Xa : exs s a) by (destruct La as [n [En _]]; unfold exs; congruence).
  destruct (adj_at s a i) as [b|] eqn:Eb; [|reflexivity]. exfalso.
  pose proof Ov as [K _]. apply (cf_adj t K a i b Xa Hi) in Eb. destruct Eb as [j [Hj [Xb [Lb [Ne Sm]]]]].
  rewrite (len_level a Xa), Lv in Lb.
  assert (La' : length a = S L) by (rewrite (len_level a Xa); congruence).
  destruct (nbr_cases L a i b j Xa Xb La' Lb Hi Hj Ne Sm) as [[_ N]|[N [_ G]]]; [contradiction|].
  apply Fr. exists (pos_patch b), j. split; [eapply patch_lt; eassumption|]. split; [assumption|]. split; [congruence|assumption].
Qed.

Lemma opb : forall E i X Y, on_patch_edge_b E i X Y = true <-> on_patch_edge E i X Y.
Proof. intros E [|[|[|i]]] X Y; unfold on_patch_edge, on_patch_edge_b; apply Nat.eqb_eq. Qed.

Lemma label_ok : forall a n, is_leaf t a -> s a = Some n ->
  ((exists i, i < 4 /\ on_patch_edge (2 ^ L) i (pos_x a) (pos_y a) /\ free_edge verts (pos_patch a) i) ->
     label_edges s n [0; 1; 2; 3] 0%Z = Some (-1)%Z) /\
  ((forall i, i < 4 -> on_patch_edge (2 ^ L) i (pos_x a) (pos_y a) ->
      exists q j, q < length verts /\ j < 4 /\ (q, j) <> (pos_patch a, i) /\ glued verts (pos_patch a) i q j) ->
     label_edges s n [0; 1; 2; 3] 0%Z = Some (Z.of_nat (boundary_edges (2 ^ L) (pos_x a) (pos_y a)))).
Proof.
  intros a n La En. assert (Xa : exs s a) by (unfold exs; congruence).
  pose proof (wf_node t l W a n En) as Kn.
  assert (Ad : forall i, i < 4 -> get (n_adj n) i = Some (adj_at s a i)).
  { intros i Hi. unfold adj_at. rewrite En. apply get_nth. rewrite (nk_adj _ _ Kn). assumption. }
  assert (Nb : forall i b, i < 4 -> adj_at s a i = Some b -> exists nb, s b = Some nb /\ n_patch nb = pos_patch b).
  { intros i b Hi Eb. unfold adj_at in Eb. rewrite En in Eb. assert (In (Some b) (n_adj n)) by (rewrite <- Eb; apply nth_In; rewrite (nk_adj _ _ Kn); assumption).
    pose proof (wf_adj t l W a n b En H) as Hb. destruct (s b) as [nb|] eqn:E; [|congruence]. exists nb. split; [reflexivity|]. apply (nk_patch _ _ (wf_node t l W b nb E)). }
  assert (St : forall js z, (forall i, In i js -> i < 4) ->
    ((exists i, In i js /\ adj_at s a i = None) -> label_edges s n js z = Some (-1)%Z) /\
    ((forall i, In i js -> exists b, adj_at s a i = Some b /\ (on_patch_edge (2 ^ L) i (pos_x a) (pos_y a) -> pos_patch b <> pos_patch a) /\
                                     (~ on_patch_edge (2 ^ L) i (pos_x a) (pos_y a) -> pos_patch b = pos_patch a)) ->
     label_edges s n js z = Some (z + Z.of_nat (length (filter (fun i => on_patch_edge_b (2 ^ L) i (pos_x a) (pos_y a)) js)))%Z)).
  { induction js as [|i js IH]; intros z H.
    - split; [intros [i [[] _]]|]. intros _. cbn [label_edges filter length]. f_equal. simpl. lia.
    - assert (Hi : i < 4) by (apply H; left; reflexivity).
      destruct (IH z ltac:(intros; apply H; right; assumption)) as [IH1 _].
      cbn [label_edges]. rewrite (Ad i Hi). cbn [bind]. split.
      + intros Ex. destruct (adj_at s a i) as [b|] eqn:Eb; [|reflexivity].
        destruct (Nb i b Hi Eb) as [nb [E Pn]]. rewrite E. cbn [bind]. apply IH; [intros; apply H; right; assumption|].
        destruct Ex as [i' [[<-|Hi'] E']]; [congruence|]. exists i'. auto.
      + intros Hall. destruct (Hall i (or_introl eq_refl)) as [b [Eb [B1 B2]]]. rewrite Eb. destruct (Nb i b Hi Eb) as [nb [E Pn]]. rewrite E. cbn [bind].
        rewrite (nk_patch _ _ Kn), Pn.
        pose proof (opb (2 ^ L) i (pos_x a) (pos_y a)) as O. cbn [filter].
        match goal with |- label_edges s n js ?z' = _ => destruct (IH z' ltac:(intros; apply H; right; assumption)) as [_ IH2] end.
        rewrite IH2 by (intros; apply Hall; right; assumption). f_equal.
        destruct (on_patch_edge_b (2 ^ L) i (pos_x a) (pos_y a)).
        * rewrite (proj2 (Nat.eqb_neq _ _)) by (apply B1, O; reflexivity). cbn [length]. lia.
        * rewrite (proj2 (Nat.eqb_eq _ _)); [lia|]. apply B2. intros F. apply O in F. discriminate. }
  destruct (St [0; 1; 2; 3] 0%Z) as [S1 S2]; [simpl; intuition lia|]. split.
  - intros [i [Hi [F Fr]]]. apply S1. exists i. split; [four Hi; simpl; tauto|]. apply adj_free; assumption.
  - intros Hall. rewrite S2; [reflexivity|]. intros i Hin. assert (Hi : i < 4) by (simpl in Hin; intuition lia).
    destruct (on_patch_edge_b (2 ^ L) i (pos_x a) (pos_y a)) eqn:Eo.
    + apply opb in Eo. destruct (Hall i Hi Eo) as [q [j [Hq [Hj [Ne G]]]]].
      destruct (adj_glued a i q j) as [b [Eb Pb]]; auto. exists b. split; [assumption|]. split; [auto|]. intros C. contradiction.
    + assert (No : ~ on_patch_edge (2 ^ L) i (pos_x a) (pos_y a)) by (intros F; apply opb in F; congruence).
      destruct (adj_interior a i) as [b [Eb Pb]]; auto. exists b. split; [assumption|]. split; [intros; contradiction|auto].
Qed.
End Nbr.
