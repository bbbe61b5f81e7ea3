(** The projector on uniformly refined meshes: cells, entries, values. *)
From Coq Require Import Reals Lra Lia Arith Bool List QArith Qreals Permutation.
From Verif Require Import RSum ModelBase ModelBernstein SpecBernstein ProofBernstein ModelKnots ProofKnots ModelTree SpecTree ProofTreeWF ProofTree ProofTreeGeo ProofTreeHist ProofTreeLook ProofPoints
  ModelDeBoor SpecDeBoor ProofDeBoor SpecInterp SpecPatch ProofProjection SpecForms ProofPar PropAssembly PropForms ModelProj SpecProj ProofPiece ProofProj.
Import ListNotations.
Local Close Scope Q_scope.
Local Open Scope R_scope.

Lemma pow2_INR : forall M, INR (2 ^ M) = 2 ^ M.
Proof. intros M. rewrite pow_INR. reflexivity. Qed.

(** ** the cells of a uniformly refined mesh *)
Section Cells.
Context {Pt : Type} (close : Pt -> Pt -> bool) (corners : list (list Pt)) (M : nat) (t : tree) (els : list node).
Hypothesis Hm : uniform_mesh close corners M t els.
Lemma mesh_list : exists l, WF t l /\ all_level t M /\ t_patches t = length corners /\ length l = (length corners * 4 ^ M)%nat /\ length els = length l /\
  forall i, (i < length l)%nat -> exists e, nth_error els i = Some e /\ t_store t (nth i l []) = Some e.
Proof.
  destruct Hm as [Hc [H4 [E [l [El Em]]]]].
  destruct (init_tree_ok close corners M H4) as [t' [l' [E' [W [P [A ML]]]]]]. rewrite E in E'. injection E' as <-.
  assert (HP : (0 < t_patches t)%nat) by (rewrite P; destruct corners; [congruence|simpl; lia]).
  rewrite (traverse_ok t l' W HP) in El. injection El as <-. destruct (els_length t l' els Em) as [L H]. destruct (uniform_list t l' M W A) as [U _].
  exists l'. split; [exact W|]. split; [exact A|]. split; [exact P|]. split; [rewrite U, P; reflexivity|]. split; [exact L|]. exact H.
Qed.
Lemma cell_of : forall l i e, WF t l -> all_level t M -> (i < length l)%nat -> t_store t (nth i l []) = Some e ->
  at_cell (2 ^ M) e (pos_x (nth i l [])) (pos_y (nth i l [])) /\ n_patch e = pos_patch (nth i l []) /\ vaddr (nth i l []) /\ pos_level (nth i l []) = M.
Proof.
  intros l i e W A Hi S. assert (I : In (nth i l []) l) by (apply nth_In; exact Hi). assert (La : is_leaf t (nth i l [])) by (apply (wf_leaf t l W); exact I).
  set (a := nth i l []) in *. pose proof (wf_node t l W a e S) as K. pose proof (A a La) as Lv.
  assert (V : vaddr a) by (eapply wf_vaddr; [exact W|congruence]). destruct (pos_xy_lt a V) as [Vx Vy]. rewrite Lv in Vx, Vy.
  destruct (nk_llc _ _ K) as [Lx Ly]. rewrite Lv in Lx, Ly.
  split; [|split; [apply (nk_patch _ _ K)|split; assumption]].
  unfold at_cell. rewrite pow2_INR. repeat split; try assumption.
  - apply Q2R_llc. exact Lx.
  - apply Q2R_llc. exact Ly.
  - unfold get_h. rewrite (nk_level _ _ K), Lv. pose proof (pow2_neq M). unfold Qdiv. rewrite Q2R_mult, Q2R_inv by apply pow2Q_neq. rewrite Q2R_pow2. unfold Q2R. simpl. field. assumption.
Qed.
Lemma mesh_cells : forall e, In e els -> (exists X Y, at_cell (2 ^ M) e X Y) /\ (n_patch e < length corners)%nat.
Proof.
  intros e He. destruct mesh_list as [l [W [A [P [L [Le H]]]]]]. apply In_nth_error in He. destruct He as [i Hi].
  assert (Li : (i < length l)%nat) by (rewrite <- Le; apply nth_error_Some; congruence). destruct (H i Li) as [e' [E1 S]]. rewrite Hi in E1. injection E1 as <-.
  destruct (cell_of l i e W A Li S) as [C [Pe [V Lv]]]. split; [eauto|]. rewrite Pe, <- P. apply (wf_addr_patch t l _ W). congruence.
Qed.
End Cells.

(** every cell of every patch is the cell of exactly one element *)
Lemma seq_perm : forall (l : list nat) m, NoDup l -> (forall x, In x l -> (x < m)%nat) -> length l = m -> Permutation l (seq 0 m).
Proof.
  intros l m Nd H L. apply NoDup_Permutation_bis; [exact Nd|rewrite seq_length; lia|].
  intros x Hx. apply in_seq. specialize (H x Hx). lia.
Qed.
Lemma mesh_grid : forall {Pt} (close : Pt -> Pt -> bool) corners M t els, uniform_mesh close corners M t els ->
  exists pos : nat -> nat, length els = (length corners * 4 ^ M)%nat /\ Permutation (map pos (seq 0 (length els))) (seq 0 (length corners * 4 ^ M)) /\
    forall k e, nth_error els k = Some e -> at_cell (2 ^ M) e (pos k mod 2 ^ M) ((pos k / 2 ^ M) mod 2 ^ M) /\ n_patch e = (pos k / 2 ^ M / 2 ^ M)%nat.
Proof.
  intros Pt close corners M t els Hm. destruct (mesh_list close corners M t els Hm) as [l [W [A [P [L [Le H]]]]]].
  assert (F : forall i, (i < length l)%nat -> vaddr (nth i l []) /\ pos_level (nth i l []) = M /\ (pos_patch (nth i l []) < length corners)%nat).
  { intros i Hi. destruct (H i Hi) as [e [_ S]]. destruct (cell_of M t l i e W A Hi S) as [_ [_ [V Lv]]]. split; [exact V|]. split; [exact Lv|].
    rewrite <- P. apply (wf_addr_patch t l _ W). congruence. }
  exists (fun k => tp_of M (nth k l [])). split; [lia|]. split.
  - apply seq_perm; [|intros x Hx; apply in_map_iff in Hx; destruct Hx as [i [<- Hi]]; apply in_seq in Hi; apply tp_of_lt; apply F; lia|rewrite map_length, seq_length; lia].
    assert (G : forall m, (m <= length l)%nat -> NoDup (map (fun k => tp_of M (nth k l [])) (seq 0 m))).
    { induction m as [|m IH]; intros Hm'; [constructor|]. rewrite seq_S, map_app. cbn [map].
      rewrite <- (rev_involutive (_ ++ _)). apply NoDup_rev. rewrite rev_app_distr. cbn [rev app]. constructor; [|apply NoDup_rev; apply IH; lia].
      rewrite <- in_rev. intros Q. apply in_map_iff in Q. destruct Q as [i [E Hi]]. apply in_seq in Hi.
      assert (Ei : nth i l [] = nth m l []) by (apply (tp_of_inj M); try (apply F; lia); exact E).
      apply (NoDup_nth l []) in Ei; [lia|apply (wf_nodup t l W)|lia|lia]. }
    apply G. lia.
  - intros k e Hk. assert (Hi : (k < length l)%nat) by (rewrite <- Le; apply nth_error_Some; congruence). destruct (H k Hi) as [e' [E S]]. rewrite Hk in E. injection E as <-.
    destruct (cell_of M t l k e W A Hi S) as [C [Pe [V Lv]]].
    destruct (tp_of_parts M _ V Lv) as [X1 [Y1 P1]]. rewrite <- X1, <- Y1, <- P1. split; assumption.
Qed.

(** ** the spline space of the specification is the one of the code *)
Lemma knots_spec : forall k n rep, (1 <= n)%nat -> K (k + 1) n rep = uniform_knots k n rep.
Proof.
  intros k n rep Hn. unfold K, uniform_knots. rewrite uniform_eq. unfold blocks. replace (n - 1 + 1)%nat with n by lia. f_equal. f_equal.
  rewrite !flat_map_concat_map. f_equal. apply map_ext. intros j. f_equal. unfold Rdiv. ring.
Qed.
Lemma dim_spec : forall k n rep, dim (k + 1) n rep = spline_dim k n rep.
Proof. intros. unfold dim, spline_dim. rewrite (Nat.mul_comm rep). reflexivity. Qed.
Lemma Bs_spec : forall k n rep d x, (1 <= n)%nat -> Bs (k + 1) n rep d x = uspline k n rep d x.
Proof. intros k n rep d x Hn. unfold Bs, uspline. rewrite knots_spec by exact Hn. replace (k + 1 - 1)%nat with k by lia. reflexivity. Qed.
Lemma col_spec : forall kx ky n rep off q dx dy, (off + col n rep (kx + 1) (ky + 1) q dx dy)%nat = spline_dof kx ky n rep off q dx dy.
Proof. intros. unfold col, spline_dof. rewrite !dim_spec. lia. Qed.

(** ** one run of makeLocalProjectionTriplets on a mesh *)
Definition used_rep (p minp rep : nat) : nat := if (p + 1 <=? rep)%nat then minp else rep.
Section Run.
Context {Pt : Type} (close : Pt -> Pt -> bool) (corners : list (list Pt)) (M : nat) (t : tree) (els : list node).
Hypothesis Hm : uniform_mesh close corners M t els.
Variables (ws : list R) (junk : mat) (j1 j2 : arr) (solve : nat -> mat -> arr -> arr) (p kx ky rep_in : nat).
Hypothesis Hk : (Nat.max kx ky = p /\ p <= kx + 1 /\ p <= ky + 1)%nat.
Hypothesis Hp : (p <= 19)%nat.
Hypothesis Hrep : (1 <= rep_in)%nat.
Hypothesis Hw : (20 <= length ws)%nat.
Hypothesis Hs : good_solve solve.
Notation n := (2 ^ M)%nat.
Notation P := (length corners).
Notation rep := (used_rep p (Nat.min (kx + 1) (ky + 1)) rep_in).
Notation mp := (p + 1)%nat.
Lemma n_pos : (1 <= n)%nat.
Proof. clear. pose proof (Nat.pow_nonzero 2 M). lia. Qed.
Lemma rep_pos : (1 <= rep)%nat.
Proof. clear - Hrep. unfold used_rep. destruct (Nat.leb_spec (p + 1) rep_in); lia. Qed.
Lemma run_ok : exists l, local_projection ws junk j1 j2 solve p M P (kx + 1) (ky + 1) rep_in els
    = Some (mkInfo l (spline_dim kx n rep * spline_dim ky n rep * P) (mp * mp * n * n * P))
  /\ (forall t, In t l -> exists k e X Y dx dy i, nth_error els k = Some e /\ at_cell n e X Y /\ (dx < spline_dim kx n rep)%nat /\ (dy < spline_dim ky n rep)%nat /\ (i < mp * mp)%nat
        /\ fst (fst t) = (k * mp * mp + i)%nat /\ snd (fst t) = spline_dof kx ky n rep 0 (n_patch e) dx dy /\ snd t = coef n rep (kx + 1) (ky + 1) mp X Y dx dy i /\ projector_tolerance < Rabs (snd t))
  /\ (forall k e X Y i q dx dy, nth_error els k = Some e -> at_cell n e X Y -> (i < mp * mp)%nat -> (dx < spline_dim kx n rep)%nat -> (dy < spline_dim ky n rep)%nat ->
        esum l (k * mp * mp + i) (spline_dof kx ky n rep 0 q dx dy) = if (q =? n_patch e)%nat then keep (coef n rep (kx + 1) (ky + 1) mp X Y dx dy i) else 0)
  /\ exists L, l = concat L /\ length L = length els
      /\ forall k e X Y, nth_error els k = Some e -> at_cell n e X Y -> nth k L [] = el_trips n rep (kx + 1) (ky + 1) mp k (n_patch e) X Y.
Proof.
  pose proof n_pos as Hn. pose proof rep_pos as Hr.
  assert (Hc : forall e, In e els -> exists X Y, at_cell n e X Y) by (intros e He; apply (mesh_cells close corners M t els Hm e He)).
  destruct (local_ok ws junk j1 j2 solve n rep (kx + 1) (ky + 1) mp Hn Hr ltac:(lia) ltac:(lia) ltac:(lia) ltac:(lia) ltac:(lia) ltac:(lia) ltac:(lia) Hw Hs els Hc) as [l [E [T V]]].
  destruct (elements_ok ws junk j1 j2 solve n rep (kx + 1) (ky + 1) mp Hn Hr ltac:(lia) ltac:(lia) ltac:(lia) ltac:(lia) ltac:(lia) ltac:(lia) ltac:(lia) Hw Hs els 0 Hc) as [L [E' [Ln VL]]].
  assert (El : l = concat L) by (congruence).
  assert (Cs : forall q dx dy, col n rep (kx + 1) (ky + 1) q dx dy = spline_dof kx ky n rep 0 q dx dy) by (intros; rewrite <- col_spec; reflexivity).
  exists l. split; [|split; [|split]].
  - unfold local_projection. replace (Nat.max (kx + 1) (ky + 1)) with mp by lia. rewrite Nat.eqb_refl. cbn [assert bind].
    fold (used_rep p (Nat.min (kx + 1) (ky + 1)) rep_in).
    assert (B : (p + 1 - Nat.min (kx + 1) (ky + 1) <=? 1)%nat = true) by (apply Nat.leb_le; lia). rewrite B. cbn [assert bind].
    rewrite (proj1 (mask_spec mp)), Nat.eqb_refl. cbn [assert bind].
    fold (K (kx + 1) n rep). fold (K (ky + 1) n rep). rewrite !K_length by (assumption || lia). rewrite !Nat.add_sub. rewrite E. cbn [bind]. rewrite !dim_spec. reflexivity.
  - intros t0 Ht. destruct (T t0 Ht) as [k [e [X [Y [dx [dy [i Q]]]]]]]. exists k, e, X, Y, dx, dy, i. rewrite <- !dim_spec, <- Cs. exact Q.
  - intros k e X Y i q dx dy Ek C Hi Hdx Hdy. rewrite <- Cs. rewrite <- dim_spec in Hdx, Hdy. apply V; assumption.
  - exists L. split; [exact El|]. split; [exact Ln|]. intros k e X Y Ek C. rewrite (VL k e X Y Ek C). reflexivity.
Qed.
End Run.

(** ** the functions represented by the matrix *)
Lemma rsum_window : forall f a w m, (a + w <= m)%nat -> (forall i, (i < m)%nat -> ~ (a <= i < a + w)%nat -> f i = 0) -> rsum f m = rsum (fun i => f (a + i)%nat) w.
Proof.
  intros f a w m H Z. replace m with (a + w + (m - a - w))%nat by lia. rewrite !rsum_split.
  rewrite (rsum_zero f a) by (intros; apply Z; lia). rewrite (rsum_zero (fun i => f (a + w + i)%nat)) by (intros; apply Z; lia). ring.
Qed.
Section Values.
Variables (p kx ky n rep P : nat).
Hypothesis Hk : (Nat.max kx ky = p /\ p <= kx + 1 /\ p <= ky + 1)%nat.
Hypothesis Hp : (p <= 19)%nat.
Hypothesis Hn : (1 <= n)%nat.
Hypothesis Hr : (1 <= rep)%nat.
Notation mp := (p + 1)%nat.
Notation dimx := (spline_dim kx n rep).
Notation dimy := (spline_dim ky n rep).
Notation cof := (coef n rep (kx + 1) (ky + 1) mp).
Lemma Hx1 : (1 <= kx + 1)%nat. Proof. clear. lia. Qed.
Lemma Hy1 : (1 <= ky + 1)%nat. Proof. clear. lia. Qed.
Lemma Hx2 : (mp - 1 = kx + 1 - 1 \/ mp - 1 = kx + 1)%nat. Proof. clear - Hk Hp. lia. Qed.
Lemma Hy2 : (mp - 1 = ky + 1 - 1 \/ mp - 1 = ky + 1)%nat. Proof. clear - Hk Hp. lia. Qed.
Lemma Hm1 : (1 <= mp <= 20)%nat. Proof. clear - Hk Hp. lia. Qed.
Lemma Hx3 : (kx + 1 <= mp)%nat. Proof. clear - Hk Hp. lia. Qed.
Lemma Hy3 : (ky + 1 <= mp)%nat. Proof. clear - Hk Hp. lia. Qed.
Lemma Hw1 : (20 <= length (repeat 0%R 20))%nat. Proof. clear. rewrite repeat_length. lia. Qed.
Notation loc f := (f (repeat 0 20) n rep (kx + 1)%nat (ky + 1)%nat mp Hn Hr Hx1 Hy1 Hx2 Hy2 Hm1 Hx3 Hy3 Hw1).
(** the columns off, ..., off + dimx dimy P - 1 of the rows r0, ..., r0 + (p + 1)^2 - 1 of A hold the coefficients on the cell (X, Y) of patch q *)
Definition holds_cell (A : mat) (nd r0 off q X Y : nat) : Prop :=
  (off + dimx * dimy * P <= nd)%nat /\ (q < P)%nat /\ (X < n)%nat /\ (Y < n)%nat /\
  (forall i dx dy, (i < mp * mp)%nat -> (dx < dimx)%nat -> (dy < dimy)%nat -> A (r0 + i)%nat (spline_dof kx ky n rep off q dx dy) = keep (cof X Y dx dy i)) /\
  (forall i j, (i < mp * mp)%nat -> (j < nd)%nat -> (forall dx dy, (dx < dimx)%nat -> (dy < dimy)%nat -> j <> spline_dof kx ky n rep off q dx dy) -> A (r0 + i)%nat j = 0).
Lemma value_sum : forall A nd r0 off q X Y v (b : nat -> R), holds_cell A nd r0 off q X Y ->
  rsum (fun i => rsum (fun j => A (r0 + i)%nat j * v j) nd * b i) (mp * mp)
  = rsum (fun dy => rsum (fun dx => v (spline_dof kx ky n rep off q dx dy) * rsum (fun i => keep (cof X Y dx dy i) * b i) (mp * mp)) dimx) dimy.
Proof.
  intros A nd r0 off q X Y v b [Hnd [Hq [HX [HY [H1 H2]]]]].
  transitivity (rsum (fun j => v j * rsum (fun i => A (r0 + i)%nat j * b i) (mp * mp)) nd).
  - rewrite (rsum_ext _ (fun i => rsum (fun j => A (r0 + i)%nat j * v j * b i) nd)) by (intros; rewrite <- rsum_scal_r; reflexivity).
    rewrite rsum_swap. apply rsum_ext. intros j Hj. rewrite <- rsum_scal. apply rsum_ext. intros; ring.
  - assert (Z : forall j, (j < nd)%nat -> (forall dx dy, (dx < dimx)%nat -> (dy < dimy)%nat -> j <> spline_dof kx ky n rep off q dx dy) -> v j * rsum (fun i => A (r0 + i)%nat j * b i) (mp * mp) = 0).
    { intros j Hj Ne. rewrite rsum_zero; [ring|]. intros i Hi. rewrite H2 by assumption. ring. }
    assert (Cl : forall q' dx dy, (q' < P)%nat -> (dx < dimx)%nat -> (dy < dimy)%nat -> (off <= spline_dof kx ky n rep off q' dx dy < off + dimx * dimy * P)%nat).
    { intros q' dx dy Q1 Q2 Q3. rewrite <- col_spec. rewrite <- !dim_spec in *. pose proof (loc col_lt P q' dx dy Q1 Q2 Q3). lia. }
    rewrite (rsum_window _ off (dimx * dimy * P) nd Hnd).
    2: { intros j Hj Out. apply Z; [exact Hj|]. intros dx dy Hdx Hdy ->. pose proof (Cl q dx dy Hq Hdx Hdy). lia. }
    rewrite <- !dim_spec. rewrite (loc sum_cols P _ q Hq).
    + rewrite !dim_spec. apply rsum_ext. intros dy Hdy. apply rsum_ext. intros dx Hdx. rewrite col_spec. f_equal. apply rsum_ext. intros i Hi. rewrite H1 by assumption. reflexivity.
    + intros q' dx dy Hq' Ne Hdx Hdy. pose proof Hdx as Hdx0. pose proof Hdy as Hdy0. rewrite dim_spec in Hdx0, Hdy0. pose proof (Cl q' dx dy Hq' Hdx0 Hdy0) as Q. rewrite <- col_spec in Q.
      apply Z; [lia|]. intros dx' dy' Hdx' Hdy' E. rewrite <- col_spec in E. rewrite <- dim_spec in Hdx', Hdy'.
      assert (E' : col n rep (kx + 1) (ky + 1) q' dx dy = col n rep (kx + 1) (ky + 1) q dx' dy') by lia.
      apply (loc col_inj) in E'; try assumption. destruct E' as [-> _]. congruence.
Qed.
Notation tb i s := (bern p (i mod (p + 1)) (fst s) * bern p (i / (p + 1)) (snd s)).
(** up to degree 4 nothing is dropped *)
Lemma value_exact : forall A nd r0 off q X Y v s, (p <= 4)%nat -> holds_cell A nd r0 off q X Y -> 0 <= fst s < 1 -> 0 <= snd s < 1 ->
  rsum (fun i => rsum (fun j => A (r0 + i)%nat j * v j) nd * tb i s) (mp * mp)
  = tensor_spline kx ky n rep off q v ((INR X + fst s) / INR n) ((INR Y + snd s) / INR n).
Proof.
  intros A nd r0 off q X Y v s H4 H H1 H2. rewrite (value_sum A nd r0 off q X Y v _ H). unfold tensor_spline.
  destruct H as [_ [_ [HX [HY _]]]]. apply rsum_ext. intros dy Hdy. apply rsum_ext. intros dx Hdx. f_equal.
  rewrite <- dim_spec in Hdx, Hdy. rewrite <- !Bs_spec by exact Hn. fold (at_el n X (fst s)). fold (at_el n Y (snd s)).
  rewrite <- (loc basis_sum X Y dx dy (fst s) (snd s) HX HY Hdx Hdy H1 H2).
  apply rsum_ext. intros i Hi. rewrite (loc kept_all X Y dx dy i ltac:(lia) HX HY Hdx Hdy Hi). replace (mp - 1)%nat with p by lia. reflexivity.
Qed.
(** the error caused by dropping small coefficients *)
Lemma value_error : forall A nd r0 off q X Y v s, holds_cell A nd r0 off q X Y -> 0 <= fst s < 1 -> 0 <= snd s < 1 ->
  Rabs (rsum (fun i => rsum (fun j => A (r0 + i)%nat j * v j) nd * tb i s) (mp * mp)
  - tensor_spline kx ky n rep off q v ((INR X + fst s) / INR n) ((INR Y + snd s) / INR n)) <= projector_tolerance * active_coefficients kx ky n rep off q v X Y.
Proof.
  intros A nd r0 off q X Y v s H H1 H2. rewrite (value_sum A nd r0 off q X Y v _ H). unfold tensor_spline.
  destruct H as [_ [_ [HX [HY _]]]]. rewrite <- rsum_minus.
  set (err := fun dx dy => rsum (fun i => keep (cof X Y dx dy i) * tb i s) (mp * mp) - uspline kx n rep dx ((INR X + fst s) / INR n) * uspline ky n rep dy ((INR Y + snd s) / INR n)).
  assert (E1 : forall dx dy, (dx < dimx)%nat -> (dy < dimy)%nat -> Rabs (err dx dy) <= projector_tolerance).
  { intros dx dy Hdx Hdy. unfold err. rewrite <- dim_spec in Hdx, Hdy. pose proof (loc kept_error X Y dx dy (fst s) (snd s) HX HY Hdx Hdy H1 H2) as Q.
    rewrite !Bs_spec in Q by exact Hn. replace (mp - 1)%nat with p in Q by lia. exact Q. }
  assert (E0 : forall dx dy, (dx < dimx)%nat -> (dy < dimy)%nat -> ~ (X * rep <= dx < X * rep + (kx + 1))%nat \/ ~ (Y * rep <= dy < Y * rep + (ky + 1))%nat -> err dx dy = 0).
  { intros dx dy Hdx Hdy Out. unfold err. rewrite <- dim_spec in Hdx, Hdy. pose proof (loc basis_sum X Y dx dy (fst s) (snd s) HX HY Hdx Hdy H1 H2) as Q. rewrite !Bs_spec in Q by exact Hn.
    unfold at_el in Q. rewrite <- Q. rewrite !rsum_zero; [ring| |]; intros i Hi; rewrite (kept_support n rep (kx + 1) (ky + 1) mp Hn Hr Hx1 Hy1 X Y dx dy i Out); [ring|rewrite keep0; ring]. }
  rewrite (rsum_ext _ (fun dy => rsum (fun dx => v (spline_dof kx ky n rep off q dx dy) * err dx dy) dimx)).
  2: { intros dy Hdy. rewrite <- rsum_minus. apply rsum_ext. intros dx Hdx. unfold err. ring. }
  clearbody err.
  assert (Wx : forall k Z, (Z < n)%nat -> (Z * rep + (k + 1) <= spline_dim k n rep)%nat).
  { intros k Z HZ. unfold spline_dim. assert (Z * rep <= (n - 1) * rep)%nat by (apply Nat.mul_le_mono_r; lia). lia. }
  rewrite (rsum_window _ (Y * rep) (ky + 1) dimy (Wx ky Y HY)).
  2: { intros dy Hdy Out. apply rsum_zero. intros dx Hdx. rewrite E0 by (try right; assumption). ring. }
  unfold active_coefficients. rewrite <- rsum_scal. eapply Rle_trans; [apply rsum_abs|]. apply rsum_le. intros j Hj.
  assert (Hdy : (Y * rep + j < dimy)%nat) by (pose proof (Wx ky Y HY); lia).
  rewrite (rsum_window _ (X * rep) (kx + 1) dimx (Wx kx X HX)).
  2: { intros dx Hdx Out. rewrite E0 by (try left; assumption). ring. }
  rewrite <- rsum_scal. eapply Rle_trans; [apply rsum_abs|]. apply rsum_le. intros i Hi.
  assert (Hdx : (X * rep + i < dimx)%nat) by (pose proof (Wx kx X HX); lia).
  rewrite Rabs_mult, Rmult_comm. apply Rmult_le_compat_r; [apply Rabs_pos|]. apply E1; assumption.
Qed.
End Values.

Lemma dof_off : forall kx ky n rep off q dx dy, spline_dof kx ky n rep off q dx dy = (off + spline_dof kx ky n rep 0 q dx dy)%nat.
Proof. intros. unfold spline_dof. lia. Qed.
Lemma used_rep_same : forall p rep, used_rep p (Nat.min (p + 1) (p + 1)) rep = Nat.min rep (p + 1).
Proof. intros p rep. unfold used_rep. destruct (Nat.leb_spec (p + 1) rep); lia. Qed.
Lemma used_rep_le : forall p m rep, (rep <= p)%nat -> used_rep p m rep = rep.
Proof. intros p m rep H. unfold used_rep. destruct (Nat.leb_spec (p + 1) rep); lia. Qed.

Section RunHolds.
Context {Pt : Type} (close : Pt -> Pt -> bool) (corners : list (list Pt)) (M : nat) (t : tree) (els : list node).
Hypothesis Hm : uniform_mesh close corners M t els.
Variables (ws : list R) (junk : mat) (j1 j2 : arr) (solve : nat -> mat -> arr -> arr) (p kx ky rep_in : nat).
Hypothesis Hk : (Nat.max kx ky = p /\ p <= kx + 1 /\ p <= ky + 1)%nat.
Hypothesis Hp : (p <= 19)%nat.
Hypothesis Hrep : (1 <= rep_in)%nat.
Hypothesis Hw : (20 <= length ws)%nat.
Hypothesis Hs : good_solve solve.
Notation n := (2 ^ M)%nat.
Notation P := (length corners).
Notation rep := (used_rep p (Nat.min (kx + 1) (ky + 1)) rep_in).
Notation mp := (p + 1)%nat.
Notation dimx := (spline_dim kx n rep).
Notation dimy := (spline_dim ky n rep).
(** the triplets stay in the matrix and are larger than the tolerance *)
Lemma run_facts : exists l, local_projection ws junk j1 j2 solve p M P (kx + 1) (ky + 1) rep_in els = Some (mkInfo l (dimx * dimy * P) (mp * mp * n * n * P))
  /\ (forall tr, In tr l -> (fst (fst tr) < mp * mp * n * n * P)%nat /\ (snd (fst tr) < dimx * dimy * P)%nat /\ projector_tolerance < Rabs (snd tr))
  /\ (forall k e X Y, nth_error els k = Some e -> at_cell n e X Y -> holds_cell p kx ky n rep P (esum l) (dimx * dimy * P) (k * (mp * mp)) 0 (n_patch e) X Y)
  /\ exists L, l = concat L /\ length L = length els
      /\ forall k e X Y, nth_error els k = Some e -> at_cell n e X Y -> nth k L [] = el_trips n rep (kx + 1) (ky + 1) mp k (n_patch e) X Y.
Proof.
  destruct (run_ok close corners M t els Hm ws junk j1 j2 solve p kx ky rep_in Hk Hp Hrep Hw Hs) as [l [E [T [V LL]]]].
  pose proof (n_pos M) as Hn. pose proof (rep_pos p kx ky rep_in Hrep) as Hr.
  destruct (mesh_grid close corners M t els Hm) as [_ [Lels _]].
  assert (Pt4 : (4 ^ M = n * n)%nat) by (rewrite <- Nat.pow_mul_l; reflexivity).
  assert (Cl : forall q dx dy, (q < P)%nat -> (dx < dimx)%nat -> (dy < dimy)%nat -> (spline_dof kx ky n rep 0 q dx dy < dimx * dimy * P)%nat).
  { intros q dx dy Q1 Q2 Q3. rewrite <- col_spec. rewrite <- !dim_spec in *.
    apply (col_lt (repeat 0 20) n rep (kx + 1) (ky + 1) mp Hn Hr ltac:(lia) ltac:(lia) ltac:(lia) ltac:(lia) ltac:(lia) ltac:(lia) ltac:(lia) (Hw1) P q dx dy Q1 Q2 Q3). }
  exists l. split; [exact E|]. split; [|split; [|exact LL]].
  - intros tr Ht. destruct (T tr Ht) as [k [e [X [Y [dx [dy [i [Ek [C [Hdx [Hdy [Hi [Er [Ec [_ Ev]]]]]]]]]]]]]]].
    assert (Lk : (k < length els)%nat) by (apply nth_error_Some; congruence). rewrite Lels, Pt4 in Lk.
    split; [|split; [|exact Ev]].
    + rewrite Er. assert ((k + 1) * (mp * mp) <= P * (n * n) * (mp * mp))%nat by (apply Nat.mul_le_mono_r; lia). lia.
    + rewrite Ec. apply Cl; try assumption. apply (mesh_cells close corners M t els Hm e). eapply nth_error_In. exact Ek.
  - intros k e X Y Ek C. unfold holds_cell. split; [lia|]. split; [apply (mesh_cells close corners M t els Hm e); eapply nth_error_In; exact Ek|].
    split; [apply C|]. split; [apply C|]. split.
    + intros i dx dy Hi Hdx Hdy. rewrite Nat.mul_assoc. rewrite (V k e X Y i (n_patch e) dx dy Ek C Hi Hdx Hdy). rewrite Nat.eqb_refl. reflexivity.
    + intros i j Hi Hj Ne. apply esum_zero. intros tr Ht. destruct (T tr Ht) as [k' [e' [X' [Y' [dx [dy [i' [Ek' [C' [Hdx [Hdy [Hi' [Er [Ec _]]]]]]]]]]]]]].
      destruct (Nat.eq_dec k' k) as [->|Nk].
      * right. rewrite Ek' in Ek. injection Ek as ->. rewrite Ec. intros Q. apply (Ne dx dy Hdx Hdy). congruence.
      * left. rewrite Er. intros Q. apply Nk. rewrite <- Nat.mul_assoc in Q.
        destruct (divmod_pair k' i' (mp * mp) Hi') as [A1 _]. destruct (divmod_pair k i (mp * mp) Hi) as [B1 _]. rewrite Q in A1. congruence.
Qed.
End RunHolds.

(** ** the number of triplets *)
Lemma len_flat : forall {A B} (f : A -> list B) l, INR (length (flat_map f l)) = lsum (fun x => INR (length (f x))) l.
Proof. intros A B f l. induction l as [|x l IH]; [reflexivity|]. cbn [flat_map lsum]. rewrite app_length, plus_INR, IH. reflexivity. Qed.
Lemma lsum_seq_from : forall f a w, lsum f (seq a w) = rsum (fun i => f (a + i)%nat) w.
Proof. intros f a w. rewrite <- lsum_seq. revert a. induction w as [|w IH]; intros a; [reflexivity|]. cbn [seq lsum]. rewrite IH, <- (seq_shift w 0), lsum_map. f_equal; [f_equal; lia|]. apply lsum_ext. intros; f_equal; lia. Qed.
Definition big (v : R) : R := if Rlt_dec projector_tolerance (Rabs v) then 1 else 0.
Lemma len_el : forall n rep a b mp number patch X Y, (1 <= mp)%nat -> INR (length (el_trips n rep a b mp number patch X Y))
  = rsum (fun j => rsum (fun i => rsum (fun y => rsum (fun x => big (cf a n rep (mp - 1) X (X * rep + i) x * cf b n rep (mp - 1) Y (Y * rep + j) y)) mp) mp) a) b.
Proof.
  intros n rep a b mp number patch X Y Hmp. unfold el_trips. rewrite len_flat, lsum_seq_from. apply rsum_ext. intros j _.
  rewrite len_flat, lsum_seq_from. apply rsum_ext. intros i _. unfold trips. rewrite len_flat, lsum_seq, rsum_flatten.
  apply rsum_ext. intros y Hy. apply rsum_ext. intros x Hx. unfold big, coef. destruct (divmod_pair y x mp Hx) as [-> ->]. destruct Rlt_dec; reflexivity.
Qed.
Lemma len_swap : forall n rep a b mp number patch number' patch' X Y, (1 <= mp)%nat ->
  length (el_trips n rep a b mp number patch X Y) = length (el_trips n rep b a mp number' patch' Y X).
Proof.
  intros n rep a b mp number patch number' patch' X Y Hmp. apply INR_eq. rewrite !len_el by exact Hmp. rewrite rsum_swap. apply rsum_ext. intros i _. apply rsum_ext. intros j _.
  rewrite rsum_swap. apply rsum_ext. intros x _. apply rsum_ext. intros y _. f_equal. ring.
Qed.
Lemma len_any : forall n rep a b mp number patch number' patch' X Y, (1 <= mp)%nat ->
  length (el_trips n rep a b mp number patch X Y) = length (el_trips n rep a b mp number' patch' X Y).
Proof. intros. rewrite (len_swap n rep a b mp number patch 0 0) by assumption. apply len_swap. assumption. Qed.
Lemma len_concat : forall (L : list (list (nat * nat * R))), INR (length (concat L)) = rsum (fun k => INR (length (nth k L []))) (length L).
Proof.
  intros L. rewrite <- lsum_seq. replace (lsum (fun k => INR (length (nth k L []))) (seq 0 (length L))) with (lsum (fun l => INR (length l)) L).
  - rewrite <- (map_id L) at 1. rewrite <- flat_map_concat_map, len_flat. reflexivity.
  - induction L as [|l L IH]; [reflexivity|]. cbn [length seq lsum nth]. rewrite <- seq_shift, lsum_map, IH. reflexivity.
Qed.
(** on a full mesh the sizes for degrees (a, b) and (b, a) agree *)
Lemma sizes_agree : forall {Pt} (close : Pt -> Pt -> bool) corners M t els rep a b mp L1 L2, uniform_mesh close corners M t els -> (1 <= mp)%nat ->
  length L1 = length els -> length L2 = length els ->
  (forall k e X Y, nth_error els k = Some e -> at_cell (2 ^ M) e X Y -> nth k L1 [] = el_trips (2 ^ M) rep a b mp k (n_patch e) X Y) ->
  (forall k e X Y, nth_error els k = Some e -> at_cell (2 ^ M) e X Y -> nth k L2 [] = el_trips (2 ^ M) rep b a mp k (n_patch e) X Y) ->
  length (concat L1) = length (concat L2).
Proof.
  intros Pt close corners M t els rep a b mp L1 L2 Hm Hmp E1 E2 H1 H2. destruct (mesh_grid close corners M t els Hm) as [pos [Le [Pm Hc]]].
  set (n := (2 ^ M)%nat) in *. assert (P4 : (4 ^ M = n * n)%nat) by (unfold n; rewrite <- Nat.pow_mul_l; reflexivity).
  assert (G : forall a b L, length L = length els -> (forall k e X Y, nth_error els k = Some e -> at_cell n e X Y -> nth k L [] = el_trips n rep a b mp k (n_patch e) X Y) ->
    INR (length (concat L)) = rsum (fun q => rsum (fun y => rsum (fun x => INR (length (el_trips n rep a b mp 0 0 x y))) n) n) (length corners)).
  { intros a' b' L EL HL. rewrite len_concat, EL.
    rewrite (rsum_ext _ (fun k => (fun m => INR (length (el_trips n rep a' b' mp 0 0 (m mod n) ((m / n) mod n)))) (pos k))).
    - rewrite <- lsum_seq, <- (lsum_map (fun m => INR (length (el_trips n rep a' b' mp 0 0 (m mod n) ((m / n) mod n)))) pos), (lsum_perm _ _ _ Pm), lsum_seq, P4, rsum_flatten.
      apply rsum_ext. intros q _. rewrite rsum_flatten. apply rsum_ext. intros y Hy. apply rsum_ext. intros x Hx.
      replace (q * (n * n) + (y * n + x))%nat with ((q * n + y) * n + x)%nat by ring.
      destruct (divmod_pair (q * n + y) x n Hx) as [-> ->]. destruct (divmod_pair q y n Hy) as [_ ->]. reflexivity.
    - intros k Hk. destruct (nth_error els k) as [e|] eqn:Ek; [|apply nth_error_None in Ek; lia]. destruct (Hc k e Ek) as [C _].
      rewrite (HL k e _ _ Ek C). f_equal. apply len_any. exact Hmp. }
  apply INR_eq. rewrite (G a b L1 E1 H1), (G b a L2 E2 H2). apply rsum_ext. intros q _. rewrite rsum_swap. apply rsum_ext. intros x _. apply rsum_ext. intros y _.
  f_equal. apply len_swap. exact Hmp.
Qed.

(** ** the first B-spline which is smooth at 0: x^p / p! on the first element *)
Lemma first_piece : forall n p k s, (1 <= n)%nat -> (k <= p)%nat -> (p <= n)%nat -> bs (tK (p + 1) n 1) p k p (at_el n 0 s) = s ^ k / INR (fact k).
Proof.
  intros n p k s Hn. induction k as [|k IH]; intros Hk Hpn.
  - cbn [bs]. rewrite Nat.eqb_refl. simpl. field.
  - assert (Pn : 0 < INR n) by (apply lt_0_INR; lia).
    assert (Kn : forall i, (i <= p)%nat -> tK (p + 1) n 1 (p + i) = INR i / INR n).
    { intros i Hi. unfold tK. rewrite (knot_at (p + 1) n 1) by (try lia; unfold dim; lia). f_equal. f_equal. unfold kidx.
      destruct (Nat.ltb_spec (p + i) (p + 1)) as [L|L]; [lia|]. rewrite Nat.div_1_r. lia. }
    assert (K0 : tK (p + 1) n 1 p = 0) by (replace p with (p + 0)%nat at 2 by lia; rewrite Kn by lia; simpl; unfold Rdiv; ring).
    cbn [bs]. rewrite (bs_support (tK (p + 1) n 1) p _ k (p + 1)) by lia. rewrite IH by lia.
    rewrite (Kn (S k)) by lia. rewrite K0.
    assert (Pk : 0 < INR (S k)) by (apply lt_0_INR; lia).
    destruct (Req_EM_T (INR (S k) / INR n) 0) as [Q|Q].
    + exfalso. assert (0 < INR (S k) / INR n) by (apply Rdiv_lt_0_compat; assumption). lra.
    + assert (F : INR (fact (S k)) = INR (S k) * INR (fact k)) by (rewrite fact_simpl, mult_INR; reflexivity). rewrite F. pose proof (INR_fact_lt_0 k).
      destruct (Req_EM_T _ _); unfold at_el; change (s ^ S k) with (s * s ^ k); change (INR 0) with 0; field; repeat split; lra.
Qed.
Lemma first_cf : forall n p j, (1 <= n)%nat -> (p <= n)%nat -> (j <= p)%nat -> cf (p + 1) n 1 p 0 p j = if (j =? p)%nat then / INR (fact p) else 0.
Proof.
  intros n p j Hn Hpn Hj. apply (bern_indep p (cf (p + 1) n 1 p 0 p) (fun j => if (j =? p)%nat then / INR (fact p) else 0) (mask_at p)); [apply mask_distinct| |exact Hj].
  intros i Hi. rewrite <- (cf_poly (p + 1) n 1 ltac:(lia) Hn ltac:(lia) p 0 p) by (try lia; unfold dim; lia).
  replace (p + 1 - 1)%nat with p by lia. unfold sp. replace (p + 1 - 1 + 0 * 1)%nat with p by lia. rewrite first_piece by lia.
  unfold bernstein_form. rewrite (rsum_single _ (p + 1) p) by (try lia; intros i' Hi' Ne; apply Nat.eqb_neq in Ne; rewrite Ne; ring).
  rewrite Nat.eqb_refl. unfold bern. rewrite pascal_step1 by lia. replace (p - p)%nat with 0%nat by lia. unfold Binomial.C. replace (p - 0)%nat with p by lia. pose proof (INR_fact_lt_0 p). simpl. field. lra.
Qed.
