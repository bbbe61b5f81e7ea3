(** Discrete functions, linear forms, local operators: sums over elements and basis functions. *)
From Coq Require Import Reals Arith Bool List Lia Lra QArith Qreals.
From Verif Require Import ModelBase RSum ModelBernstein SpecBernstein ProofBernstein ModelTree ModelBall ModelQuad ModelAssembly ModelDuffy ModelUtil
  ModelOperators ModelForms SpecForms ProofPar ProofAssembly PropOperators ProofNearFar PropNearFar.
Import ListNotations.
Local Close Scope Q_scope.
Local Open Scope R_scope.

Lemma tensor_shape : forall p i s, tensor_bernstein p i s = shape p i s.
Proof. reflexivity. Qed.
Lemma basis_value : forall ss s i, (i < ss_n2 ss)%nat -> basis ss s i = tensor_bernstein (ss_p ss) i s.
Proof.
  intros ss s i Hi. destruct (split_index _ i Hi) as [Ei [A1 A2]]. unfold basis. rewrite Ei at 1. rewrite phiphi_spec by assumption. unfold zero_arr, tensor_bernstein. ring.
Qed.
Lemma index_eq : forall n2 N c k i, ((c * N + k) * n2 + i = c * (n2 * N) + (k * n2 + i))%nat.
Proof. intros. nia. Qed.
Lemma local_transform : forall p N nd T v c k i, local_coefficient p N nd T v c k i = transform nd T v ((c * N + k) * ((p + 1) * (p + 1)) + i)%nat.
Proof. reflexivity. Qed.

(** ** the coefficients handed to the evaluation *)
Lemma nth_firstn_lt : forall {A} (l : list A) n i d, (i < n)%nat -> nth i (firstn n l) d = nth i l d.
Proof. induction l as [|x l IH]; intros [|n] [|i] d H; try lia; try reflexivity. simpl. apply IH. lia. Qed.
Lemma nth_skipn_add : forall {A} (l : list A) n i d, nth i (skipn n l) d = nth (n + i) l d.
Proof. induction l as [|x l IH]; intros [|n] i d; try reflexivity; simpl; [destruct i; reflexivity|apply IH]. Qed.

Lemma coefficients_value : forall (ss : sspace) (t : tree) (X : surface) vd N nd T v E e, (0 < vd)%nat ->
  init_evaluator (t, X) (ss_p ss) (set_function vd (vd * ss_n2 ss * N) nd T v) = Some E -> (n_id e < N)%nat ->
  exists rows, coefficients E e = Some rows /\ forall c i, (i < ss_n2 ss)%nat ->
    coef rows i c = local_coefficient (ss_p ss) N nd T v c (n_id e) i.
Proof.
  intros ss t X vd N nd T v E e Hv Ei He. unfold init_evaluator in Ei. cbn [fst] in Ei. apply bind_some in Ei. destruct Ei as [rv [_ Ei]]. injection Ei as <-.
  assert (Dv : (vd * ss_n2 ss * N / vd = ss_n2 ss * N)%nat).
  { replace (vd * ss_n2 ss * N)%nat with (ss_n2 ss * N * vd)%nat by lia. apply Nat.div_mul. lia. }
  set (n2 := ss_n2 ss) in *. assert (E2 : ((ss_p ss + 1) * (ss_p ss + 1))%nat = n2) by reflexivity.
  assert (L : (n2 * n_id e + n2 <= n2 * N)%nat) by nia.
  unfold coefficients, set_function. cbn [e_p2 e_fun]. rewrite Dv, E2. rewrite map_length, seq_length.
  assert (G : (n2 * n_id e + n2 <=? n2 * N)%nat = true) by (apply Nat.leb_le; exact L).
  rewrite G. unfold assert. cbn [bind]. eexists. split; [reflexivity|]. intros c i Hi. unfold coef.
  rewrite nth_firstn_lt, nth_skipn_add by assumption. cbv zeta.
  rewrite (nth_indep _ zero_arr ((fun r c => transform nd T v (c * (n2 * N) + r)%nat) 0%nat)) by (rewrite map_length, seq_length; lia).
  rewrite (map_nth (fun r c => transform nd T v (c * (n2 * N) + r)%nat)).
  rewrite seq_nth by lia. rewrite local_transform, E2. f_equal. rewrite index_eq. lia.
Qed.

(** ** numbered elements *)
Definition numbered (N : nat) (els : list node) : Prop :=
  length els = N /\ forall i, (i < length els)%nat -> exists e, nth_error els i = Some e /\ n_id e = i.
Lemma numbered_in : forall N els e, numbered N els -> In e els -> (n_id e < N)%nat /\ nth_error els (n_id e) = Some e.
Proof.
  intros N els e [L H] I. apply In_nth_error in I. destruct I as [k Hk].
  assert (k < length els)%nat by (apply nth_error_Some; congruence). destruct (H k H0) as [e' [He' Id]].
  rewrite Hk in He'. injection He' as <-. rewrite Id. split; [lia|exact Hk].
Qed.
Lemma numbered_nodup : forall N els, numbered N els -> NoDup (map n_id els).
Proof.
  intros N els [L H]. replace (map n_id els) with (seq 0 (length els)); [apply seq_NoDup|].
  apply nth_ext with (d := 0%nat) (d' := 0%nat); [rewrite map_length, seq_length; reflexivity|].
  intros n Hn. rewrite seq_length in Hn. rewrite seq_nth by assumption. destruct (H n Hn) as [e [He Id]].
  assert (Q : nth_error (map n_id els) n = Some n) by (rewrite nth_error_map, He; cbn; congruence).
  symmetry. apply nth_error_nth. exact Q.
Qed.

(** ** the vector of local contributions *)
Section Form.
Variables (lf : sspace -> spoint -> mat -> mat) (ss : sspace) (X : surface) (Q : cubature).
Let n2 := ss_n2 ss.
Lemma form_loop_frame : forall rows els m m' k i c, form_loop lf ss X Q rows els m = Some m' -> (forall e, In e els -> n_id e <> k) -> (i < n2)%nat ->
  m' (n2 * k + i)%nat c = m (n2 * k + i)%nat c.
Proof.
  intros rows els. induction els as [|e els IH]; intros m m' k i c E H Hi; cbn [form_loop] in E.
  - injection E as <-. reflexivity.
  - apply bind_some in E. destruct E as [m1 [E1 E]]. rewrite (IH m1 m' k i c E (fun x Ix => H x (or_intror Ix)) Hi).
    unfold write_block in E1. apply bind_some in E1. destruct E1 as [? [_ E1]]. injection E1 as <-. fold n2.
    assert (Nk : n_id e <> k) by (apply H; left; reflexivity).
    destruct ((n2 * n_id e <=? n2 * k + i)%nat && (n2 * k + i <? n2 * n_id e + n2)%nat) eqn:B; [|reflexivity].
    exfalso. apply andb_prop in B. destruct B as [B1 B2]. apply Nat.leb_le in B1. apply Nat.ltb_lt in B2.
    assert (n_id e < k \/ k < n_id e)%nat by lia. clear - Hi B1 B2 H0. destruct H0; nia.
Qed.
Lemma form_loop_value : forall rows els m m' e i c, form_loop lf ss X Q rows els m = Some m' -> NoDup (map n_id els) -> In e els -> (i < n2)%nat ->
  m' (n2 * n_id e + i)%nat c = element_form lf ss X Q e i c.
Proof.
  intros rows els. induction els as [|e0 els IH]; intros m m' e i c E Nd I Hi; cbn [form_loop] in E; [destruct I|].
  apply bind_some in E. destruct E as [m1 [E1 E]]. cbn [map] in Nd. inversion Nd as [|? ? Ni Nd']; subst. destruct I as [<-|I].
  - rewrite (form_loop_frame rows els m1 m' (n_id e0) i c E); [|intros x Ix Q0; apply Ni; rewrite <- Q0; apply in_map; exact Ix|exact Hi].
    unfold write_block in E1. apply bind_some in E1. destruct E1 as [? [_ E1]]. injection E1 as <-. fold n2.
    replace (n2 * n_id e0 <=? n2 * n_id e0 + i)%nat with true by (symmetry; apply Nat.leb_le; lia).
    replace (n2 * n_id e0 + i <? n2 * n_id e0 + n2)%nat with true by (symmetry; apply Nat.ltb_lt; lia). cbn [andb].
    f_equal. lia.
  - apply (IH m1); assumption.
Qed.
Lemma form_loop_defined : forall rows els m, (forall e, In e els -> (n2 * n_id e + n2 <= rows)%nat) -> exists m', form_loop lf ss X Q rows els m = Some m'.
Proof.
  intros rows els. induction els as [|e els IH]; intros m H; cbn [form_loop]; [eauto|]. unfold write_block at 1. fold n2.
  replace (n2 * n_id e + n2 <=? rows)%nat with true by (symmetry; apply Nat.leb_le; apply H; left; reflexivity). unfold assert. cbn [bind].
  apply IH. intros. apply H. right. assumption.
Qed.

Variables (N vd nd : nat) (T : mat) (els : list node).
Hypothesis Hn : numbered N els.
Lemma linear_form_defined : exists b, linear_form lf ss X Q vd N T els = Some b.
Proof.
  unfold linear_form. destruct (form_loop_defined (ss_n2 ss * N) els zero_mat) as [m Em].
  - intros e I. destruct (numbered_in N els e Hn I) as [H _]. fold n2. nia.
  - rewrite Em. cbn [bind]. eauto.
Qed.
Lemma transpose_dot : forall D (u v : arr), dotp nd v (transform_t D T u) = rsum (fun r => transform nd T v r * u r) D.
Proof.
  intros D u v. unfold dotp, transform_t, transform.
  rewrite (rsum_ext _ (fun i => rsum (fun r => v i * (T r i * u r)) D)) by (intros; rewrite rsum_scal; reflexivity).
  rewrite rsum_swap. apply rsum_ext. intros r Hr. rewrite <- rsum_scal_r. apply rsum_ext. intros. ring.
Qed.
Lemma linear_form_dot : forall b v, linear_form lf ss X Q vd N T els = Some b ->
  dotp nd v b = rsum (fun k => match nth_error els k with
    | Some e => rsum (fun c => rsum (fun i => local_coefficient (ss_p ss) N nd T v c k i * element_form lf ss X Q e i c) n2) vd
    | None => 0 end) N.
Proof.
  intros b v Eb. unfold linear_form in Eb. apply bind_some in Eb. destruct Eb as [m [Em Eb]]. injection Eb as <-. fold n2 in Em. fold n2.
  rewrite transpose_dot. rewrite (Nat.mul_comm (n2 * N) vd), rsum_flatten.
  destruct (Nat.eq_dec (n2 * N) 0) as [Z|Z].
  { rewrite (rsum_zero _ vd) by (intros; rewrite Z; reflexivity). symmetry. apply rsum_zero. intros k Hk.
    assert (n2 = 0)%nat by nia. destruct (nth_error els k); [|reflexivity]. apply rsum_zero. intros. rewrite H. reflexivity. }
  rewrite (rsum_ext _ (fun c => rsum (fun k => rsum (fun i => transform nd T v ((c * N + k) * n2 + i)%nat * m (n2 * k + i)%nat c) n2) N)).
  2:{ intros c Hc. rewrite (Nat.mul_comm n2 N). rewrite (Nat.mul_comm n2 N) in Z. rewrite rsum_flatten. apply rsum_ext. intros k Hk. apply rsum_ext. intros i Hi.
      assert (R0 : (k * n2 + i < N * n2)%nat) by nia.
      rewrite (Nat.add_comm (c * _)), Nat.mod_add, Nat.div_add by assumption. rewrite Nat.mod_small, Nat.div_small by assumption.
      cbn [Nat.add]. rewrite index_eq. f_equal; f_equal; lia. }
  rewrite rsum_swap. apply rsum_ext. intros k Hk. destruct Hn as [L H]. rewrite <- L in Hk. destruct (H k Hk) as [e [He Id]]. rewrite He.
  apply rsum_ext. intros c Hc. apply rsum_ext. intros i Hi. rewrite local_transform. f_equal.
  rewrite <- Id. apply (form_loop_value _ _ _ _ e i c Em); [apply (numbered_nodup N); split; assumption|eapply nth_error_In; exact He|assumption].
Qed.
(** forms adding a multiple of the basis functions *)
Lemma element_form_value : forall (A : spoint -> nat -> R) e i c,
  (forall p m i c, (c < vd)%nat -> (i < n2)%nat -> lf ss p m i c = m i c + p_w p * A p c * tensor_bernstein (ss_p ss) i (p_s p)) ->
  (i < n2)%nat -> (c < vd)%nat ->
  element_form lf ss X Q e i c = rsum (fun q => n_h e * q_w Q q * A (surf_point X e (q_xi Q q) (n_h e * q_w Q q)) c * tensor_bernstein (ss_p ss) i (q_xi Q q)) (q_size Q).
Proof.
  intros A e i c Hl Hi Hc. unfold element_form.
  pose proof (for_loop_add (q_size Q) (fun q m => lf ss (surf_point X e (q_xi Q q) (n_h e * q_w Q q)) m) (fun m : mat => m i c)
    (fun q => n_h e * q_w Q q * A (surf_point X e (q_xi Q q) (n_h e * q_w Q q)) c * tensor_bernstein (ss_p ss) i (q_xi Q q)) zero_mat) as F.
  cbv beta in F. rewrite F; [unfold zero_mat; ring|]. intros q s Hq. rewrite Hl by assumption. reflexivity.
Qed.
End Form.

Lemma n_h_pos : forall e, 0 < n_h e.
Proof. exact PropNearFar.width_pos. Qed.

(** ** matrices from triplets *)
Lemma lsum_flat_map : forall {A B} (f : B -> R) (g : A -> list B) l, lsum f (flat_map g l) = lsum (fun a => lsum f (g a)) l.
Proof. intros A B f g l. induction l as [|a l IH]; [reflexivity|]. cbn [flat_map]. rewrite lsum_app, IH. reflexivity. Qed.
Lemma rsum_pick : forall (u : arr) n k, (k < n)%nat -> rsum (fun r => u r * (if (k =? r)%nat then 1 else 0)) n = u k.
Proof.
  intros u n k H. rewrite (rsum_single _ _ k H); [rewrite Nat.eqb_refl; ring|]. intros i _ Ne.
  destruct (Nat.eqb_spec k i); [congruence|ring].
Qed.
Lemma triplets_form : forall l D (u w : arr), (forall x, In x l -> (fst (fst x) < D /\ snd (fst x) < D)%nat) ->
  rsum (fun r => u r * rsum (fun c => from_triplets l r c * w c) D) D = lsum (fun x => u (fst (fst x)) * snd x * w (snd (fst x))) l.
Proof.
  intros l D u w. induction l as [|x l IH]; intros H.
  - unfold from_triplets. cbn [fold_right]. change (lsum _ []) with 0. apply rsum_zero. intros. rewrite rsum_zero; [ring|]. intros. ring.
  - assert (Hx := H x (or_introl eq_refl)). destruct Hx as [Hr Hc]. specialize (IH (fun y Iy => H y (or_intror Iy))).
    change (lsum (fun x => u (fst (fst x)) * snd x * w (snd (fst x))) (x :: l)) with
      (u (fst (fst x)) * snd x * w (snd (fst x)) + lsum (fun x => u (fst (fst x)) * snd x * w (snd (fst x))) l). rewrite <- IH.
    rewrite (rsum_ext _ (fun r => (u r * (if (fst (fst x) =? r)%nat then 1 else 0)) * (snd x * w (snd (fst x))) + u r * rsum (fun c => from_triplets l r c * w c) D)).
    + rewrite rsum_plus, rsum_scal_r, rsum_pick by assumption. ring.
    + intros r Hr'. rewrite (rsum_ext _ (fun c => (if (fst (fst x) =? r)%nat then 1 else 0) * snd x * (w c * (if (snd (fst x) =? c)%nat then 1 else 0)) + from_triplets l r c * w c)).
      * rewrite rsum_plus, rsum_scal, rsum_pick by assumption. ring.
      * intros c Hc'. unfold from_triplets at 1. cbn [fold_right]. fold (from_triplets l r c).
        change (fold_right _ 0 l) with (from_triplets l r c).
        destruct (fst (fst x) =? r)%nat; destruct (snd (fst x) =? c)%nat; cbn [andb]; ring.
Qed.
Lemma projected_form : forall D nd T S (v w : arr),
  dotp nd v (times nd (projected D T S) w) = rsum (fun r => transform nd T v r * rsum (fun c => S r c * transform nd T w c) D) D.
Proof.
  intros D nd T S v w. unfold dotp, times, projected.
  rewrite (rsum_ext _ (fun i => rsum (fun r => v i * (T r i * rsum (fun c => S r c * transform nd T w c) D)) D)).
  - rewrite rsum_swap. apply rsum_ext. intros r Hr. unfold transform at 2. rewrite <- rsum_scal_r. apply rsum_ext. intros. ring.
  - intros i Hi. rewrite rsum_scal. f_equal.
    rewrite (rsum_ext _ (fun j => rsum (fun r => T r i * rsum (fun c => S r c * T c j) D * w j) D)) by (intros; rewrite rsum_scal_r; reflexivity).
    rewrite rsum_swap. apply rsum_ext. intros r Hr. rewrite (rsum_ext _ (fun j => T r i * rsum (fun c => S r c * (T c j * w j)) D)).
    + rewrite rsum_scal. f_equal. rewrite rsum_swap. apply rsum_ext. intros c Hc. unfold transform. rewrite rsum_scal. reflexivity.
    + intros j Hj. rewrite Rmult_assoc. f_equal. rewrite <- rsum_scal_r. apply rsum_ext. intros. ring.
Qed.
Lemma lsum_nth : forall {A} (f : A -> R) l, lsum f l = rsum (fun k => match nth_error l k with Some e => f e | None => 0 end) (length l).
Proof.
  intros A f l. induction l as [|a l IH]; [reflexivity|]. cbn [length]. rewrite rsum_shift. cbn [nth_error]. rewrite <- IH. reflexivity.
Qed.
Lemma local_form : forall integrand ss X Q vd N nd T els v w, numbered N els ->
  dotp nd v (times nd (local_operator integrand ss X Q vd N T els) w) = rsum (fun k => match nth_error els k with
    | Some e => rsum (fun i => rsum (fun j => rsum (fun ii => rsum (fun jj =>
        local_coefficient (ss_p ss) N nd T v j k jj * element_matrix integrand ss X Q e (j * ss_n2 ss + jj)%nat (i * ss_n2 ss + ii)%nat * local_coefficient (ss_p ss) N nd T w i k ii)
        (ss_n2 ss)) (ss_n2 ss)) vd) vd
    | None => 0 end) N.
Proof.
  intros integrand ss X Q vd N nd T els v w Hn. unfold local_operator. cbv zeta. rewrite projected_form. set (n2 := ss_n2 ss).
  assert (B : forall e i ii, In e els -> (i < vd)%nat -> (ii < n2)%nat -> (n2 * (i * N + n_id e) + ii < vd * n2 * N)%nat).
  { intros e i ii I Hi Hii. destruct (numbered_in N els e Hn I) as [H _]. 
    assert (A1 : (i * N + n_id e + 1 <= vd * N)%nat) by nia. assert (A2 : (n2 * (i * N + n_id e + 1) <= n2 * (vd * N))%nat) by nia. lia. }
  rewrite triplets_form.
  - rewrite lsum_flat_map, lsum_nth. destruct Hn as [L H]. rewrite L. apply rsum_ext. intros k Hk. rewrite <- L in Hk. destruct (H k Hk) as [e [He Id]]. rewrite He.
    unfold element_triplets. rewrite lsum_flat_map, lsum_seq. apply rsum_ext. intros i Hi. rewrite lsum_flat_map, lsum_seq. apply rsum_ext. intros j Hj.
    rewrite lsum_flat_map, lsum_seq. apply rsum_ext. intros ii Hii. rewrite lsum_map, lsum_seq. apply rsum_ext. intros jj Hjj. cbn [fst snd].
    rewrite !local_transform, Id. change ((ss_p ss + 1) * (ss_p ss + 1))%nat with n2.
    rewrite !(Nat.mul_comm n2). reflexivity.
  - intros x I. apply in_flat_map in I. destruct I as [e [Ie I]]. unfold element_triplets in I. apply in_flat_map in I. destruct I as [i [Hi I]].
    apply in_flat_map in I. destruct I as [j [Hj I]]. apply in_flat_map in I. destruct I as [ii [Hii I]]. apply in_map_iff in I. destruct I as [jj [<- Hjj]].
    apply in_seq in Hi, Hj, Hii, Hjj. cbn [fst snd]. split; apply B; auto; lia.
Qed.
Lemma element_matrix_value : forall integrand ss X Q e a b (G : spoint -> R),
  (forall p m, integrand ss p p m a b = m a b + p_w p * G p) ->
  element_matrix integrand ss X Q e a b = rsum (fun q => q_w Q q * G (surf_point X e (q_xi Q q) (q_w Q q))) (q_size Q).
Proof.
  intros integrand ss X Q e a b G H. unfold element_matrix. cbv zeta.
  pose proof (for_loop_add (q_size Q) (fun i m => let qp := surf_point X e (q_xi Q i) (q_w Q i) in integrand ss qp qp m) (fun m : mat => m a b)
    (fun q => q_w Q q * G (surf_point X e (q_xi Q q) (q_w Q q))) zero_mat) as F. cbv beta zeta in F. etransitivity; [apply F|unfold zero_mat; ring].
  intros q s Hq. rewrite H. reflexivity.
Qed.
