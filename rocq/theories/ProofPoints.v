(** generatePointList *)
From Coq Require Import List Arith Reals Lra Lia Bool QArith Qreals.
From Verif Require Import ModelBase ModelTree ModelBall SpecTree SpecMesh SpecBall
  ProofTree ProofTreeWF ProofTreeHist ProofTreeGeo ProofTreeLook ProofBall PropTopo.
Import ListNotations.
Local Close Scope Q_scope.
Local Open Scope nat_scope.

Lemma Q2R_nat : forall n, Q2R (inject_Z (Z.of_nat n)) = INR n.
Proof. intros. unfold Q2R, inject_Z. simpl. rewrite INR_IZR_INZ. field. Qed.
Lemma Q2R_pow2 : forall l, Q2R (pow2Q l) = (2 ^ l)%R.
Proof. intros. unfold pow2Q. rewrite Q2R_nat, pow_INR. reflexivity. Qed.
Lemma pow2_neq : forall l, (2 ^ l <> 0)%R.
Proof. intros. apply pow_nonzero. lra. Qed.
Lemma pow2Q_neq : forall l, ~ (pow2Q l == 0)%Q.
Proof. intros l H. apply Qeq_eqR in H. rewrite Q2R_pow2 in H. unfold Q2R in H. simpl in H. apply (pow2_neq l). lra. Qed.
Lemma Q2R_llc : forall q x l, (q == inject_Z (Z.of_nat x) / pow2Q l)%Q -> Q2R q = (INR x / 2 ^ l)%R.
Proof.
  intros q x l H. apply Qeq_eqR in H. rewrite H, Q2R_div, Q2R_nat, Q2R_pow2 by apply pow2Q_neq. reflexivity.
Qed.
Lemma Q2R_h : forall n a, node_ok a n -> Q2R (get_h n) = (1 / 2 ^ pos_level a)%R.
Proof.
  intros n a K. unfold get_h. rewrite Q2R_div by apply pow2Q_neq. rewrite Q2R_pow2, (nk_level _ _ K). f_equal.
  unfold Q2R. simpl. field.
Qed.

Definition node_corner (eval : nat -> R -> R -> vec3) (n : node) (k : nat) : vec3 :=
  eval (n_patch n) (Q2R (fst (n_llc n)) + INR (quad_x k) * Q2R (get_h n))%R (Q2R (snd (n_llc n)) + INR (quad_y k) * Q2R (get_h n))%R.

Lemma node_corner_ok : forall eval a n k, node_ok a n -> node_corner eval n k = corner_point eval a k.
Proof.
  intros eval a n k K. unfold node_corner, corner_point. rewrite (nk_patch _ _ K), (Q2R_h n a K).
  destruct (nk_llc _ _ K) as [Hx Hy]. rewrite (Q2R_llc _ _ _ Hx), (Q2R_llc _ _ _ Hy), !plus_INR.
  f_equal; field; apply pow2_neq.
Qed.

Lemma set_col : forall P v (x : vec3) P', set P v (Some x) = Some P' ->
  length P' = length P /\ v < length P /\ forall w, col P' w = if w =? v then Some x else col P w.
Proof.
  intros P v x P' E. destruct (le_lt_dec (length P) v) as [H|H]; [rewrite set_none in E by assumption; discriminate|].
  destruct (set_spec P v (Some x) H) as [v' [E' [L N]]]. assert (v' = P') by congruence. subst v'.
  split; [assumption|]. split; [assumption|]. intros w. unfold col, get.
  destruct (le_lt_dec (length P) w) as [Hw|Hw].
  - rewrite (proj2 (nth_error_None P' w)) by lia. rewrite (proj2 (nth_error_None P w)) by lia.
    destruct (Nat.eqb_spec w v); [lia|reflexivity].
  - rewrite (nth_error_nth' P' None) by lia. rewrite (nth_error_nth' P None) by lia. cbn [bind].
    rewrite N. destruct (w =? v); reflexivity.
Qed.

(** one element *)
Lemma write_element_ok : forall eval a n P, node_ok a n -> (forall v, In v (n_verts n) -> v < length P) ->
  exists P', write_element eval n P = Some P' /\ length P' = length P /\
    (forall w, (exists k, k < 4 /\ nth_error (n_verts n) k = Some w /\ col P' w = Some (corner_point eval a k)) \/
               (~ In w (n_verts n) /\ col P' w = col P w)).
Proof.
  intros eval a n P K Hv. pose proof (nk_verts _ _ K) as Lv.
  assert (C : forall k, corner_point eval a k = node_corner eval n k) by (intros; symmetry; apply node_corner_ok; assumption).
  destruct (n_verts n) as [|v0 [|v1 [|v2 [|v3 [|? ?]]]]] eqn:Ev; try discriminate.
  unfold write_element, write_vertex. rewrite Ev. cbn [get nth_error bind].
  assert (St : forall (Q : list (option vec3)) v x, v < length P -> length Q = length P -> exists Q', set Q v (Some x) = Some Q' /\ length Q' = length P /\
     forall w, col Q' w = if w =? v then Some x else col Q w).
  { intros Q v x H L. destruct (set_spec Q v (Some x)) as [Q' [E [L' _]]]; [lia|]. exists Q'. split; [assumption|].
    destruct (set_col _ _ _ _ E) as [_ [_ N]]. split; [lia|assumption]. }
  assert (Hv' : v0 < length P /\ v1 < length P /\ v2 < length P /\ v3 < length P) by (repeat split; apply Hv; simpl; auto).
  destruct Hv' as [H0 [H1 [H2 H3]]]. 
  match goal with |- context [set P v0 (Some ?x)] => destruct (St P v0 x H0 eq_refl) as [P0 [E0 [L0 N0]]] end. rewrite E0. cbn [bind].
  match goal with |- context [set P0 v1 (Some ?x)] => destruct (St P0 v1 x H1 L0) as [P1 [E1 [L1 N1]]] end. rewrite E1. cbn [bind].
  match goal with |- context [set P1 v2 (Some ?x)] => destruct (St P1 v2 x H2 L1) as [P2 [E2 [L2 N2]]] end. rewrite E2. cbn [bind].
  match goal with |- context [set P2 v3 (Some ?x)] => destruct (St P2 v3 x H3 L2) as [P3 [E3 [L3 N3]]] end. rewrite E3.
  exists P3. split; [reflexivity|]. split; [assumption|]. intros w. rewrite N3, N2, N1, N0.
  destruct (Nat.eqb_spec w v3) as [->|D3].
  { left. exists 3. split; [lia|]. split; [reflexivity|]. rewrite C. unfold node_corner. simpl. do 2 f_equal; ring. }
  destruct (Nat.eqb_spec w v2) as [->|D2].
  { left. exists 2. split; [lia|]. split; [reflexivity|]. rewrite C. unfold node_corner. simpl. do 2 f_equal; ring. }
  destruct (Nat.eqb_spec w v1) as [->|D1].
  { left. exists 1. split; [lia|]. split; [reflexivity|]. rewrite C. unfold node_corner. simpl. do 2 f_equal; ring. }
  destruct (Nat.eqb_spec w v0) as [->|D0].
  { left. exists 0. split; [lia|]. split; [reflexivity|]. rewrite C. unfold node_corner. simpl. do 2 f_equal; ring. }
  right. split; [|reflexivity]. simpl. intros H. repeat destruct H as [<-|H]; try congruence; tauto.
Qed.

Definition written (eval : nat -> R -> R -> vec3) (t : tree) (l : list addr) (P : list (option vec3)) : Prop :=
  (forall w p, col P w = Some p -> exists a k, In a l /\ k < 4 /\ vertex t a k = Some w /\ p = corner_point eval a k) /\
  (forall a k w, In a l -> vertex t a k = Some w -> exists p, col P w = Some p).

Lemma write_elements_ok : forall eval t l2 l1 P,
  (forall a, In a l2 -> exists n, t_store t a = Some n /\ node_ok a n /\ forall v, In v (n_verts n) -> v < length P) ->
  written eval t l1 P -> exists P', write_elements eval (t_store t) l2 P = Some P' /\ length P' = length P /\ written eval t (l1 ++ l2) P'.
Proof.
  intros eval t l2. induction l2 as [|a l2 IH]; intros l1 P H I; cbn [write_elements].
  - exists P. rewrite app_nil_r. auto.
  - destruct (H a (or_introl eq_refl)) as [n [En [K Hv]]]. rewrite En. cbn [bind].
    destruct (write_element_ok eval a n P K Hv) as [P1 [E1 [L1 N1]]]. rewrite E1. cbn [bind].
    destruct (IH (l1 ++ [a]) P1) as [P2 [E2 [L2 W2]]].
    + intros b Hb. destruct (H b (or_intror Hb)) as [m [Em [Km Hm]]]. exists m. split; [assumption|]. split; [assumption|].
      intros v Hv'. rewrite L1. auto.
    + destruct I as [I1 I2]. split.
      * intros w p Ep. destruct (N1 w) as [[k [Hk [Ek Ec]]]|[_ Ec]].
        { exists a, k. split; [apply in_or_app; simpl; auto|]. split; [assumption|]. split; [unfold vertex; rewrite En; assumption|congruence]. }
        { rewrite Ec in Ep. destruct (I1 w p Ep) as [b [k [Hb R]]]. exists b, k. split; [apply in_or_app; auto|assumption]. }
      * intros b k w Hb Ek. destruct (N1 w) as [[k' [_ [_ Ec]]]|[Hn Ec]]; [eauto|]. rewrite Ec.
        apply in_app_or in Hb. destruct Hb as [Hb|[<-|[]]]; [eapply I2; eauto|]. exfalso. apply Hn.
        unfold vertex in Ek. rewrite En in Ek. eapply nth_error_In; eauto.
    + exists P2. split; [assumption|]. split; [lia|]. rewrite <- app_assoc in W2. exact W2.
Qed.

(** ** points of the glued surface have one image *)
Lemma scaled : forall L l X, l <= L -> (INR (2 ^ (L - l) * X) / INR (2 ^ L))%R = (INR X / 2 ^ l)%R.
Proof.
  intros L l X H. rewrite mult_INR, !pow_INR. change (INR 2) with 2%R.
  replace (2 ^ L)%R with (2 ^ (L - l) * 2 ^ l)%R by (rewrite <- pow_add; f_equal; lia).
  field. split; apply pow2_neq.
Qed.

Lemma quad_edge : forall k, k < 4 -> edge_pt k 0 = (INR (quad_x k), INR (quad_y k)).
Proof. intros k Hk. destruct k as [|[|[|[|k]]]]; try lia; simpl; f_equal; ring. Qed.

Lemma edge_coord : forall E i s X Y, 0 < E -> on_edge E i s X Y ->
  edge_pt i (INR s / INR E) = (INR X / INR E, INR Y / INR E)%R /\ (0 <= INR s / INR E <= 1)%R.
Proof.
  intros E i s X Y HE [Hs H]. assert (HE' : (0 < INR E)%R) by (apply lt_0_INR; assumption).
  assert (Hs' : (INR s <= INR E)%R) by (apply le_INR; assumption). pose proof (pos_INR s).
  split.
  - destruct i as [|[|[|i]]]; simpl; destruct H as [H1 H2].
    + rewrite H1, H2. f_equal. simpl. unfold Rdiv. rewrite Rmult_0_l. reflexivity.
    + rewrite H1, H2. f_equal. field. lra.
    + apply (f_equal INR) in H2. rewrite plus_INR in H2. rewrite H1. f_equal; [|field; lra]. apply (Rmult_eq_reg_r (INR E)); [|lra]. field_simplify; lra.
    + apply (f_equal INR) in H2. rewrite plus_INR in H2. rewrite H1. f_equal; [simpl; unfold Rdiv; rewrite Rmult_0_l; reflexivity|].
      apply (Rmult_eq_reg_r (INR E)); [|lra]. field_simplify; lra.
  - split; [apply Rmult_le_pos; [assumption|apply Rlt_le, Rinv_0_lt_compat; assumption]|].
    apply Rmult_le_reg_r with (INR E); [assumption|]. unfold Rdiv. rewrite Rmult_assoc, Rinv_l by lra. lra.
Qed.

Lemma same_image : forall verts eval E p X Y q X' Y', fits verts eval -> p < length verts -> q < length verts -> 0 < E -> same_point verts E p X Y q X' Y' ->
  eval p (INR X / INR E)%R (INR Y / INR E)%R = eval q (INR X' / INR E)%R (INR Y' / INR E)%R.
Proof.
  intros verts eval E p X Y q X' Y' F Hp Hq HE S. assert (HE' : (0 < INR E)%R) by (apply lt_0_INR; assumption).
  destruct S as [[-> [-> ->]]|[[k [m [Hk [Hm [[-> ->] [[-> ->] Ev]]]]]]|[i [j [s [s' [Hi [Hj [O1 [O2 A]]]]]]]]]].
  - reflexivity.
  - pose proof (fit_corner _ _ F p q k m Hp Hq Hk Hm Ev) as H. rewrite !quad_edge in H by assumption. unfold at_pt in H. simpl in H.
    assert (G : forall c, (INR (E * c) / INR E)%R = INR c) by (intros; rewrite mult_INR; field; lra).
    rewrite !G. assumption.
  - destruct (edge_coord E i s X Y HE O1) as [C1 B1]. destruct (edge_coord E j s' X' Y' HE O2) as [C2 B2].
    destruct A as [[A <-]|[A Es]].
    + pose proof (fit_aligned _ _ F p q i j _ Hp Hq Hi Hj B1 A) as H. rewrite C1, C2 in H. exact H.
    + pose proof (fit_opposed _ _ F p q i j _ Hp Hq Hi Hj B1 A) as H.
      replace (1 - INR s / INR E)%R with (INR s' / INR E)%R in H; [rewrite C1, C2 in H; exact H|].
      apply (f_equal INR) in Es. rewrite plus_INR in Es. apply (Rmult_eq_reg_r (INR E)); [|lra]. field_simplify; lra.
Qed.

Lemma point_list_ok : forall verts npts t eval, mesh_ok verts -> numbered verts npts -> reachable_over verts npts t ->
  verts <> [] -> fits verts eval ->
  exists P, point_list eval t = Some P /\ length P = t_points t /\
    (forall a k v, exists_node t a -> k < 4 -> vertex t a k = Some v -> col P v = Some (corner_point eval a k)) /\
    (forall v, v < t_points t -> exists p, col P v = Some p).
Proof.
  intros verts npts t eval M N R Hne F. destruct (over_wf verts npts t M N R) as [Ov [l W]].
  destruct (C18_indices_in_range verts npts t M N R) as [Rg Us].
  assert (HPt : 0 < t_patches t).
  { destruct Ov as [_ [_ ->]]. destruct verts; [congruence|simpl; lia]. }
  unfold point_list. rewrite (traverse_ok t l W HPt). cbn [bind].
  destruct (write_elements_ok eval t l [] (repeat None (t_points t))) as [P [E [L [I1 I2]]]].
  - intros a Ha. apply (wf_leaf t l W) in Ha. destruct Ha as [n [En _]]. exists n. split; [assumption|].
    pose proof (wf_node t l W a n En) as K. split; [assumption|]. intros v Hv. rewrite repeat_length.
    apply In_nth_error in Hv. destruct Hv as [k Hk]. assert (Hk4 : k < 4).
    { rewrite <- (nk_verts _ _ K). apply nth_error_Some. congruence. }
    destruct (Rg a k) as [v' [E1 E2]]; [unfold exists_node; congruence|assumption|].
    unfold vertex in E1. rewrite En in E1. congruence.
  - split; [|intros a k w []]. intros w p H. unfold col, get in H.
    destruct (nth_error (repeat None (t_points t)) w) as [x|] eqn:Ex; [|discriminate]. cbn [bind] in H.
    apply nth_error_In, repeat_spec in Ex. congruence.
  - exists P. split; [assumption|]. rewrite repeat_length in L. split; [assumption|].
    assert (Some_col : forall v, v < t_points t -> exists p, col P v = Some p).
    { intros v Hv. destruct (Us v Hv) as [b [m [Lb [Hm Em]]]]. apply (I2 b m v); [apply (wf_leaf t l W); assumption|assumption]. }
    split; [|assumption]. intros a k v Ha Hk Ev.
    assert (Hv : v < t_points t) by (destruct (Rg a k Ha Hk) as [v' [E1 E2]]; congruence).
    destruct (Some_col v Hv) as [p Ep]. rewrite Ep. destruct (I1 v p Ep) as [b [m [Hb [Hm [Em ->]]]]]. f_equal.
    assert (Hexb : exists_node t b).
    { apply in_app_or in Hb. destruct Hb as [[]|Hb]. apply (wf_leaf t l W) in Hb. destruct Hb as [nb [Enb _]]. unfold exists_node. congruence. }
    set (Lv := Nat.max (pos_level a) (pos_level b)).
    assert (S : vertex t b m = vertex t a k) by congruence.
    apply (C18_index_is_point verts npts t M N R b a m k Lv) in S; auto; try (unfold Lv; lia).
    apply (same_image verts eval) in S; [|assumption| | |].
    + unfold corner_point. rewrite !scaled in S by (unfold Lv; lia). exact S.
    + destruct Ov as [_ [_ <-]]. apply (wf_addr_patch t l b W Hexb).
    + destruct Ov as [_ [_ <-]]. apply (wf_addr_patch t l a W Ha).
    + pose proof (Nat.pow_nonzero 2 Lv). lia.
Qed.

(** ** vertex counts *)
(** number of pairs (element, corner) of the list with vertex v *)
Definition occ (t : tree) (l : list addr) (v : nat) : nat :=
  length (filter (fun ak => match vertex t (fst ak) (snd ak) with Some w => w =? v | None => false end) (list_prod l [0; 1; 2; 3])).

Lemma occ_app : forall t l1 l2 v, occ t (l1 ++ l2) v = occ t l1 v + occ t l2 v.
Proof.
  intros. unfold occ.
  assert (E : list_prod (l1 ++ l2) [0; 1; 2; 3] = list_prod l1 [0; 1; 2; 3] ++ list_prod l2 [0; 1; 2; 3]).
  { induction l1 as [|a l1 IH]; [reflexivity|]. cbn [list_prod app]. rewrite IH, app_assoc. reflexivity. }
  rewrite E, filter_app, app_length. reflexivity.
Qed.

Lemma inc_ok : forall c v, v < length c -> exists c', (x <- get c v ;; set c v (S x)) = Some c' /\ length c' = length c /\
  forall w, nth w c' 0 = nth w c 0 + (if v =? w then 1 else 0).
Proof.
  intros c v H. rewrite (get_nth c v 0 H). cbn [bind]. destruct (set_spec c v (S (nth v c 0)) H) as [c' [E [L N]]].
  exists c'. split; [assumption|]. split; [assumption|]. intros w. rewrite N, (Nat.eqb_sym v w). destruct (Nat.eqb_spec w v) as [->|]; lia.
Qed.

Lemma count_element_ok : forall t a n c, t_store t a = Some n -> length (n_verts n) = 4 -> (forall v, In v (n_verts n) -> v < length c) ->
  exists c', for_opt 4 (count_vertex n) c = Some c' /\ length c' = length c /\ forall w, nth w c' 0 = nth w c 0 + occ t [a] w.
Proof.
  intros t a n c En L4 Hv.
  destruct (n_verts n) as [|v0 [|v1 [|v2 [|v3 [|? ?]]]]] eqn:Ev; try discriminate.
  assert (O : forall w, occ t [a] w = (if v0 =? w then 1 else 0) + (if v1 =? w then 1 else 0) + (if v2 =? w then 1 else 0) + (if v3 =? w then 1 else 0)).
  { intros w. unfold occ. cbn [list_prod map app filter fst snd]. unfold vertex. rewrite En, Ev. cbn [nth_error].
    destruct (v0 =? w), (v1 =? w), (v2 =? w), (v3 =? w); reflexivity. }
  cbn [for_opt bind]. unfold count_vertex. rewrite Ev. cbn [get nth_error bind].
  destruct (inc_ok c v0) as [c0 [E0 [L0 N0]]]; [apply Hv; simpl; auto|]. rewrite E0. cbn [bind].
  destruct (inc_ok c0 v1) as [c1 [E1 [L1 N1]]]; [rewrite L0; apply Hv; simpl; auto|]. rewrite E1. cbn [bind].
  destruct (inc_ok c1 v2) as [c2 [E2 [L2 N2]]]; [rewrite L1, L0; apply Hv; simpl; auto|]. rewrite E2. cbn [bind].
  destruct (inc_ok c2 v3) as [c3 [E3 [L3 N3]]]; [rewrite L2, L1, L0; apply Hv; simpl; auto|]. rewrite E3.
  exists c3. split; [reflexivity|]. split; [lia|]. intros w. rewrite N3, N2, N1, N0, O. lia.
Qed.

Lemma count_elements_ok : forall t l c,
  (forall a, In a l -> exists n, t_store t a = Some n /\ length (n_verts n) = 4 /\ forall v, In v (n_verts n) -> v < length c) ->
  exists c', count_elements (t_store t) l c = Some c' /\ length c' = length c /\ forall w, nth w c' 0 = nth w c 0 + occ t l w.
Proof.
  intros t l. induction l as [|a l IH]; intros c H; cbn [count_elements].
  - exists c. split; [reflexivity|]. split; [reflexivity|]. intros. unfold occ. simpl. lia.
  - destruct (H a (or_introl eq_refl)) as [n [En [L4 Hv]]]. rewrite En. cbn [bind].
    destruct (count_element_ok t a n c En L4 Hv) as [c1 [E1 [L1 N1]]]. rewrite E1. cbn [bind].
    destruct (IH c1) as [c2 [E2 [L2 N2]]].
    + intros b Hb. destruct (H b (or_intror Hb)) as [m [Em [Lm Hm]]]. exists m. split; [assumption|]. split; [assumption|].
      intros v Hv'. rewrite L1. auto.
    + exists c2. split; [assumption|]. split; [lia|]. intros w. change (occ t (a :: l) w) with (occ t ([a] ++ l) w). rewrite N2, N1, occ_app. lia.
Qed.
