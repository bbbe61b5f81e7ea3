(** C34, C36, C56: rotations, exactness and symmetry of the quadrature routines for pairs of elements. *)
From Coq Require Import List Arith Lia ZArith Reals Lra QArith Qreals.
From Coquelicot Require Import Coquelicot.
From Verif Require Import RSum ModelBase ModelBernstein ModelTree ModelBall ModelQuad ModelAssembly ModelDuffy SpecQuad SpecDuffy ProofDuffy ProofDuffyInt ProofTree ProofAssembly PropQuad.
Import ListNotations.
Local Close Scope Q_scope.
Local Open Scope nat_scope.
Local Open Scope R_scope.

(** ** C34 *)
Theorem C34_square : forall x y r, in_square (x, y) -> in_square (tau x y r).
Proof. intros x y r [H1 H2]. cbn [fst snd] in *. do 4 (destruct r as [|r]; [split; cbn [tau fst snd]; lra|]). split; cbn [tau fst snd]; lra. Qed.
Theorem C34_corners_and_edges : forall k r u, (k < 4)%nat -> (r < 4)%nat ->
  tau (fst (corner k)) (snd (corner k)) r = corner ((k + r) mod 4) /\
  tau (fst (edge_point k u)) (snd (edge_point k u)) r = edge_point ((k + r) mod 4) u.
Proof.
  intros k r u Hk Hr. do 4 (destruct k as [|k]; [do 4 (destruct r as [|r]; [unfold edge_point; cbn; split; f_equal; ring|]); lia|]). lia.
Qed.
Theorem C34_composition : forall x y r1 r2, (r1 < 4)%nat -> (r2 < 4)%nat ->
  tau (fst (tau x y r1)) (snd (tau x y r1)) r2 = tau x y ((r1 + r2) mod 4).
Proof.
  intros x y r1 r2 H1 H2. do 4 (destruct r1 as [|r1]; [do 4 (destruct r2 as [|r2]; [cbn; f_equal; ring|]); lia|]). lia.
Qed.
(** each rotation is a bijection of the square *)
Theorem C34_bijective : forall r, (forall p, in_square p -> exists q, in_square q /\ tau (fst q) (snd q) r = p) /\
  (forall p q, tau (fst p) (snd p) r = tau (fst q) (snd q) r -> p = q).
Proof.
  intros r. split.
  - intros [x y] H. destruct r as [|[|[|[|r]]]].
    + exists (x, y). auto.
    + exists (tau x y 3). split; [apply C34_square, H|]. cbn. f_equal; ring.
    + exists (tau x y 2). split; [apply C34_square, H|]. cbn. f_equal; ring.
    + exists (tau x y 1). split; [apply C34_square, H|]. cbn. f_equal; ring.
    + exists (x, y). auto.
  - intros [x y] [x' y'] H. cbn [fst snd] in H. do 4 (destruct r as [|r]; [cbn [tau] in H; injection H; intros; f_equal; lra|]).
    cbn [tau] in H. injection H; intros; f_equal; lra.
Qed.

(** ** C36: polynomials are integrated exactly *)
Theorem C36_regular : forall K e1 e2 x w D a b v, exact_rule (D + 1) x w ->
  poly4 D (fun s t => K e1 s e2 t a b) -> integral4 (fun s t => K e1 s e2 t a b) v ->
  integrate1 K e1 e2 (tensor_rule (x, w)) a b = e_h e1 * e_h e1 * v.
Proof.
  intros K e1 e2 x w D a b v E P I. pose proof (exact_moments _ _ _ E) as M. destruct E as [Len _].
  rewrite integrate1_value by exact Len. f_equal. eapply (L4_integral (D + 1)); try eassumption; lia.
Qed.
Theorem C36_identical : forall K e x w D a b v, exact_rule (D + 4) x w ->
  poly4 D (fun s t => K e s e t a b) -> integral4 (fun s t => K e s e t a b) v ->
  integrate2 K e (tensor_rule (x, w)) a b = e_h e * e_h e * v.
Proof.
  intros K e x w D a b v E P I. pose proof (exact_moments _ _ _ E) as M. destruct E as [Len _].
  rewrite integrate2_value by exact Len. f_equal. rewrite (identical4_ok x w (D + 4) M D) by (try apply P4_poly4; auto). 
  eapply (L4_integral (D + 4)); try eassumption; lia.
Qed.
Theorem C36_edge : forall K e1 r1 e2 r2 x w D a b v, exact_rule (D + 4) x w ->
  poly4 D (fun s t => K e1 s e2 t a b) -> integral4 (fun s t => K e1 s e2 t a b) v ->
  integrate3 K e1 r1 e2 r2 (tensor_rule (x, w)) a b = e_h e1 * e_h e1 * v.
Proof.
  intros K e1 r1 e2 r2 x w D a b v E P I. pose proof (exact_moments _ _ _ E) as M. destruct E as [Len _].
  rewrite integrate3_value by exact Len. f_equal. destruct (L4_rotated (D + 4) x w D (entry K e1 e2 a b) r1 r2 M ltac:(lia) (P4_poly4 _ _ P)) as [P' E'].
  rewrite (edge4_ok x w (D + 4) M D) by auto. rewrite E'. eapply (L4_integral (D + 4)); try eassumption; lia.
Qed.
Theorem C36_vertex : forall K e1 r1 e2 r2 x w D a b v, exact_rule (D + 4) x w ->
  poly4 D (fun s t => K e1 s e2 t a b) -> integral4 (fun s t => K e1 s e2 t a b) v ->
  integrate4 K e1 r1 e2 r2 (tensor_rule (x, w)) a b = e_h e1 * e_h e1 * v.
Proof.
  intros K e1 r1 e2 r2 x w D a b v E P I. pose proof (exact_moments _ _ _ E) as M. destruct E as [Len _].
  rewrite integrate4_value by exact Len. f_equal. destruct (L4_rotated (D + 4) x w D (entry K e1 e2 a b) r1 r2 M ltac:(lia) (P4_poly4 _ _ P)) as [P' E'].
  rewrite (vertex4_ok x w (D + 4) M D) by auto. rewrite E'. eapply (L4_integral (D + 4)); try eassumption; lia.
Qed.

(** precomputed points give the same result *)
Lemma tensor_len : forall x w, length x = length w -> length (fst (tensor_rule (x, w))) = q_size (tensor_rule (x, w)).
Proof. intros x w L. unfold q_size, tensor_rule. cbn [fst snd]. rewrite !map_length, !seq_length. congruence. Qed.
Lemma ffield_nth : forall h e Q k, (k < length (fst Q))%nat -> nth k (ffield_points h e Q) (no_point e) = map2surface e (q_xi Q k) (h * q_w Q k).
Proof.
  intros h e Q k H. unfold ffield_points. set (f := fun k => map2surface e (q_xi Q k) (h * q_w Q k)).
  rewrite (nth_indep _ (no_point e) (f 0%nat)) by (rewrite map_length, seq_length; exact H). rewrite map_nth, seq_nth by exact H. reflexivity.
Qed.
Theorem C36_precomputed : forall K e1 e2 h x w a b, length x = length w -> h = e_h e1 ->
  integrate0 K e1 e2 (ffield_points h e1 (tensor_rule (x, w))) (ffield_points h e2 (tensor_rule (x, w))) (tensor_rule (x, w)) a b
  = integrate1 K e1 e2 (tensor_rule (x, w)) a b.
Proof.
  intros K e1 e2 h x w a b L ->. pose proof (tensor_len x w L) as TL. set (Q := tensor_rule (x, w)) in *.
  unfold integrate0, integrate1. cbv zeta.
  assert (G : forall n, (n <= q_size Q)%nat -> forall m m' : mat, m a b = m' a b ->
    for_loop n (fun i m => for_loop (q_size Q) (fun j m => evaluate_integrand K (nth i (ffield_points (e_h e1) e1 Q) (no_point e1)) (nth j (ffield_points (e_h e1) e2 Q) (no_point e2)) m) m) m a b
    = for_loop n (fun i m => for_loop (q_size Q) (fun j m => evaluate_integrand K (map2surface e1 (q_xi Q i) (e_h e1 * q_w Q i)) (map2surface e2 (q_xi Q j) (e_h e1 * q_w Q j)) m) m) m' a b).
  { induction n as [|n IH]; intros Hn m m' E; cbn [for_loop]; [exact E|].
    specialize (IH ltac:(lia) m m' E). set (m1 := for_loop n _ m) in *. set (m2 := for_loop n _ m') in *. clearbody m1 m2.
    rewrite ffield_nth by lia.
    assert (G2 : forall k, (k <= q_size Q)%nat -> for_loop k (fun j m => evaluate_integrand K (map2surface e1 (q_xi Q n) (e_h e1 * q_w Q n)) (nth j (ffield_points (e_h e1) e2 Q) (no_point e2)) m) m1 a b
      = for_loop k (fun j m => evaluate_integrand K (map2surface e1 (q_xi Q n) (e_h e1 * q_w Q n)) (map2surface e2 (q_xi Q j) (e_h e1 * q_w Q j)) m) m2 a b).
    { induction k as [|k IHk]; intros Hk; cbn [for_loop]; [exact IH|]. rewrite ffield_nth by lia. unfold evaluate_integrand at 1 3. rewrite IHk by lia. reflexivity. }
    apply G2. lia. }
  apply G; [lia|reflexivity].
Qed.

(** the four cases of compareElements *)
Lemma compare_case : forall e1 e2 c d, compare_elements e1 e2 = (c, d) -> snd c = 0%nat \/ snd c = 2%nat /\ e_addr e1 = e_addr e2 \/ snd c = 3%nat \/ snd c = 4%nat.
Proof.
  intros e1 e2 c d. unfold compare_elements. destruct (addr_eqb (e_addr e1) (e_addr e2)) eqn:E.
  - intros H. injection H as <- <-. right. left. split; [reflexivity|]. apply addr_eqb_eq, E.
  - cbv zeta. destruct Rlt_dec; intros H; injection H as <- <-; [auto|]. unfold compare_vertices. destruct find as [[r1 r2]|]; [|auto].
    destruct Nat.eqb; [auto|]. destruct Nat.eqb; auto.
Qed.
(** the whole routine: for polynomials of total degree at most D and rules of sufficient exactness the local matrix
    contains the integrals, whatever the relative position of the two elements *)
Theorem C36_bilinear_form : forall K p order rules e1 e2 D m,
  (forall d, exists x w, rules d = (x, w) /\ exact_rule (D + 4) x w) ->
  (e_addr e1 = e_addr e2 -> e1 = e2) ->
  let GS := fun d => tensor_rule (rules d) in
  let far := GS (farfield_degree p order) in
  evaluate_bilinear_form K p order GS e1 e2 (ffield_points (e_h e1) e1 far) (ffield_points (e_h e1) e2 far) = Some m ->
  forall a b v, poly4 D (fun s t => K e1 s e2 t a b) -> integral4 (fun s t => K e1 s e2 t a b) v ->
  m a b = e_h e1 * e_h e1 * v.
Proof.
  intros K p order rules e1 e2 D m HR HA. cbv zeta. unfold evaluate_bilinear_form.
  destruct (compare_elements e1 e2) as [cp dist] eqn:EC. destruct (compare_case _ _ _ _ EC) as [C|[[C A]|[C|C]]]; rewrite C;
    set (nf := if (farfield_degree p order <=? nearfield_degree p order dist (e_level e1))%Z then nearfield_degree p order dist (e_level e1) else farfield_degree p order) in *;
    destruct (nf <? max_quadrature_degree)%Z; try discriminate.
  - destruct (Z.eqb_spec nf (farfield_degree p order)) as [Enf|_]; intros H a b v P I; injection H as <-.
    + rewrite Enf in *. destruct (HR (farfield_degree p order)) as [x [w [-> Ex]]]. rewrite C36_precomputed by (reflexivity || apply Ex). eapply C36_regular; try eassumption.
      destruct Ex as [Len Ex]. apply moments_exact; [exact Len|]. intros j Hj. apply (exact_moments (D + 4)); [split; assumption|lia].
    + destruct (HR nf) as [x [w [-> Ex]]]. eapply C36_regular; try eassumption.
      destruct Ex as [Len Ex]. apply moments_exact; [exact Len|]. intros j Hj. apply (exact_moments (D + 4)); [split; assumption|lia].
  - intros H a b v P I; injection H as <-. destruct (HR nf) as [x [w [-> Ex]]]. specialize (HA A). rewrite <- HA in P, I. eapply C36_identical; eassumption.
  - intros H a b v P I; injection H as <-. destruct (HR nf) as [x [w [-> Ex]]]. eapply C36_edge; eassumption.
  - intros H a b v P I; injection H as <-. destruct (HR nf) as [x [w [-> Ex]]]. eapply C36_vertex; eassumption.
Qed.
(** a result exists unless the degree exceeds the maximum *)
Theorem C36_result_exists : forall K p order GS e1 e2 ff1 ff2,
  (farfield_degree p order < 50)%Z -> (nearfield_degree p order (snd (compare_elements e1 e2)) (e_level e1) < 50)%Z ->
  exists m, evaluate_bilinear_form K p order GS e1 e2 ff1 ff2 = Some m.
Proof.
  intros K p order GS e1 e2 ff1 ff2 H1 H2. unfold evaluate_bilinear_form.
  destruct (compare_elements e1 e2) as [cp dist] eqn:EC. cbn [snd] in H2.
  set (nf := if (farfield_degree p order <=? nearfield_degree p order dist (e_level e1))%Z then nearfield_degree p order dist (e_level e1) else farfield_degree p order).
  assert (B : (nf <? max_quadrature_degree)%Z = true) by (apply Z.ltb_lt; unfold max_quadrature_degree, nf; destruct (Z.leb_spec (farfield_degree p order) (nearfield_degree p order dist (e_level e1))); lia).
  rewrite B. destruct (compare_case _ _ _ _ EC) as [C|[[C A]|[C|C]]]; rewrite C; try (eexists; reflexivity). destruct (nf =? farfield_degree p order)%Z; eexists; reflexivity.
Qed.

(** ** the points where the kernel is evaluated *)
Lemma tau_open : forall x y r, in_open_square (x, y) -> in_open_square (tau x y r).
Proof. intros x y r [H1 H2]. cbn [fst snd] in *. do 4 (destruct r as [|r]; [split; cbn [tau fst snd]; lra|]). split; cbn [tau fst snd]; lra. Qed.
Lemma q_interior : forall x w i, interior_rule x w -> (i < q_size (tensor_rule (x, w)))%nat ->
  0 < q_x (tensor_rule (x, w)) i < 1 /\ 0 < q_y (tensor_rule (x, w)) i < 1.
Proof.
  intros x w i [L H] Hi. pose proof Hi as Hi'. rewrite <- (tensor_len x w L) in Hi'. unfold q_x, q_y, q_xi.
  assert (N : length w <> 0%nat). { unfold q_size, tensor_rule in Hi. cbn [snd] in Hi. rewrite map_length, seq_length in Hi. nia. }
  unfold tensor_rule in *. cbn [fst snd] in *. rewrite map_length, seq_length in Hi'.
  rewrite (nth_indep _ (0, 0) ((fun k => (nth (k / length x) x 0, nth (k mod length x) x 0)) 0%nat)) by (rewrite map_length, seq_length; exact Hi').
  rewrite (map_nth (fun k => (nth (k / length x) x 0, nth (k mod length x) x 0))), seq_nth by exact Hi'. cbn [fst snd]. rewrite L in *. split; apply H.
  - apply Nat.div_lt_upper_bound; [exact N|exact Hi'].
  - apply Nat.mod_upper_bound. exact N.
Qed.
Lemma open_mul : forall u v, 0 < u < 1 -> 0 < v < 1 -> 0 < u * v < 1.
Proof. intros u v Hu Hv. split; [apply Rmult_lt_0_compat; lra|]. apply Rlt_trans with (1 * v); [apply Rmult_lt_compat_r; lra|lra]. Qed.
Lemma open_1 : forall u, 0 < u < 1 -> 0 < 1 - u < 1.
Proof. intros; lra. Qed.
Lemma loops_ext : forall n n' a b (f g : nat -> nat -> mat -> mat) (m m' : mat), m a b = m' a b ->
  (forall i j (m m' : mat), (i < n)%nat -> (j < n')%nat -> m a b = m' a b -> f i j m a b = g i j m' a b) ->
  for_loop n (fun i m => for_loop n' (fun j m => f i j m) m) m a b = for_loop n (fun i m => for_loop n' (fun j m => g i j m) m) m' a b.
Proof.
  intros n n' a b f g m m' E H. induction n as [|n IH]; cbn [for_loop]; [exact E|].
  specialize (IH (fun i j m m' Hi => H i j m m' (Nat.lt_lt_succ_r _ _ Hi))).
  assert (G : forall k, (k <= n')%nat -> forall m1 m2 : mat, m1 a b = m2 a b -> for_loop k (fun j m => f n j m) m1 a b = for_loop k (fun j m => g n j m) m2 a b).
  { induction k as [|k IHk]; intros Hk m1 m2 E'; cbn [for_loop]; [exact E'|]. apply H; [lia|lia|]. apply IHk; [lia|exact E']. }
  apply G; [lia|exact IH].
Qed.
(** the result depends only on the values of the kernel at pairs of different interior points: no singular value is needed *)
Theorem C36_identical_points : forall K K' e x w a b, interior_rule x w ->
  (forall s t, in_open_square s -> in_open_square t -> s <> t -> K e s e t a b = K' e s e t a b) ->
  integrate2 K e (tensor_rule (x, w)) a b = integrate2 K' e (tensor_rule (x, w)) a b.
Proof.
  intros K K' e x w a b HI H. unfold integrate2. cbv zeta. apply loops_ext; [reflexivity|]. intros i j m m' Hi Hj E.
  destruct (q_interior x w i HI Hi) as [X0 X1]. destruct (q_interior x w j HI Hj) as [Y0 Y1].
  set (x0 := q_x (tensor_rule (x, w)) i) in *. set (x1 := q_y (tensor_rule (x, w)) i) in *. set (y0 := q_x (tensor_rule (x, w)) j) in *. set (y1 := q_y (tensor_rule (x, w)) j) in *.
  pose proof (open_mul _ _ X0 X1) as X2. pose proof (open_mul _ _ Y0 (open_1 _ X0)) as T1. pose proof (open_mul _ _ Y1 (open_1 _ X2)) as T2.
  assert (T3 : 0 < y0 * (1 - x0) + x0 < 1). { replace (y0 * (1 - x0) + x0) with (1 - (1 - y0) * (1 - x0)) by ring. apply open_1, open_mul; apply open_1; assumption. }
  assert (T4 : 0 < y1 * (1 - x0 * x1) + x0 * x1 < 1). { replace (y1 * (1 - x0 * x1) + x0 * x1) with (1 - (1 - y1) * (1 - x0 * x1)) by ring. apply open_1, open_mul; apply open_1; assumption. }
  set (t1 := y0 * (1 - x0)) in *. set (t2 := y1 * (1 - x0 * x1)) in *. assert (N1 : t1 <> t1 + x0) by lra. assert (N2 : t1 + x0 <> t1) by lra. set (t3 := t1 + x0) in *. set (t4 := t2 + x0 * x1) in *. clearbody t1 t2 t3 t4.
  cbn [for_loop nth Nat.mul Nat.add]. unfold evaluate_integrand, map2surface, sp_w, sp_elem, sp_xi. cbn [fst snd nth]. rewrite E.
  rewrite !H; try reflexivity; try (split; assumption); intros Eq; injection Eq; intros; contradiction.
Qed.
Theorem C36_edge_points : forall K K' e1 r1 e2 r2 x w a b, interior_rule x w ->
  (forall s t, in_open_square s -> in_open_square t -> K e1 s e2 t a b = K' e1 s e2 t a b) ->
  integrate3 K e1 r1 e2 r2 (tensor_rule (x, w)) a b = integrate3 K' e1 r1 e2 r2 (tensor_rule (x, w)) a b.
Proof.
  intros K K' e1 r1 e2 r2 x w a b HI H. unfold integrate3. cbv zeta. apply loops_ext; [reflexivity|]. intros i j m m' Hi Hj E.
  destruct (q_interior x w i HI Hi) as [X0 X1]. destruct (q_interior x w j HI Hj) as [Y0 Y1].
  set (x0 := q_x (tensor_rule (x, w)) i) in *. set (x1 := q_y (tensor_rule (x, w)) i) in *. set (y0 := q_x (tensor_rule (x, w)) j) in *. set (y1 := q_y (tensor_rule (x, w)) j) in *.
  pose proof (open_mul _ _ X1 Y0) as E0. pose proof (open_mul _ _ X1 Y1) as E1.
  pose proof (open_mul _ _ X0 (open_1 _ X1)) as T1. pose proof (open_mul _ _ (open_1 _ X0) (open_1 _ X1)) as T2.
  pose proof (open_mul _ _ X0 (open_1 _ E0)) as T3. pose proof (open_mul _ _ (open_1 _ X0) (open_1 _ E0)) as T4.
  pose proof (open_1 _ T1). pose proof (open_1 _ T2). pose proof (open_1 _ T3). pose proof (open_1 _ T4).
  unfold evaluate_integrand, map2surface, sp_w, sp_elem, sp_xi. cbn [fst snd]. rewrite E.
  rewrite !H; try reflexivity; apply tau_open; split; assumption.
Qed.
Theorem C36_vertex_points : forall K K' e1 r1 e2 r2 x w a b, interior_rule x w ->
  (forall s t, in_open_square s -> in_open_square t -> K e1 s e2 t a b = K' e1 s e2 t a b) ->
  integrate4 K e1 r1 e2 r2 (tensor_rule (x, w)) a b = integrate4 K' e1 r1 e2 r2 (tensor_rule (x, w)) a b.
Proof.
  intros K K' e1 r1 e2 r2 x w a b HI H. unfold integrate4. cbv zeta. apply loops_ext; [reflexivity|]. intros i j m m' Hi Hj E.
  destruct (q_interior x w i HI Hi) as [X0 X1]. destruct (q_interior x w j HI Hj) as [Y0 Y1].
  set (x0 := q_x (tensor_rule (x, w)) i) in *. set (x1 := q_y (tensor_rule (x, w)) i) in *. set (y0 := q_x (tensor_rule (x, w)) j) in *. set (y1 := q_y (tensor_rule (x, w)) j) in *.
  pose proof (open_mul _ _ X0 Y0) as E0. pose proof (open_mul _ _ X0 Y1) as E1. pose proof (open_mul _ _ X1 X0) as T1.
  unfold evaluate_integrand, map2surface, sp_w, sp_elem, sp_xi. cbn [fst snd]. rewrite E.
  rewrite !H; try reflexivity; apply tau_open; split; assumption.
Qed.

(** ** C56: symmetry *)
Definition symmetric_kernel (K : kern) : Prop := forall e1 s e2 t a b, K e1 s e2 t a b = K e2 t e1 s b a.
Definition flip (F : fun4) : fun4 := fun a b e f => F e f a b.
Lemma quad_reflect_all : forall x w f, symmetric_rule x w -> quad x w (fun t => f (1 - t)) = quad x w f.
Proof.
  intros x w f [L S]. unfold quad. rewrite (rsum_rev (fun k => nth k w 0 * f (nth k x 0))). apply rsum_ext. intros k Hk. destruct (S k Hk) as [-> ->]. reflexivity.
Qed.
Lemma L4_flip : forall x w F, L4 x w (flip F) = L4 x w F.
Proof.
  intros x w F. unfold L4, flip.
  transitivity (quad x w (fun a => quad x w (fun e => quad x w (fun b => quad x w (fun f => F e f a b))))).
  { apply quad_ext'; intros a. apply quad_swap. }
  rewrite quad_swap. apply quad_ext'; intros e.
  transitivity (quad x w (fun a => quad x w (fun f => quad x w (fun b => F e f a b)))).
  { apply quad_ext'; intros a. apply quad_swap. }
  rewrite quad_swap. reflexivity.
Qed.
Lemma vertex4_flip : forall x w F, vertex4 x w (flip F) = vertex4 x w F.
Proof. intros x w F. unfold vertex4, flip. apply L4_ext. intros. ring. Qed.
Lemma identical4_flip : forall x w F, identical4 x w (flip F) = identical4 x w F.
Proof. intros x w F. unfold identical4, flip. cbv zeta. apply L4_ext. intros. ring. Qed.
Lemma edge4_flip : forall x w F, symmetric_rule x w -> edge4 x w (flip F) = edge4 x w F.
Proof.
  intros x w F S. unfold edge4, flip. cbv zeta. rewrite !L4_plus. f_equal; [|apply L4_ext; intros; ring].
  unfold L4. rewrite <- (quad_reflect_all x w _ S). apply quad_ext'; intros r. apply quad_ext'; intros z. rewrite quad_swap.
  apply quad_ext'; intros p. apply quad_ext'; intros q. replace (1 - (1 - r)) with r by ring. reflexivity.
Qed.
Lemma cur_flip : forall K e1 e2 a b r1 r2, symmetric_kernel K -> forall s1 s2 t1 t2,
  cur (rotated r2 r1 (entry K e2 e1 b a)) s1 s2 t1 t2 = flip (cur (rotated r1 r2 (entry K e1 e2 a b))) s1 s2 t1 t2.
Proof. intros K e1 e2 a b r1 r2 S s1 s2 t1 t2. unfold cur, rotated, flip, entry. cbn [fst snd]. apply S. Qed.
Theorem C56_symmetric : forall K e1 r1 e2 r2 x w a b, symmetric_kernel K -> symmetric_rule x w -> e_h e1 = e_h e2 ->
  let Q := tensor_rule (x, w) in
  integrate1 K e2 e1 Q b a = integrate1 K e1 e2 Q a b /\ integrate2 K e1 Q b a = integrate2 K e1 Q a b /\
  integrate3 K e2 r2 e1 r1 Q b a = integrate3 K e1 r1 e2 r2 Q a b /\ integrate4 K e2 r2 e1 r1 Q b a = integrate4 K e1 r1 e2 r2 Q a b.
Proof.
  intros K e1 r1 e2 r2 x w a b S R Eh. cbv zeta. pose proof (proj1 R) as L. split; [|split; [|split]].
  - rewrite !integrate1_value, Eh by exact L. f_equal. rewrite <- (L4_flip x w (cur (entry K e1 e2 a b))). apply L4_ext. intros. unfold flip, cur, entry. apply S.
  - rewrite !integrate2_value by exact L. f_equal. rewrite <- (identical4_flip x w (cur (entry K e1 e1 a b))). unfold identical4. cbv zeta. apply L4_ext. intros. unfold flip, cur, entry. 
    rewrite !(S e1 _ e1 _ b a). ring.
  - rewrite !integrate3_value, Eh by exact L. f_equal. rewrite <- (edge4_flip x w (cur (rotated r1 r2 (entry K e1 e2 a b))) R). unfold edge4. cbv zeta. apply L4_ext. intros.
    rewrite !(cur_flip K e1 e2 a b r1 r2 S). reflexivity.
  - rewrite !integrate4_value, Eh by exact L. f_equal. rewrite <- (vertex4_flip x w (cur (rotated r1 r2 (entry K e1 e2 a b)))). unfold vertex4. apply L4_ext. intros.
    rewrite !(cur_flip K e1 e2 a b r1 r2 S). reflexivity.
Qed.

(** ** the hypotheses are met: the Gauss rule with three points integrates polynomials of degree 5 exactly *)
Definition gauss3_x : list R := [1 / 2 - sqrt 15 / 10; 1 / 2; 1 / 2 + sqrt 15 / 10].
Definition gauss3_w : list R := [5 / 18; 8 / 18; 5 / 18].
Lemma gauss3_exact : exact_rule 6 gauss3_x gauss3_w.
Proof.
  apply moments_exact; [reflexivity|]. intros j Hj. unfold quad, gauss3_x, gauss3_w. cbn [length rsum nth].
  set (q := sqrt 15 / 10). assert (Hq : q * q = 15 / 100). { unfold q. replace (sqrt 15 / 10 * (sqrt 15 / 10)) with (sqrt 15 * sqrt 15 / 100) by field. rewrite sqrt_sqrt by lra. reflexivity. }
  clearbody q.
  assert (H2 : forall u v : R, (u + v * q) * (u + v * q) = (u * u + v * v * (15 / 100)) + (2 * u * v) * q) by (intros; rewrite <- Hq; ring).
  do 6 (destruct j as [|j]; [cbn [pow]; rewrite ?S_INR; simpl INR; try (field_simplify; replace (q ^ 4) with (q * q * (q * q)) by ring; replace (q ^ 2) with (q * q) by ring; rewrite ?Hq; lra)|]). lia.
Qed.
Lemma gauss3_symmetric : symmetric_rule gauss3_x gauss3_w.
Proof. split; [reflexivity|]. unfold gauss3_x, gauss3_w. cbn [length]. intros k Hk. do 3 (destruct k as [|k]; [cbn; split; lra|]). lia. Qed.
Lemma gauss3_interior : interior_rule gauss3_x gauss3_w.
Proof.
  split; [reflexivity|]. unfold gauss3_x, gauss3_w. cbn [length].
  assert (H : 0 < sqrt 15 < 4). { split; [apply sqrt_lt_R0; lra|]. rewrite <- (sqrt_square 4) by lra. apply sqrt_lt_1; lra. }
  intros k Hk. do 3 (destruct k as [|k]; [cbn; lra|]). lia.
Qed.
(** the integrand s1 t2 + 1/2: integral 3/4 *)
Example integrand_example : let G := fun s t : R * R => fst s * snd t + 1 / 2 in poly4 2 G /\ integral4 G (3 / 4).
Proof.
  cbv zeta. split.
  - exists [(1, (1, 0, 0, 1)%nat); (1 / 2, (0, 0, 0, 0)%nat)]. split; [intros m [<-|[<-|[]]]; simpl; lia|]. intros s t. simpl. ring.
  - apply (integral4_ext (fun s t => mono_eval (1, (1, 0, 0, 1)%nat) (fst s) (snd s) (fst t) (snd t) + mono_eval (1 / 2, (0, 0, 0, 0)%nat) (fst s) (snd s) (fst t) (snd t))).
    + intros. unfold mono_eval. simpl. ring.
    + replace (3 / 4) with (1 * (/ INR 2 * / INR 1 * / INR 1 * / INR 2) + 1 / 2 * (/ INR 1 * / INR 1 * / INR 1 * / INR 1)) by (simpl; field).
      apply integral4_plus; apply integral4_mono.
Qed.
Example duffy_example : forall e1 e2 r1 r2, integrate3 (fun _ s _ t _ _ => fst s * snd t + 1 / 2) e1 r1 e2 r2 (tensor_rule (gauss3_x, gauss3_w)) 0%nat 0%nat = e_h e1 * e_h e1 * (3 / 4).
Proof.
  intros. apply (C36_edge _ e1 r1 e2 r2 gauss3_x gauss3_w 2); [exact gauss3_exact| |]; apply integrand_example.
Qed.

(* BEGIN ASSUMPTIONS *)
Print Assumptions C34_square.
Print Assumptions C34_corners_and_edges.
Print Assumptions C34_composition.
Print Assumptions C34_bijective.
Print Assumptions C36_regular.
Print Assumptions C36_identical.
Print Assumptions C36_edge.
Print Assumptions C36_vertex.
Print Assumptions C36_precomputed.
Print Assumptions C36_bilinear_form.
Print Assumptions C36_result_exists.
Print Assumptions C36_identical_points.
Print Assumptions C36_edge_points.
Print Assumptions C36_vertex_points.
Print Assumptions C56_symmetric.
