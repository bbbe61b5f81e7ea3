(** Entries of the H2 matrix. *)
From Coq Require Import List Arith Bool Lia ZArith Reals Lra QArith Qreals.
From Verif Require Import ModelBase ModelBernstein RSum ModelTree ModelBlock ModelH2 ModelInterp ModelH2Init SpecBernstein SpecTree SpecInterp SpecH2
  ProofBernstein ProofTree ProofTreeWF ProofTreeHist ProofTreeGeo ProofTreeLook ProofPoints ProofBlock ProofAssembly ProofH2 ProofH2Prod ProofInterp ProofMoment.
Import ListNotations.
Local Close Scope Q_scope.
Local Open Scope nat_scope.

(** ** positions *)
Lemma pos_local : forall a x, a <> [] -> vaddr (x ++ a) ->
  exists k, k < 4 ^ length x /\ pos_id (x ++ a) = pos_id a * 4 ^ length x + k /\
    pos_x (x ++ a) = pos_x a * 2 ^ length x + local_x (length x) k /\ pos_y (x ++ a) = pos_y a * 2 ^ length x + local_y (length x) k /\
    pos_level (x ++ a) = pos_level a + length x.
Proof.
  intros a x Ha. assert (La : 0 < length a) by (destruct a; [congruence|simpl; lia]). induction x as [|i x IH]; intros V.
  - exists 0. cbn [app length local_x local_y]. change (4 ^ 0) with 1. change (2 ^ 0) with 1. lia.
  - change ((i :: x) ++ a) with (i :: (x ++ a)) in *.
    assert (Hne : x ++ a <> []) by (destruct x; [assumption|discriminate]).
    apply vaddr_cons in V; [|assumption]. destruct V as [Hi V]. destruct (IH V) as [k [Hk [E1 [E2 [E3 E4]]]]].
    exists (4 * k + i). cbn [length]. rewrite !Nat.pow_succ_r'. destruct (divmod4 k i Hi) as [D1 D2].
    split; [lia|]. cbn [pos_id local_x local_y]. rewrite E1, D1, D2. split; [lia|].
    replace (pos_x (i :: x ++ a)) with (2 * pos_x (x ++ a) + quad_x i) by (destruct (x ++ a); [congruence|reflexivity]).
    replace (pos_y (i :: x ++ a)) with (2 * pos_y (x ++ a) + quad_y i) by (destruct (x ++ a); [congruence|reflexivity]).
    rewrite E2, E3. split; [lia|]. split; [lia|]. unfold pos_level in *. cbn [length]. rewrite app_length in *. lia.
Qed.

(** the reference point of cluster c that belongs to the point s of element e *)
Definition rel_point (c e : node) (s : R * R) : R * R :=
  ((Q2R (fst (n_llc e)) + Q2R (get_h e) * fst s - Q2R (fst (n_llc c))) / Q2R (get_h c),
   (Q2R (snd (n_llc e)) + Q2R (get_h e) * snd s - Q2R (snd (n_llc c))) / Q2R (get_h c))%R.
Lemma rel_point_ok : forall a x nc ne k s, node_ok a nc -> node_ok (x ++ a) ne -> 
  pos_x (x ++ a) = pos_x a * 2 ^ length x + local_x (length x) k -> pos_y (x ++ a) = pos_y a * 2 ^ length x + local_y (length x) k ->
  pos_level (x ++ a) = pos_level a + length x ->
  rel_point nc ne s = (1 / 2 ^ length x * (INR (local_x (length x) k) + fst s), 1 / 2 ^ length x * (INR (local_y (length x) k) + snd s))%R.
Proof.
  intros a x nc ne k s Kc Ke Ex Ey El. unfold rel_point.
  destruct (nk_llc _ _ Kc) as [C1 C2]. destruct (nk_llc _ _ Ke) as [E1 E2].
  rewrite (Q2R_llc _ _ _ C1), (Q2R_llc _ _ _ C2), (Q2R_llc _ _ _ E1), (Q2R_llc _ _ _ E2), Ex, Ey, El.
  assert (Hh : forall b nb, node_ok b nb -> Q2R (get_h nb) = (1 / 2 ^ pos_level b)%R).
  { intros b nb K. unfold get_h. rewrite Q2R_div by apply pow2Q_neq. rewrite Q2R_pow2, (nk_level _ _ K). f_equal. unfold Q2R; simpl; lra. }
  rewrite (Hh _ _ Kc), (Hh _ _ Ke), El, !pow_add, !plus_INR, !mult_INR, !pow_INR. change (INR 2) with 2%R.
  assert (2 ^ pos_level a <> 0)%R by (apply pow_nonzero; lra). assert (2 ^ length x <> 0)%R by (apply pow_nonzero; lra).
  f_equal; field; auto.
Qed.

(** ** the bases of the clusters are the moments of the clusters *)
Section Basis.
Variables (p cl cr n : nat) (xi w : list R) (ja : arr) (jm : mat) (kinds : nat -> moment_kind * moment_kind).
Let x := chebychev n.
Hypothesis D : distinct n x.
Hypothesis Hn : 0 < n.
Let np := n * n.
Let m1 kind := moment1D kind ja p cl cr n x xi w.
Let mom : mat := fun row d => moment2D p cr n (m1 (fst (kinds (row / np)))) (m1 (snd (kinds (row / np)))) jm (row mod np) d.
Let T := transfer_matrices n x jm jm.
Let k := (p + 1) * (p + 1).
Let mc := (2 ^ cr * (p + 1)) * (2 ^ cr * (p + 1)).
Lemma mc_val : mc = k * 4 ^ cr.
Proof. unfold mc, k. replace (4 ^ cr) with (2 ^ cr * 2 ^ cr) by (rewrite <- Nat.pow_mul_l; reflexivity). ring. Qed.
Lemma basis_direct : forall f C i j q a b, i < n -> j < n -> q < 4 ^ (cr + f) -> a <= p -> b <= p ->
  basis np mc mom T f (C * np + (i * n + j)) (k * q + a * (p + 1) + b) =
  (scale (fst (kinds C)) cl cr * mom_int (fst (kinds C)) p (cr + f) n x xi w i (local_x (cr + f) q) b *
   (scale (snd (kinds C)) cl cr * mom_int (snd (kinds C)) p (cr + f) n x xi w j (local_y (cr + f) q) a))%R.
Proof.
  assert (Bnp : forall i j, i < n -> j < n -> i * n + j < np) by (intros; unfold np; nia).
  induction f as [|f IH]; intros C i j q a b Hi Hj Hq Ha Hb.
  - rewrite Nat.add_0_r in *. cbn [basis]. unfold mom. destruct (divmod_mul C (i * n + j) np (Bnp i j Hi Hj)) as [-> ->].
    unfold k. rewrite moment2D_entry by assumption. unfold m1. rewrite !moment1D_entry by assumption. reflexivity.
  - replace (cr + S f) with (S (cr + f)) in * by lia. rewrite Nat.pow_succ_r' in Hq. set (r := cr + f) in *.
    assert (Hp : 0 < 4 ^ r) by (pose proof (Nat.pow_nonzero 4 r ltac:(lia)); lia).
    cbn [basis]. assert (Emc : mc * 4 ^ f = k * 4 ^ r) by (rewrite mc_val; unfold r; rewrite Nat.pow_add_r; ring). rewrite Emc.
    set (s := q / 4 ^ r). set (q' := q mod 4 ^ r).
    assert (Eq : q = 4 ^ r * s + q') by (apply Nat.div_mod; lia).
    assert (Hq' : q' < 4 ^ r) by (apply Nat.mod_upper_bound; lia).
    assert (Hs : s < 4) by (apply Nat.div_lt_upper_bound; lia).
    assert (Bd : k * q' + a * (p + 1) + b < k * 4 ^ r).
    { assert (a * (p + 1) + b < k) by (unfold k; nia). nia. }
    replace (k * q + a * (p + 1) + b) with (s * (k * 4 ^ r) + (k * q' + a * (p + 1) + b)) by (rewrite Eq; ring).
    destruct (divmod_mul s (k * q' + a * (p + 1) + b) (k * 4 ^ r) Bd) as [-> ->].
    destruct (divmod_mul C (i * n + j) np (Bnp i j Hi Hj)) as [-> ->].
    unfold np at 4. rewrite rsum_flatten.
    destruct (local_split r s q' Hs Hq') as [Lx Ly]. rewrite <- Eq in Lx, Ly. rewrite Lx, Ly.
    rewrite !mom_int_shift by assumption.
    transitivity (rsum (fun i' => rsum (fun j' =>
       (scale (fst (kinds C)) cl cr * (lagrange n x i (1 / 2 * (x i' + INR (quad_x s))) * mom_int (fst (kinds C)) p r n x xi w i' (local_x r q') b)) *
       (scale (snd (kinds C)) cl cr * (lagrange n x j (1 / 2 * (x j' + INR (quad_y s))) * mom_int (snd (kinds C)) p r n x xi w j' (local_y r q') a))) n) n)%R.
    + apply rsum_ext. intros i' Hi'. apply rsum_ext. intros j' Hj'. unfold T.
      rewrite transfer_entry by assumption. rewrite IH by assumption. ring.
    + rewrite (rsum_ext _ (fun i' => (scale (fst (kinds C)) cl cr * (lagrange n x i (1 / 2 * (x i' + INR (quad_x s))) * mom_int (fst (kinds C)) p r n x xi w i' (local_x r q') b)) *
         (scale (snd (kinds C)) cl cr * rsum (fun j' => lagrange n x j (1 / 2 * (x j' + INR (quad_y s))) * mom_int (snd (kinds C)) p r n x xi w j' (local_y r q') a) n))%R).
      * rewrite rsum_scal_r, rsum_scal. reflexivity.
      * intros i' _. rewrite rsum_scal, rsum_scal. reflexivity.
Qed.
End Basis.

(** ** quadrature *)
Lemma quad_ext : forall xi w f g, (forall s t, f s t = g s t) -> tensor_quad xi w f = tensor_quad xi w g.
Proof. intros xi w f g H. unfold tensor_quad. apply rsum_ext. intros i _. apply rsum_ext. intros j _. rewrite H. reflexivity. Qed.
Lemma quad_sum : forall xi w n (f : nat -> R -> R -> R), tensor_quad xi w (fun s t => rsum (fun i => f i s t) n) = rsum (fun i => tensor_quad xi w (f i)) n.
Proof.
  intros xi w n f. unfold tensor_quad. symmetry. rewrite rsum_swap. apply rsum_ext. intros k _. rewrite rsum_swap. apply rsum_ext. intros l _.
  rewrite rsum_scal. reflexivity.
Qed.
Definition Q1 (xi w : list R) (f : R -> R) : R := rsum (fun k => nth k w 0 * f (nth k xi 0))%R (length w).
Lemma quad_prod : forall xi w f g, tensor_quad xi w (fun s t => f s * g t)%R = (Q1 xi w f * Q1 xi w g)%R.
Proof.
  intros xi w f g. unfold tensor_quad, Q1. rewrite <- rsum_scal_r. apply rsum_ext. intros k _. rewrite <- rsum_scal. apply rsum_ext. intros; ring.
Qed.
Lemma quad_scal : forall xi w c f, tensor_quad xi w (fun s t => c * f s t)%R = (c * tensor_quad xi w f)%R.
Proof.
  intros xi w c f. unfold tensor_quad. rewrite <- rsum_scal. apply rsum_ext. intros k _. rewrite <- rsum_scal. apply rsum_ext. intros; ring.
Qed.
Definition Q4 (xi w : list R) (F : R -> R -> R -> R -> R) : R :=
  tensor_quad xi w (fun s1 s2 => tensor_quad xi w (fun t1 t2 => F s1 s2 t1 t2)).
Lemma Q4_ext : forall xi w F G, (forall a b c d, F a b c d = G a b c d) -> Q4 xi w F = Q4 xi w G.
Proof. intros xi w F G H. apply quad_ext. intros. apply quad_ext. intros. apply H. Qed.
Lemma Q4_sum : forall xi w n (F : nat -> R -> R -> R -> R -> R), Q4 xi w (fun a b c d => rsum (fun i => F i a b c d) n) = rsum (fun i => Q4 xi w (F i)) n.
Proof.
  intros xi w n F. unfold Q4. rewrite <- quad_sum. apply quad_ext. intros s1 s2. rewrite <- quad_sum. reflexivity.
Qed.
Lemma Q4_prod : forall xi w f1 f2 f3 f4 c, Q4 xi w (fun s1 s2 t1 t2 => f1 s1 * f2 s2 * c * (f3 t1 * f4 t2))%R =
  (Q1 xi w f1 * Q1 xi w f2 * c * (Q1 xi w f3 * Q1 xi w f4))%R.
Proof.
  intros xi w f1 f2 f3 f4 c. unfold Q4.
  rewrite (quad_ext xi w _ (fun s1 s2 => (c * (Q1 xi w f3 * Q1 xi w f4)) * (f1 s1 * f2 s2))%R).
  - rewrite quad_scal, quad_prod. ring.
  - intros s1 s2. rewrite quad_scal, quad_prod. ring.
Qed.
Lemma mom_int_Q1 : forall kind p r n x xi w i j m,
  mom_int kind p r n x xi w i j m = Q1 xi w (fun s => lagrange n x i (1 / 2 ^ r * (INR j + s)) * shape kind p m s)%R.
Proof. intros. unfold mom_int, Q1. apply rsum_ext. intros. ring. Qed.

(** sum over i, j, i', j' *)
Lemma Q4_interpolated : forall xi w n x K r q1 q2 k1 k2 k3 k4 p a1 b1 a2 b2 lx ly lx' ly',
  q1 = (fun s1 s2 => (1 / 2 ^ r * (INR lx + s1), 1 / 2 ^ r * (INR ly + s2))%R) ->
  q2 = (fun s1 s2 => (1 / 2 ^ r * (INR lx' + s1), 1 / 2 ^ r * (INR ly' + s2))%R) ->
  Q4 xi w (fun s1 s2 t1 t2 => shape k1 p b1 s1 * shape k2 p a1 s2 * (shape k3 p b2 t1 * shape k4 p a2 t2) *
    interpolated n x K (q1 s1 s2) (q2 t1 t2))%R =
  rsum (fun i => rsum (fun j => rsum (fun i' => rsum (fun j' =>
    mom_int k1 p r n x xi w i lx b1 * mom_int k2 p r n x xi w j ly a1 * K (x i, x j) (x i', x j') *
    (mom_int k3 p r n x xi w i' lx' b2 * mom_int k4 p r n x xi w j' ly' a2))%R n) n) n) n.
Proof.
  intros xi w n x K r q1 q2 k1 k2 k3 k4 p a1 b1 a2 b2 lx ly lx' ly' -> ->.
  rewrite (Q4_ext xi w _ (fun s1 s2 t1 t2 => rsum (fun i => rsum (fun j => rsum (fun i' => rsum (fun j' =>
     (lagrange n x i (1 / 2 ^ r * (INR lx + s1)) * shape k1 p b1 s1) * (lagrange n x j (1 / 2 ^ r * (INR ly + s2)) * shape k2 p a1 s2) * K (x i, x j) (x i', x j') *
     ((lagrange n x i' (1 / 2 ^ r * (INR lx' + t1)) * shape k3 p b2 t1) * (lagrange n x j' (1 / 2 ^ r * (INR ly' + t2)) * shape k4 p a2 t2))) n) n) n) n)%R).
  - rewrite Q4_sum. apply rsum_ext. intros i _. rewrite Q4_sum. apply rsum_ext. intros j _. rewrite Q4_sum. apply rsum_ext. intros i' _. rewrite Q4_sum. apply rsum_ext. intros j' _.
    rewrite (Q4_prod xi w (fun s => lagrange n x i (1 / 2 ^ r * (INR lx + s)) * shape k1 p b1 s)%R (fun s => lagrange n x j (1 / 2 ^ r * (INR ly + s)) * shape k2 p a1 s)%R
      (fun s => lagrange n x i' (1 / 2 ^ r * (INR lx' + s)) * shape k3 p b2 s)%R (fun s => lagrange n x j' (1 / 2 ^ r * (INR ly' + s)) * shape k4 p a2 s)%R).
    rewrite !mom_int_Q1. reflexivity.
  - intros s1 s2 t1 t2. unfold interpolated. cbn [fst snd]. rewrite <- rsum_scal. apply rsum_ext. intros i _. rewrite <- rsum_scal. apply rsum_ext. intros j _.
    rewrite <- rsum_scal. apply rsum_ext. intros i' _. rewrite <- rsum_scal. apply rsum_ext. intros j' _. ring.
Qed.
(** exactness for polynomials *)
Lemma interpolated_exact : forall n x K, distinct n x ->
  (forall b c d, polynomial n (fun a => K (a, b) (c, d))) -> (forall a c d, polynomial n (fun b => K (a, b) (c, d))) ->
  (forall a b d, polynomial n (fun c => K (a, b) (c, d))) -> (forall a b c, polynomial n (fun d => K (a, b) (c, d))) ->
  forall s t, interpolated n x K s t = K s t.
Proof.
  intros n x K D P1 P2 P3 P4 [s1 s2] [t1 t2]. unfold interpolated. cbn [fst snd].
  transitivity (rsum (fun i => rsum (fun j => K (x i, x j) (t1, t2) * (lagrange n x i s1 * lagrange n x j s2))%R n) n).
  - apply rsum_ext. intros i _. apply rsum_ext. intros j _.
    transitivity (rsum (fun i' => (lagrange n x i s1 * lagrange n x j s2) * (K (x i, x j) (x i', t2) * lagrange n x i' t1))%R n).
    + apply rsum_ext. intros i' _.
      rewrite <- (interpolation_exact n x (fun d => K (x i, x j) (x i', d)) D (P4 _ _ _) t2). unfold interpolant.
      rewrite <- rsum_scal_r, <- rsum_scal. apply rsum_ext. intros; ring.
    + rewrite rsum_scal. rewrite <- (interpolation_exact n x (fun c => K (x i, x j) (c, t2)) D (P3 _ _ _) t1). unfold interpolant. ring.
  - transitivity (rsum (fun i => K (x i, s2) (t1, t2) * lagrange n x i s1)%R n).
    + apply rsum_ext. intros i _. rewrite <- (interpolation_exact n x (fun b => K (x i, b) (t1, t2)) D (P2 _ _ _) s2). unfold interpolant.
      rewrite <- rsum_scal_r. apply rsum_ext. intros; ring.
    + rewrite <- (interpolation_exact n x (fun a => K (a, s2) (t1, t2)) D (P1 _ _ _) s1). reflexivity.
Qed.

(** ** Chebyshev points *)
Lemma cheb_lt : forall n i j, i < j -> j < n -> (chebychev n i < chebychev n j)%R.
Proof.
  intros n i j Hij Hj. unfold chebychev.
  assert (Hn : (0 < INR n)%R) by (apply lt_0_INR; lia).
  assert (Ha : (0 < PI / (2 * INR n))%R) by (apply Rdiv_lt_0_compat; [apply PI_RGT_0|lra]).
  assert (Hc : (cos (PI / (2 * INR n) * (2 * INR (n - i) - 1)) < cos (PI / (2 * INR n) * (2 * INR (n - j) - 1)))%R).
  { assert (B : forall q, q < n -> (0 <= PI / (2 * INR n) * (2 * INR (n - q) - 1) <= PI)%R).
    { intros q Hq. assert (1 <= INR (n - q))%R by (change 1%R with (INR 1); apply le_INR; lia). assert (INR (n - q) <= INR n)%R by (apply le_INR; lia). split.
      - apply Rmult_le_pos; lra.
      - replace PI with (PI / (2 * INR n) * (2 * INR n))%R at 2 by (field; lra). apply Rmult_le_compat_l; lra. }
    assert (INR (n - j) < INR (n - i))%R by (apply lt_INR; lia).
    apply cos_decreasing_1; try apply B; try lia. apply Rmult_lt_compat_l; lra. }
  lra.
Qed.
Lemma cheb_distinct : forall n, distinct n (chebychev n).
Proof.
  intros n i j Hi Hj Ne E. destruct (Nat.lt_total i j) as [H|[H|H]]; [|contradiction|].
  - pose proof (cheb_lt n i j H Hj). lra.
  - pose proof (cheb_lt n j i H Hi). lra.
Qed.
Lemma cheb_range : forall n i, i < n -> (0 < chebychev n i < 1)%R.
Proof.
  intros n i Hi. unfold chebychev. assert (Hn : (0 < INR n)%R) by (apply lt_0_INR; lia).
  assert (Ha : (0 < PI / (2 * INR n))%R) by (apply Rdiv_lt_0_compat; [apply PI_RGT_0|lra]). pose proof PI_RGT_0.
  set (t := (PI / (2 * INR n) * (2 * INR (n - i) - 1))%R).
  assert (1 <= INR (n - i))%R by (change 1%R with (INR 1); apply le_INR; lia). assert (INR (n - i) <= INR n)%R by (apply le_INR; lia).
  assert (B : (0 < t < PI)%R).
  { unfold t. split; [apply Rmult_lt_0_compat; lra|]. replace PI with (PI / (2 * INR n) * (2 * INR n))%R at 2 by (field; lra). apply Rmult_lt_compat_l; lra. }
  assert (C1 : (cos t < 1)%R) by (rewrite <- cos_0; apply cos_decreasing_1; lra).
  assert (C2 : (-1 < cos t)%R) by (rewrite <- cos_PI; apply cos_decreasing_1; lra). lra.
Qed.
