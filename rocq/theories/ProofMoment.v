(** Transfer matrices and moments. *)
From Coq Require Import List Arith Bool Lia Reals Lra.
From Verif Require Import ModelBase ModelBernstein RSum ModelTree ModelInterp SpecBernstein SpecTree SpecInterp
  ProofBernstein ProofAssembly ProofH2 ProofInterp.
Import ListNotations.
Local Open Scope nat_scope.

(** ** loops that write matrices *)
Lemma for_loop_keep : forall n (body : nat -> mat -> mat) r c,
  (forall i m, i < n -> body i m r c = m r c) -> forall m, for_loop n body m r c = m r c.
Proof.
  intros n body r c. induction n as [|n IH]; intros H m; [reflexivity|]. cbn [for_loop]. rewrite H by lia. apply IH. intros; apply H; lia.
Qed.
Lemma for_loop_hit : forall n (body : nat -> mat -> mat) r c i0 v, i0 < n ->
  (forall m, body i0 m r c = v) -> (forall i m, i < n -> i <> i0 -> body i m r c = m r c) ->
  forall m, for_loop n body m r c = v.
Proof.
  intros n body r c i0 v. induction n as [|n IH]; intros Hi H1 H2 m; [lia|]. cbn [for_loop].
  destruct (Nat.eq_dec i0 n) as [->|Ne]; [apply H1|]. rewrite H2 by lia. apply IH; [lia|assumption|intros; apply H2; lia].
Qed.

(** ** transfer matrices *)
Section Transfer.
Variables (n : nat) (x : arr).
Hypothesis D : distinct n x.
Lemma transfer_E_lo : forall junk i j, i < n -> j < n -> transfer_E n x junk i j = lagrange n x j (1 / 2 * x i)%R.
Proof.
  intros junk i j Hi Hj. unfold transfer_E. apply (for_loop_hit _ _ _ _ j); [assumption| |].
  - intros m. apply (for_loop_hit _ _ _ _ i); [assumption| |].
    + intros m'. rewrite updm_other by (intros E; injection E; lia). rewrite updm_same. apply newton_lagrange; assumption.
    + intros i' m' Hi' Ne. rewrite !updm_other by (intros E; injection E; lia). reflexivity.
  - intros j' m Hj' Ne. apply for_loop_keep. intros i' m' Hi'. rewrite !updm_other by (intros E; injection E; lia). reflexivity.
Qed.
Lemma transfer_E_hi : forall junk i j, i < n -> j < n -> transfer_E n x junk i (j + n) = lagrange n x j (1 / 2 * x i + 1 / 2)%R.
Proof.
  intros junk i j Hi Hj. unfold transfer_E. apply (for_loop_hit _ _ _ _ j); [assumption| |].
  - intros m. apply (for_loop_hit _ _ _ _ i); [assumption| |].
    + intros m'. rewrite updm_same. apply newton_lagrange; assumption.
    + intros i' m' Hi' Ne. rewrite !updm_other by (intros E; injection E; lia). reflexivity.
  - intros j' m Hj' Ne. apply for_loop_keep. intros i' m' Hi'. rewrite !updm_other by (intros E; injection E; lia). reflexivity.
Qed.
Lemma transfer_E_any : forall junk i j q, i < n -> j < n -> q < 2 ->
  transfer_E n x junk i (j + q * n) = lagrange n x j (1 / 2 * (x i + INR q))%R.
Proof.
  intros junk i j q Hi Hj Hq. assert (q = 0 \/ q = 1) as [->| ->] by lia.
  - rewrite Nat.mul_0_l, Nat.add_0_r, transfer_E_lo by assumption. f_equal. simpl. lra.
  - rewrite Nat.mul_1_l, transfer_E_hi by assumption. f_equal. simpl. lra.
Qed.
Lemma pair_inj : forall a b a' b', b < n -> b' < n -> a * n + b = a' * n + b' -> a = a' /\ b = b'.
Proof.
  intros a b a' b' H H' E. destruct (divmod_mul a b n H) as [E1 E2]. destruct (divmod_mul a' b' n H') as [E3 E4].
  rewrite E in E1, E2. split; congruence.
Qed.
Lemma trip_inj : forall i ii s i' ii' s', i < n -> ii < n -> i' < n -> ii' < n ->
  i * n + ii + n * n * s = i' * n + ii' + n * n * s' -> s = s' /\ i = i' /\ ii = ii'.
Proof.
  intros i ii s i' ii' s' H1 H2 H3 H4 E.
  assert (B : i * n + ii < n * n) by nia. assert (B' : i' * n + ii' < n * n) by nia.
  destruct (divmod_mul s (i * n + ii) (n * n) B) as [E1 E2]. destruct (divmod_mul s' (i' * n + ii') (n * n) B') as [E3 E4].
  replace (s * (n * n) + (i * n + ii)) with (s' * (n * n) + (i' * n + ii')) in E1, E2 by lia.
  split; [congruence|]. rewrite E4 in E2. symmetry in E2. apply pair_inj in E2; auto.
Qed.
(** the column block of son s contains the values of the Lagrange polynomials of the father at the points of the son *)
Lemma transfer_entry : forall junk1 junk2 s i ii j jj, s < 4 -> i < n -> ii < n -> j < n -> jj < n ->
  transfer_matrices n x junk1 junk2 (j * n + jj) (s * (n * n) + (i * n + ii)) =
  (lagrange n x j (1 / 2 * (x i + INR (quad_x s))) * lagrange n x jj (1 / 2 * (x ii + INR (quad_y s))))%R.
Proof.
  intros junk1 junk2 s i ii j jj Hs Hi Hii Hj Hjj. unfold transfer_matrices.
  set (k0 := match s with 0 => 0 | 1 => 2 | 2 => 3 | _ => 1 end).
  assert (Hk0 : k0 < 4 /\ permutation4 k0 = s /\ k0 / 2 = quad_x s /\ k0 mod 2 = quad_y s /\ k0 / 2 < 2 /\ k0 mod 2 < 2).
  { unfold k0. destruct s as [|[|[|[|s]]]]; simpl; try lia; repeat split; lia. }
  destruct Hk0 as [Hk [Hp [Hx [Hy [Hd Hm]]]]].
  assert (Pinj : forall k, k < 4 -> permutation4 k = s -> k = k0).
  { clear - Hs. intros k Hk' E. unfold k0. subst s. destruct k as [|[|[|[|k]]]]; simpl; lia. }
  apply (for_loop_hit _ _ _ _ k0); [assumption| |].
  - intros m1. apply (for_loop_hit _ _ _ _ i); [assumption| |].
    + intros m2. apply (for_loop_hit _ _ _ _ ii); [assumption| |].
      * intros m3. apply (for_loop_hit _ _ _ _ j); [assumption| |].
        { intros m4. apply (for_loop_hit _ _ _ _ jj); [assumption| |].
          - intros m5. rewrite Hp. replace (s * (n * n) + (i * n + ii)) with (i * n + ii + n * n * s) by lia. rewrite updm_same.
            rewrite !transfer_E_any by assumption. rewrite Hx, Hy. reflexivity.
          - intros jj' m5 H5 Ne. apply updm_other. intros E. injection E as E1 E2. apply pair_inj in E1; lia. }
        { intros j' m4 H4 Ne. apply for_loop_keep. intros jj' m5 H5. apply updm_other. intros E. injection E as E1 E2. apply pair_inj in E1; lia. }
      * intros ii' m3 H3 Ne. apply for_loop_keep. intros j' m4 H4. apply for_loop_keep. intros jj' m5 H5. apply updm_other. intros E. injection E as E1 E2.
        assert (E3 : i * n + ii + n * n * s = i * n + ii' + n * n * permutation4 k0) by (clear - E2; lia). rewrite Hp in E3. apply trip_inj in E3; lia.
    + intros i' m2 H2 Ne. apply for_loop_keep. intros ii' m3 H3. apply for_loop_keep. intros j' m4 H4. apply for_loop_keep. intros jj' m5 H5. apply updm_other.
      intros E. injection E as E1 E2. assert (E3 : i * n + ii + n * n * s = i' * n + ii' + n * n * permutation4 k0) by (clear - E2; lia). rewrite Hp in E3. apply trip_inj in E3; lia.
  - intros k' m1 H1 Ne. apply for_loop_keep. intros i' m2 H2. apply for_loop_keep. intros ii' m3 H3. apply for_loop_keep. intros j' m4 H4. apply for_loop_keep. intros jj' m5 H5.
    apply updm_other. intros E. injection E as E1 E2. assert (E3 : i * n + ii + n * n * s = i' * n + ii' + n * n * permutation4 k') by (clear - E2; lia).
    apply trip_inj in E3; try assumption. destruct E3 as [E3 _]. apply Ne. apply Pinj; [assumption|congruence].
Qed.
End Transfer.

(** ** positions of elements in a cluster *)
(** coordinates of the k-th element (hierarchical order) in a cluster with 2^r x 2^r elements *)
Fixpoint local_x (r k : nat) : nat := match r with O => 0 | S q => 2 * local_x q (k / 4) + quad_x (k mod 4) end.
Fixpoint local_y (r k : nat) : nat := match r with O => 0 | S q => 2 * local_y q (k / 4) + quad_y (k mod 4) end.
Lemma divmod4 : forall k i, i < 4 -> (4 * k + i) / 4 = k /\ (4 * k + i) mod 4 = i.
Proof. intros k i H. rewrite (Nat.mul_comm 4 k). apply divmod_mul. assumption. Qed.
Lemma local_0 : forall r, local_x r 0 = 0 /\ local_y r 0 = 0.
Proof. induction r as [|r [IH1 IH2]]; [auto|]. cbn [local_x local_y]. change (0 / 4) with 0. change (0 mod 4) with 0. rewrite IH1, IH2. auto. Qed.
Lemma local_level : forall r k, k < 4 ^ r -> local_x (S r) k = local_x r k /\ local_y (S r) k = local_y r k.
Proof.
  induction r as [|r IH]; intros k H.
  - simpl in H. replace k with 0 by lia. auto.
  - destruct (IH (k / 4)) as [E1 E2]; [apply Nat.div_lt_upper_bound; [lia|rewrite Nat.pow_succ_r' in H; lia]|].
    cbn [local_x local_y] in *. split; [rewrite E1|rewrite E2]; reflexivity.
Qed.
Lemma local_split : forall r s q, s < 4 -> q < 4 ^ r ->
  local_x (S r) (4 ^ r * s + q) = 2 ^ r * quad_x s + local_x r q /\ local_y (S r) (4 ^ r * s + q) = 2 ^ r * quad_y s + local_y r q.
Proof.
  induction r as [|r IH]; intros s q Hs Hq.
  - simpl in Hq. replace q with 0 by lia. change (4 ^ 0) with 1. rewrite Nat.mul_1_l, Nat.add_0_r. cbn [local_x local_y].
    rewrite (Nat.mod_small s 4 Hs). change (2 ^ 0) with 1. lia.
  - rewrite Nat.pow_succ_r' in Hq |- *.
    pose proof (Nat.div_mod q 4 ltac:(lia)) as Eq. pose proof (Nat.mod_upper_bound q 4 ltac:(lia)) as Bq.
    destruct (IH s (q / 4) Hs) as [E1 E2]; [apply Nat.div_lt_upper_bound; lia|].
    set (k := 4 * 4 ^ r * s + q). assert (Ek : k = 4 * (4 ^ r * s + q / 4) + q mod 4) by (unfold k; lia).
    destruct (divmod4 (4 ^ r * s + q / 4) (q mod 4) Bq) as [Ed Em]. rewrite <- Ek in Ed, Em.
    change (local_x (S (S r)) k) with (2 * local_x (S r) (k / 4) + quad_x (k mod 4)).
    change (local_y (S (S r)) k) with (2 * local_y (S r) (k / 4) + quad_y (k mod 4)).
    rewrite Ed, Em, E1, E2. cbn [local_x local_y]. rewrite Nat.pow_succ_r'. lia.
Qed.
Lemma local_bound : forall r k, local_x r k < 2 ^ r /\ local_y r k < 2 ^ r.
Proof.
  induction r as [|r IH]; intros k; [simpl; lia|]. cbn [local_x local_y]. destruct (IH (k / 4)) as [H1 H2]. rewrite Nat.pow_succ_r'.
  assert (quad_x (k mod 4) <= 1 /\ quad_y (k mod 4) <= 1) by (destruct (k mod 4) as [|[|[|[|?]]]]; simpl; lia). lia.
Qed.
Lemma pow4 : forall j, 2 ^ (2 * j) = 4 ^ j.
Proof. intros j. rewrite Nat.pow_mul_r. reflexivity. Qed.
Lemma index_inner : forall j s t c, c <= 4 ^ j -> (forall k, k < 4 ^ j -> s k = local_x j k /\ t k = local_y j k) ->
  forall s' t', for_loop c (fun i st =>
      let (s, t) := (st : (nat -> nat) * (nat -> nat)) in
      let s := updn s (4 * i) (2 * s i) in
      let s := updn s (4 * i + 1) (2 * s i + 1) in
      let s := updn s (4 * i + 2) (2 * s i + 1) in
      let s := updn s (4 * i + 3) (2 * s i) in
      let t := updn t (4 * i) (2 * t i) in
      let t := updn t (4 * i + 1) (2 * t i) in
      let t := updn t (4 * i + 2) (2 * t i + 1) in
      let t := updn t (4 * i + 3) (2 * t i + 1) in
      (s, t)) (s, t) = (s', t') ->
  forall k, (k < 4 ^ j \/ k < 4 * c) -> s' k = local_x (S j) k /\ t' k = local_y (S j) k.
Proof.
  intros j s t c. induction c as [|c IH]; intros Hc H s' t' E k Hk; cbn [for_loop] in E.
  - injection E as <- <-. destruct (local_level j k) as [-> ->]; [lia|]. apply H. lia.
  - set (st := for_loop c _ (s, t)) in E. destruct st as [s1 t1] eqn:Es. unfold st in Es.
    specialize (IH ltac:(lia) H s1 t1 Es). injection E as Es' Et'.
    assert (Hc0 : s1 c = local_x j c /\ t1 c = local_y j c).
    { destruct (IH c ltac:(lia)) as [-> ->]. apply local_level. lia. }
    destruct Hc0 as [Hs Ht].
    assert (S : forall b, b < 4 -> s' (4 * c + b) = 2 * local_x j c + quad_x b /\ t' (4 * c + b) = 2 * local_y j c + quad_y b).
    { intros b Hb. rewrite <- Es', <- Et'. clear Es' Et'.
      destruct (Nat.eq_dec c 0) as [->|Nc].
      - destruct (local_0 j) as [Q1 Q2]. rewrite Q1 in Hs |- *. rewrite Q2 in Ht |- *. unfold updn.
        destruct b as [|[|[|[|b]]]]; try lia; cbn; rewrite ?Hs, ?Ht; auto.
      - rewrite <- Hs, <- Ht. clear - Hb Nc. unfold updn. destruct b as [|[|[|[|b]]]]; try lia;
        repeat (match goal with |- context [?a =? ?b] => destruct (Nat.eqb_spec a b); try lia end);
        cbn [quad_x quad_y]; lia. }
    destruct (le_lt_dec (4 * c) k) as [Hge|Hlt].
    + destruct (le_lt_dec (4 * c + 4) k) as [Hge2|Hlt2].
      * assert (Hk2 : k < 4 ^ j) by lia. destruct (IH k (or_introl Hk2)) as [<- <-]. rewrite <- Es', <- Et'. unfold updn.
        repeat (match goal with |- context [?a =? ?b] => destruct (Nat.eqb_spec a b); try lia end).
      * destruct (S (k - 4 * c) ltac:(lia)) as [E1 E2]. replace (4 * c + (k - 4 * c)) with k in E1, E2 by lia. rewrite E1, E2.
        cbn [local_x local_y]. destruct (divmod4 c (k - 4 * c) ltac:(lia)) as [D1 D2]. replace (4 * c + (k - 4 * c)) with k in D1, D2 by lia. rewrite D1, D2. auto.
    + destruct (IH k (or_intror Hlt)) as [<- <-]. rewrite <- Es', <- Et'. unfold updn.
      repeat (match goal with |- context [?a =? ?b] => destruct (Nat.eqb_spec a b); try lia end).
Qed.
Lemma index_ok : forall cr s t, index_st cr = (s, t) -> forall k, k < 4 ^ cr -> s k = local_x cr k /\ t k = local_y cr k.
Proof.
  induction cr as [|j IH]; intros s t E k Hk.
  - injection E as <- <-. auto.
  - unfold index_st in E. cbn [for_loop] in E.
    set (st := for_loop j _ _) in E. change st with (index_st j) in E. destruct (index_st j) as [s1 t1] eqn:Es.
    cbv zeta in E. rewrite pow4 in E.
    apply (index_inner j s1 t1 (4 ^ j) (le_n _) (IH s1 t1 eq_refl) s t E). rewrite Nat.pow_succ_r' in Hk. lia.
Qed.

(** ** moments *)
Definition shape (kind : moment_kind) (p m : nat) (t : R) : R := match kind with Plain => bern p m t | Deriv => dbern p m t end.
Definition scale (kind : moment_kind) (cl cr : nat) : R :=
  match kind with Plain => sqrt (1 / 2 ^ cr * (1 / 2 ^ cl)) | Deriv => / sqrt (1 / 2 ^ cr * (1 / 2 ^ cl)) end%R.
(** quadrature of  L_i(h (j + .)) * shape  *)
Definition mom_int (kind : moment_kind) (p cr n : nat) (x : arr) (xi w : list R) (i j m : nat) : R :=
  rsum (fun k => nth k w 0 * lagrange n x i (1 / 2 ^ cr * (INR j + nth k xi 0)) * shape kind p m (nth k xi 0))%R (length w).
Lemma moment1D_entry : forall kind junk p cl cr n x xi w i j m, distinct n x -> i < n -> m <= p ->
  moment1D kind junk p cl cr n x xi w i (j * (p + 1) + m) = (scale kind cl cr * mom_int kind p cr n x xi w i j m)%R.
Proof.
  intros kind junk p cl cr n x xi w i j m D Hi Hm. unfold moment1D. cbv zeta.
  destruct (divmod_mul j m (p + 1) ltac:(lia)) as [-> ->].
  rewrite (for_loop_add _ _ (fun a : arr => a m) (fun k => scale kind cl cr * (nth k w 0 * lagrange n x i (1 / 2 ^ cr * (INR j + nth k xi 0)) * shape kind p m (nth k xi 0)))%R).
  - unfold zero_arr. rewrite rsum_scal. unfold mom_int. lra.
  - intros k c _. cbv beta. destruct kind; [rewrite phi_spec|rewrite phi_dx_spec]; destruct (Nat.leb_spec m p); try lia;
      rewrite newton_lagrange by assumption; cbn [shape scale]; unfold Rdiv; ring.
Qed.
Lemma moment2D_entry : forall p cr n m1 m2 junk i j k a b, i < n -> j < n -> k < 4 ^ cr -> a <= p -> b <= p ->
  moment2D p cr n m1 m2 junk (i * n + j) ((p + 1) * (p + 1) * k + a * (p + 1) + b) =
  (m1 i (local_x cr k * (p + 1) + b)%nat * m2 j (local_y cr k * (p + 1) + a)%nat)%R.
Proof.
  intros p cr n m1 m2 junk i j k a b Hi Hj Hk Ha Hb. unfold moment2D. destruct (index_st cr) as [s t] eqn:Es.
  destruct (index_ok cr s t Es k Hk) as [<- <-].
  assert (Hk2 : k < 2 ^ cr * 2 ^ cr) by (rewrite <- Nat.pow_mul_l; exact Hk).
  assert (inj1 : forall i' j', j' < n -> i * n + j = i' * n + j' -> i = i' /\ j = j') by (intros; apply (pair_inj n); assumption).
  assert (inj2 : forall k' a' b', a' < p + 1 -> b' < p + 1 -> (p + 1) * (p + 1) * k + a * (p + 1) + b = (p + 1) * (p + 1) * k' + a' * (p + 1) + b' -> k = k' /\ a = a' /\ b = b').
  { intros k' a' b' H1 H2 E. apply (trip_inj (p + 1)); lia. }
  apply (for_loop_hit _ _ _ _ i); [assumption| |].
  - intros ?. apply (for_loop_hit _ _ _ _ j); [assumption| |].
    + intros ?. apply (for_loop_hit _ _ _ _ k); [assumption| |].
      * intros ?. apply (for_loop_hit _ _ _ _ a); [lia| |].
        { intros ?. apply (for_loop_hit _ _ _ _ b); [lia| |].
          - intros ?. apply updm_same.
          - intros b' ? ? Ne. apply updm_other. intros E. pose proof (f_equal fst E) as E1. pose proof (f_equal snd E) as E2. cbn [fst snd] in E1, E2. lia. }
        { intros a' ? ? Ne. apply for_loop_keep. intros b' ? ?. apply updm_other. intros E. pose proof (f_equal fst E) as E1. pose proof (f_equal snd E) as E2. cbn [fst snd] in E1, E2. apply inj2 in E2; lia. }
      * intros k' ? ? Ne. apply for_loop_keep. intros a' ? ?. apply for_loop_keep. intros b' ? ?. apply updm_other. intros E. pose proof (f_equal fst E) as E1. pose proof (f_equal snd E) as E2. cbn [fst snd] in E1, E2. apply inj2 in E2; lia.
    + intros j' ? ? Ne. apply for_loop_keep. intros k' ? ?. apply for_loop_keep. intros a' ? ?. apply for_loop_keep. intros b' ? ?. apply updm_other. intros E. pose proof (f_equal fst E) as E1. pose proof (f_equal snd E) as E2. cbn [fst snd] in E1, E2. lia.
  - intros i' ? ? Ne. apply for_loop_keep. intros j' ? ?. apply for_loop_keep. intros k' ? ?. apply for_loop_keep. intros a' ? ?. apply for_loop_keep. intros b' ? ?.
    apply updm_other. intros E. pose proof (f_equal fst E) as E1. pose proof (f_equal snd E) as E2. cbn [fst snd] in E1, E2. apply inj1 in E1; lia.
Qed.
Lemma scale_shift : forall kind cl cr, scale kind cl (S cr) = scale kind (S cl) cr.
Proof.
  intros kind cl cr. unfold scale. replace (1 / 2 ^ S cr * (1 / 2 ^ cl))%R with (1 / 2 ^ cr * (1 / 2 ^ S cl))%R; [reflexivity|].
  simpl. assert (2 ^ cr <> 0)%R by (apply pow_nonzero; lra). assert (2 ^ cl <> 0)%R by (apply pow_nonzero; lra). field. auto.
Qed.
(** the moment of the father is the transferred moment of the son with offset q in {0, 1} *)
Lemma mom_int_shift : forall kind p cr n x xi w i j m q, distinct n x -> i < n ->
  mom_int kind p (S cr) n x xi w i (2 ^ cr * q + j) m =
  rsum (fun i' => lagrange n x i (1 / 2 * (x i' + INR q)) * mom_int kind p cr n x xi w i' j m)%R n.
Proof.
  intros kind p cr n x xi w i j m q D Hi. unfold mom_int.
  symmetry. etransitivity. { apply rsum_ext. intros i' _. rewrite <- rsum_scal. reflexivity. }
  rewrite rsum_swap. apply rsum_ext. intros k _.
  transitivity (rsum (fun i' => (nth k w 0 * shape kind p m (nth k xi 0)) * (lagrange n x i (1 / 2 * (x i' + INR q)) * lagrange n x i' (1 / 2 ^ cr * (INR j + nth k xi 0)))) n)%R.
  { apply rsum_ext. intros; ring. }
  rewrite rsum_scal. fold (interpolant n x (fun i' => lagrange n x i (1 / 2 * (x i' + INR q))%R) (1 / 2 ^ cr * (INR j + nth k xi 0))%R).
  rewrite (interpolation_exact n x (fun y => lagrange n x i (1 / 2 * (y + INR q))%R) D).
  - rewrite plus_INR, mult_INR, pow_INR. replace (1 / 2 ^ S cr * (INR 2 ^ cr * INR q + INR j + nth k xi 0))%R with (1 / 2 * (1 / 2 ^ cr * (INR j + nth k xi 0) + INR q))%R; [ring|].
    change (INR 2) with 2%R. simpl. assert (2 ^ cr <> 0)%R by (apply pow_nonzero; lra). field. assumption.
  - apply (poly_ext _ (fun y => lagrange n x i (1 / 2 * y + 1 / 2 * INR q)%R)); [intros; f_equal; ring|].
    apply (poly_affine n (lagrange n x i)). apply lagrange_poly. assumption.
Qed.
