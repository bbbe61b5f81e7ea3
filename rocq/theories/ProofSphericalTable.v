(** The tables of spherical_harmonics_full, legendreFull and Dsolid_harmonics_full. *)
From Coq Require Import Reals Arith Bool List Lia Lra ZArith.
From Coquelicot Require Import Coquelicot.
From Verif Require Import ModelBase RSum ModelBall SpecOperators ProofOperators ProofPotential ModelSpherical SpecSpherical ProofSpherical ProofSphericalCode.
Import ListNotations.
Local Open Scope R_scope.

(** the entries for (n,m) and (n,-m) *)
Definition good (y : vec3) (st : list R * list R) (n m : nat) : Prop :=
  nth (n * n + n + m) (fst st) 0 = fst (harmonic n m y) /\ nth (n * n + n + m) (snd st) 0 = snd (harmonic n m y) /\
  nth (n * n + n - m) (fst st) 0 = fst (harmonic n m y) /\ nth (n * n + n - m) (snd st) 0 = - snd (harmonic n m y).
Lemma harmonic_real : forall n y, snd (harmonic n 0 y) = 0.
Proof. intros n y. rewrite harmonic_value. unfold W. cbn [cpower]. unfold Cmult, RtoC. cbn [fst snd]. ring. Qed.
Lemma level_index : forall n m n' m', (m <= n)%nat -> (m' <= n')%nat -> (n <> n' \/ m <> m') ->
  (n * n + n + m <> n' * n' + n' + m' /\ n * n + n + m <> n' * n' + n' - m' /\ n * n + n - m <> n' * n' + n' + m' /\ n * n + n - m <> n' * n' + n' - m')%nat.
Proof.
  intros n m n' m' Hm Hm' D. destruct (Nat.lt_trichotomy n n') as [L|[E|L]].
  - assert (n * n + 2 * n + 1 <= n' * n')%nat by nia. lia.
  - subst n'. lia.
  - assert (n' * n' + 2 * n' + 1 <= n * n)%nat by nia. lia.
Qed.
Lemma store_good : forall y st n m len, (m <= n)%nat -> length (fst st) = len -> length (snd st) = len -> (n * n + n + m < len)%nat ->
  exists st', store_pair st n m (harmonic n m y) = Some st' /\ length (fst st') = len /\ length (snd st') = len /\ good y st' n m /\
    forall n' m', (m' <= n')%nat -> (n <> n' \/ m <> m') -> good y st n' m' -> good y st' n' m'.
Proof.
  intros y [re im] n m len Hm L1 L2 Hi. cbn [fst snd] in *. unfold store_pair. cbn [fst snd].
  destruct (set_spec re (n * n + n + m) (fst (harmonic n m y)) ltac:(lia)) as [re1 [E1 [R1 V1]]].
  destruct (set_spec im (n * n + n + m) (snd (harmonic n m y)) ltac:(lia)) as [im1 [E2 [R2 V2]]].
  rewrite E1, E2. cbn [bind]. destruct (Nat.ltb_spec 0 m) as [P|P].
  - destruct (set_spec re1 (n * n + n - m) (fst (harmonic n m y)) ltac:(lia)) as [re2 [E3 [R3 V3]]].
    destruct (set_spec im1 (n * n + n - m) (- snd (harmonic n m y)) ltac:(lia)) as [im2 [E4 [R4 V4]]].
    rewrite E3, E4. cbn [bind]. exists (re2, im2). cbn [fst snd].
    split; [reflexivity|]. split; [lia|]. split; [lia|]. split.
    + unfold good. cbn [fst snd]. rewrite !V3, !V4, !V1, !V2, !Nat.eqb_refl.
      replace (n * n + n + m =? n * n + n - m)%nat with false by (symmetry; apply Nat.eqb_neq; nia). auto.
    + intros n' m' H' D [G1 [G2 [G3 G4]]]. destruct (level_index n m n' m' Hm H' D) as [I1 [I2 [I3 I4]]].
      unfold good. cbn [fst snd] in *. rewrite !V3, !V4, !V1, !V2.
      replace (n' * n' + n' + m' =? n * n + n - m)%nat with false by (symmetry; apply Nat.eqb_neq; lia). replace (n' * n' + n' + m' =? n * n + n + m)%nat with false by (symmetry; apply Nat.eqb_neq; lia).
      replace (n' * n' + n' - m' =? n * n + n - m)%nat with false by (symmetry; apply Nat.eqb_neq; lia). replace (n' * n' + n' - m' =? n * n + n + m)%nat with false by (symmetry; apply Nat.eqb_neq; lia). auto.
  - assert (m = 0)%nat by lia. subst m. exists (re1, im1). cbn [fst snd]. rewrite ?Nat.sub_0_r, ?Nat.add_0_r in *.
    split; [reflexivity|]. split; [lia|]. split; [lia|]. split.
    + unfold good. cbn [fst snd]. rewrite Nat.sub_0_r, Nat.add_0_r, V1, V2, Nat.eqb_refl, harmonic_real. repeat split; ring.
    + intros n' m' H' D [G1 [G2 [G3 G4]]]. destruct (level_index n 0 n' m' Hm H' D) as [I1 [I2 [I3 I4]]]. rewrite ?Nat.sub_0_r, ?Nat.add_0_r in *.
      unfold good. cbn [fst snd] in *. rewrite !V1, !V2.
      replace (n' * n' + n' + m' =? n * n + n)%nat with false by (symmetry; apply Nat.eqb_neq; lia). replace (n' * n' + n' - m' =? n * n + n)%nat with false by (symmetry; apply Nat.eqb_neq; lia). auto.
Qed.

Lemma prev_ok : forall y, vnorm y = 1 -> (if Rlt_dec (Rabs (vnorm y - 1)) (/ 10 ^ 14) then true else false) = true.
Proof.
  intros y Hy. rewrite Hy. destruct (Rlt_dec (Rabs (1 - 1)) (/ 10 ^ 14)) as [_|N]; [reflexivity|]. exfalso. apply N. rewrite Rminus_eq_0, Rabs_R0.
  apply Rinv_0_lt_compat. apply pow_lt. lra.
Qed.
Lemma prev_low : forall y m k, vnorm y = 1 -> let n := (m + 2 + k)%nat in
  spherical_prev y m n (fst (harmonic (n - 1) m y), fst (harmonic (n - 2) m y)) (snd (harmonic (n - 1) m y), snd (harmonic (n - 2) m y)) = Some (harmonic n m y).
Proof.
  intros y m k Hy n. unfold spherical_prev. rewrite (prev_ok y Hy). cbn [assert bind fst snd].
  replace (((m =? 0) && (n =? 0))%nat%bool) with false by (unfold n; replace (m + 2 + k =? 0)%nat with false by (symmetry; apply Nat.eqb_neq; lia); rewrite andb_false_r; reflexivity).
  replace (m =? n)%nat with false by (symmetry; apply Nat.eqb_neq; lia). replace (m + 1 =? n)%nat with false by (symmetry; apply Nat.eqb_neq; lia).
  f_equal. etransitivity; [|exact (harmonic_step m k y)]. fold n. unfold next_z. replace (n - 1)%nat with (m + 1 + k)%nat by lia. replace (n - 2)%nat with (m + k)%nat by lia. reflexivity.
Qed.
Lemma prev_near : forall y m s, vnorm y = 1 ->
  spherical_prev y m (S m) (fst (harmonic m m y), s) (snd (harmonic m m y), s) = Some (harmonic (S m) m y).
Proof.
  intros y m s Hy. unfold spherical_prev. rewrite (prev_ok y Hy). cbn [assert bind fst snd].
  replace (((m =? 0) && (S m =? 0))%nat%bool) with false by (cbn [Nat.eqb]; rewrite andb_false_r; reflexivity).
  replace (m =? S m)%nat with false by (symmetry; apply Nat.eqb_neq; lia). replace (m + 1 =? S m)%nat with true by (symmetry; apply Nat.eqb_eq; lia).
  f_equal. rewrite <- (harmonic_next m y). unfold csmul. f_equal; ring.
Qed.
Lemma prev_diag : forall y m s, vnorm y = 1 ->
  spherical_prev y (S m) (S m) (fst (harmonic m m y), s) (snd (harmonic m m y), s) = Some (harmonic (S m) (S m) y).
Proof.
  intros y m s Hy. unfold spherical_prev. rewrite (prev_ok y Hy). cbn [assert bind fst snd].
  replace (((S m =? 0) && (S m =? 0))%nat%bool) with false by reflexivity. rewrite Nat.eqb_refl.
  f_equal. rewrite <- (harmonic_start m y). unfold next_start, csmul. cbn [fst snd]. rewrite S_INR.
  replace (2 * (INR m + 1) + 1) with (2 * INR m + 3) by ring. replace (2 * (INR m + 1)) with (2 * INR m + 2) by ring. reflexivity.
Qed.

Lemma table_value : forall junk stale x N, x <> (0, 0, 0) -> length (fst junk) = ((N + 1) * (N + 1))%nat -> length (snd junk) = ((N + 1) * (N + 1))%nat ->
  exists st, spherical_harmonics_full junk stale x N = Some st /\ length (fst st) = ((N + 1) * (N + 1))%nat /\ length (snd st) = ((N + 1) * (N + 1))%nat /\
    forall n m, (n <= N)%nat -> (m <= n)%nat -> good (vscal (1 / vnorm x) x) st n m.
Proof.
  intros [jr ji] stale x N Hx L1 L2. cbn [fst snd] in *. unfold spherical_harmonics_full. rewrite (norm_unit x Hx). cbn [bind fst snd].
  pose proof (vnorm_unit x Hx) as U. set (y := vscal (1 / vnorm x) x) in *. set (len := ((N + 1) * (N + 1))%nat) in *.
  assert (Q : forall n m, (n <= N)%nat -> (m <= n)%nat -> (n * n + n + m < len)%nat) by (intros; unfold len; nia).
  destruct (set_spec jr 0 (0.5 / sqrt PI) ltac:(pose proof (Q 0 0 ltac:(lia) ltac:(lia))%nat; lia)) as [re [E1 [R1 V1]]].
  destruct (set_spec ji 0 0 ltac:(pose proof (Q 0 0 ltac:(lia) ltac:(lia))%nat; lia)) as [im [E2 [R2 V2]]]. rewrite E1, E2. cbn [bind].
  match goal with |- exists st, for_opt N ?B ?s = _ /\ _ => destruct (for_opt_inv (fun k (st : list R * list R) => length (fst st) = len /\ length (snd st) = len /\ forall n m, (n <= k)%nat -> (m <= n)%nat -> good y st n m) N B s) as [st [E I]] end.
  - cbn [fst snd]. split; [lia|]. split; [lia|]. intros n m Hn Hm. assert (n = 0 /\ m = 0)%nat as [-> ->] by lia.
    unfold good. cbn [fst snd]. cbn [Nat.mul Nat.add Nat.sub]. rewrite V1, V2. cbn [Nat.eqb]. rewrite (harmonic00 y). cbn [fst snd]. repeat split; try reflexivity; ring.
  - intros k st Hk [La [Lb G]]. cbv zeta. 
    match goal with |- exists s', bind (for_opt (S k - 1) ?B st) _ = _ /\ _ =>
      destruct (for_opt_inv (fun j (s : list R * list R) => length (fst s) = len /\ length (snd s) = len /\ (forall n m, (n <= k)%nat -> (m <= n)%nat -> good y s n m) /\ forall m, (m < j)%nat -> good y s (S k) m) (S k - 1) B st) as [st1 [F [La1 [Lb1 [G1 G2]]]]] end.
    + split; [exact La|]. split; [exact Lb|]. split; [exact G|]. lia.
    + intros m s Hm [Ls1 [Ls2 [Gs Gm]]]. assert (Qa := Q k m ltac:(lia) ltac:(lia)). assert (Qb := Q (k - 1)%nat m ltac:(lia) ltac:(lia)). assert (Qc := Q (S k) m ltac:(lia) ltac:(lia)).
      destruct (Gs k m ltac:(lia) ltac:(lia)) as [A1 [A2 _]]. destruct (Gs (k - 1)%nat m ltac:(lia) ltac:(lia)) as [B1 [B2 _]].
      replace ((S k - 1) * (S k - 1) + S k - 1 + m)%nat with (k * k + k + m)%nat by lia. 
      replace ((S k - 2) * (S k - 2) + S k - 2 + m)%nat with ((k - 1) * (k - 1) + (k - 1) + m)%nat by (destruct k; [lia|]; cbn [Nat.sub]; rewrite Nat.sub_0_r; lia).
      rewrite !get_some by lia. cbn [bind]. rewrite A1, A2, B1, B2.
      pose proof (prev_low y m (k - 1 - m) U) as P. cbv zeta in P. replace (m + 2 + (k - 1 - m))%nat with (S k) in P by lia. replace (S k - 1)%nat with k in P by lia. replace (S k - 2)%nat with (k - 1)%nat in P by lia. rewrite P. cbn [bind].
      destruct (store_good y s (S k) m len ltac:(lia) Ls1 Ls2 Qc) as [s' [Es [Ls1' [Ls2' [Gn Go]]]]]. exists s'. split; [exact Es|]. split; [exact Ls1'|]. split; [exact Ls2'|]. split.
      * intros n' m' Hn' Hm'. apply Go; [exact Hm'|lia|apply Gs; assumption].
      * intros m' Hm'. destruct (Nat.eq_dec m' m) as [->|D]; [exact Gn|]. apply Go; [lia|lia|apply Gm; lia].
    + rewrite F. cbn [bind]. replace (S k - 1)%nat with k in * by lia.
      assert (Qa := Q k k ltac:(lia) ltac:(lia)). rewrite !get_some by lia. cbn [bind]. destruct (G1 k k ltac:(lia) ltac:(lia)) as [A1 [A2 _]]. rewrite A1, A2. rewrite (prev_near y k stale U). cbn [bind].
      destruct (store_good y st1 (S k) k len ltac:(lia) La1 Lb1 (Q (S k) k ltac:(lia) ltac:(lia))) as [s2 [Es [Ls1 [Ls2 [Gn Go]]]]]. rewrite Es. cbn [bind].
      replace (k * k + S k - 1 + S k - 1)%nat with (k * k + k + k)%nat by lia. rewrite !get_some by lia. cbn [bind].
      destruct (Go k k ltac:(lia) ltac:(lia) (G1 k k ltac:(lia) ltac:(lia))) as [A3 [A4 _]]. rewrite A3, A4. rewrite (prev_diag y k stale U). cbn [bind].
      destruct (store_good y s2 (S k) (S k) len ltac:(lia) Ls1 Ls2 (Q (S k) (S k) ltac:(lia) ltac:(lia))) as [s3 [Es3 [Ls31 [Ls32 [Gn3 Go3]]]]]. exists s3. split; [exact Es3|]. split; [exact Ls31|]. split; [exact Ls32|].
      intros n m Hn Hm. destruct (Nat.eq_dec n (S k)) as [->|D].
      * destruct (Nat.eq_dec m (S k)) as [->|D]; [exact Gn3|]. apply Go3; [exact Hm|lia|]. destruct (Nat.eq_dec m k) as [->|D2]; [exact Gn|]. apply Go; [lia|lia|]. apply G2. lia.
      * apply Go3; [exact Hm|lia|]. apply Go; [exact Hm|lia|]. apply G1; lia.
  - exists st. split; [exact E|exact I].
Qed.

(** ** Legendre polynomials *)
Definition tri (n : nat) : nat := ((n * (n + 1)) / 2)%nat.
Lemma tri_S : forall n, tri (S n) = (tri n + S n)%nat.
Proof. intros n. unfold tri. replace (S n * (S n + 1))%nat with (n * (n + 1) + S n * 2)%nat by lia. rewrite Nat.div_add by lia. reflexivity. Qed.
Lemma tri_lt : forall n n', (n < n')%nat -> (tri n + n < tri n')%nat.
Proof. intros n n' L. induction L as [|p L IH]; rewrite tri_S; lia. Qed.
Lemma tri_pred : forall n, (1 <= n)%nat -> ((n * (n - 1)) / 2)%nat = tri (n - 1).
Proof. intros n L. unfold tri. f_equal. destruct n; [lia|]. cbn [Nat.sub]. rewrite Nat.sub_0_r. lia. Qed.
Lemma tri_pred2 : forall n, (2 <= n)%nat -> (((n - 1) * (n - 2)) / 2)%nat = tri (n - 2).
Proof. intros n L. unfold tri. f_equal. replace (n - 2 + 1)%nat with (n - 1)%nat by lia. lia. Qed.
Definition lgood (t : R) (L : list R) (n m : nat) : Prop := nth (tri n + m) L 0 = H n m t 1.
Lemma lstore : forall t L n m len, (m <= n)%nat -> length L = len -> (tri n + m < len)%nat ->
  exists L', set L (tri n + m) (H n m t 1) = Some L' /\ length L' = len /\ lgood t L' n m /\
    forall n' m', (m' <= n')%nat -> (n <> n' \/ m <> m') -> lgood t L n' m' -> lgood t L' n' m'.
Proof.
  intros t L n m len Hm Hl Hi. destruct (set_spec L (tri n + m) (H n m t 1) ltac:(lia)) as [L' [E [R1 V]]]. exists L'. split; [exact E|]. split; [lia|]. split.
  - unfold lgood. rewrite V, Nat.eqb_refl. reflexivity.
  - intros n' m' Hm' D G. unfold lgood. rewrite V. replace (tri n' + m' =? tri n + m)%nat with false; [exact G|]. symmetry. apply Nat.eqb_neq.
    destruct (Nat.lt_trichotomy n n') as [Q|[Q|Q]]; [pose proof (tri_lt n n' Q); lia| |pose proof (tri_lt n' n Q); lia]. subst n'. lia.
Qed.

Lemma legendre_table : forall junk N t, (1 <= N)%nat -> length junk = (((N + 1) * (N + 2)) / 2)%nat ->
  exists L, legendreFull junk N t = Some L /\ length L = tri (N + 1) /\ forall n m, (n <= N)%nat -> (m <= n)%nat -> lgood t L n m.
Proof.
  intros junk N t HN Hj. replace (((N + 1) * (N + 2)) / 2)%nat with (tri (N + 1)) in Hj by (unfold tri; f_equal; lia).
  assert (Q : forall n m, (n <= N)%nat -> (m <= n)%nat -> (tri n + m < tri (N + 1))%nat) by (intros n m A B; pose proof (tri_lt n (N + 1) ltac:(lia)); lia).
  set (len := tri (N + 1)) in *. unfold legendreFull.
  destruct (set_spec junk 0 1 ltac:(pose proof (Q 0 0 ltac:(lia) ltac:(lia))%nat; lia)) as [L0 [E0 [R0 V0]]]. rewrite E0. cbn [bind].
  assert (Q11 : (2 < len)%nat) by (pose proof (Q 1%nat 1%nat ltac:(lia) ltac:(lia)) as q; change (tri 1) with 1%nat in q; lia).
  destruct (set_spec L0 1 t ltac:(lia)) as [L1 [E1 [R1 V1]]]. rewrite E1. cbn [bind].
  destruct (set_spec L1 2 1 ltac:(lia)) as [L2 [E2 [R2 V2]]]. rewrite E2. cbn [bind].
  match goal with |- exists L, for_opt _ ?B _ = _ /\ _ => destruct (for_opt_inv (fun k L => length L = len /\ forall n m, (n <= k + 1)%nat -> (m <= n)%nat -> lgood t L n m) (N - 1) B L2) as [L [E [I1 I2]]] end.
  - split; [lia|]. intros n m Hn Hm. unfold lgood. rewrite V2, V1, V0. destruct n as [|[|n]]; [| |lia].
    + assert (m = 0)%nat by lia. subst m. cbn. reflexivity.
    + destruct m as [|[|m]]; [| |lia]; cbn; field.
  - intros k L Hk [Hl G]. cbv zeta. set (n := (k + 2)%nat). fold (tri n).
    match goal with |- exists s', bind (for_opt (n - 1) ?B L) _ = _ /\ _ => destruct (for_opt_inv (fun j s => length s = len /\ (forall n' m', (n' <= k + 1)%nat -> (m' <= n')%nat -> lgood t s n' m') /\ forall m', (m' < j)%nat -> lgood t s n m') (n - 1) B L) as [La [F [Hla [Ga Gb]]]] end.
    + split; [exact Hl|]. split; [exact G|lia].
    + intros m s Hm [Hs [Gs Gm]]. rewrite (tri_pred n ltac:(lia)), (tri_pred2 n ltac:(lia)).
      assert (Qa := Q (n - 1)%nat m ltac:(lia) ltac:(lia)). assert (Qb := Q (n - 2)%nat m ltac:(lia) ltac:(lia)). assert (Qc := Q n m ltac:(lia) ltac:(lia)).
      rewrite !get_some by lia. cbn [bind]. rewrite (Gs (n - 1)%nat m ltac:(lia) ltac:(lia)), (Gs (n - 2)%nat m ltac:(lia) ltac:(lia)).
      replace (((2 * INR n - 1) * t * H (n - 1) m t 1 - (INR n + INR m - 1) * H (n - 2) m t 1) / (INR n - INR m)) with (H n m t 1).
      * destruct (lstore t s n m len ltac:(lia) Hs Qc) as [s' [Es [Hs' [Gn Go]]]]. exists s'. split; [exact Es|]. split; [exact Hs'|]. split.
        -- intros n' m' A B. apply Go; [exact B|lia|apply Gs; assumption].
        -- intros m' A. destruct (Nat.eq_dec m' m) as [->|D]; [exact Gn|]. apply Go; [lia|lia|apply Gm; lia].
      * pose proof (H_low (n - 1) m t 1 ltac:(lia)) as HL. replace (S (n - 1)) with n in HL by lia.
        assert (E3 : H1 (n - 1) m t 1 = H (n - 2) m t 1) by (replace (n - 1)%nat with (S (n - 2)) by lia; reflexivity). rewrite E3 in HL.
        assert (En : INR (n - 1) = INR n - 1) by (rewrite minus_INR by lia; reflexivity). rewrite En in HL.
        assert (Hnm : INR m < INR n) by (apply lt_INR; lia). apply (Rmult_eq_reg_l (INR n - INR m)); [|lra]. field_simplify; [|lra].
        replace (INR n * H n m t 1 - INR m * H n m t 1) with ((INR n - 1 + 1 - INR m) * H n m t 1) by ring. rewrite HL. ring.
    + rewrite F. cbn [bind]. fold (tri (n - 1)). assert (Qa := Q (n - 1)%nat (n - 1)%nat ltac:(lia) ltac:(lia)).
      rewrite get_some by lia. cbn [bind]. rewrite (Ga (n - 1)%nat (n - 1)%nat ltac:(lia) ltac:(lia)).
      assert (En : INR (n - 1) = INR n - 1) by (rewrite minus_INR by lia; reflexivity).
      replace ((2 * INR (n - 1) + 1) * t * H (n - 1) (n - 1) t 1) with (H n (n - 1) t 1).
      2:{ pose proof (H_low (n - 1) (n - 1) t 1 ltac:(lia)) as HL. replace (S (n - 1)) with n in HL by lia. rewrite (H1_high (n - 1) (n - 1) t 1 ltac:(lia)) in HL.
          replace ((INR (n - 1) + 1 - INR (n - 1)) * H n (n - 1) t 1) with (H n (n - 1) t 1) in HL by ring. rewrite HL. ring. }
      destruct (lstore t La n (n - 1)%nat len ltac:(lia) Hla (Q n (n - 1)%nat ltac:(lia) ltac:(lia))) as [Lb [Eb [Hlb [Gn Go]]]]. rewrite Eb. cbn [bind].
      rewrite (tri_pred n ltac:(lia)). replace (tri (n - 1) + n - 1)%nat with (tri (n - 1) + (n - 1))%nat by lia. rewrite get_some by lia. cbn [bind].
      rewrite (Go (n - 1)%nat (n - 1)%nat ltac:(lia) ltac:(lia) (Ga (n - 1)%nat (n - 1)%nat ltac:(lia) ltac:(lia))).
      replace ((2 * INR n - 1) * H (n - 1) (n - 1) t 1) with (H n n t 1).
      2:{ pose proof (H_diag (n - 1) t 1) as HD. replace (S (n - 1)) with n in HD by lia. rewrite HD, En. ring. }
      destruct (lstore t Lb n n len ltac:(lia) Hlb (Q n n ltac:(lia) ltac:(lia))) as [Lc [Ec [Hlc [Gn2 Go2]]]]. exists Lc. split; [exact Ec|]. split; [exact Hlc|].
      intros n' m' A B. destruct (Nat.eq_dec n' n) as [->|D].
      * destruct (Nat.eq_dec m' n) as [->|D]; [exact Gn2|]. apply Go2; [exact B|lia|]. destruct (Nat.eq_dec m' (n - 1)) as [->|D2]; [exact Gn|]. apply Go; [lia|lia|]. apply Gb. lia.
      * apply Go2; [exact B|lia|]. apply Go; [exact B|lia|]. apply Ga; lia.
  - exists L. split; [exact E|]. split; [exact I1|]. intros n m A B. apply I2; lia.
Qed.

(** ** constants *)
Lemma constant_norm : forall n m, (m <= n)%nat -> constant m n = harmonic_norm n m.
Proof.
  intros n m. unfold constant. induction m as [|m IH]; intros Hm.
  - cbn [seq fold_left]. unfold harmonic_norm. f_equal. rewrite Nat.sub_0_r, Nat.add_0_r. field. pose proof PI_RGT_0. pose proof (fact_pos n). lra.
  - rewrite seq_S, fold_left_app. cbn [fold_left Nat.add]. rewrite IH by lia. unfold harmonic_norm.
    assert (Hl : INR m < INR n) by (apply lt_INR; lia). pose proof (pos_INR m).
    assert (P : 0 < (INR n + INR m + 1) * (INR n - INR m)) by (apply Rmult_lt_0_compat; lra).
    apply (Rmult_eq_reg_r (sqrt ((INR n + INR m + 1) * (INR n - INR m)))); [|pose proof (sqrt_lt_R0 _ P); lra].
    transitivity (sqrt ((2 * INR n + 1) / (4 * PI) * (INR (fact (n - m)) / INR (fact (n + m))))); [field; pose proof (sqrt_lt_R0 _ P); lra|].
    rewrite <- sqrt_mult; [|apply norm_nonneg|lra]. f_equal. replace (n - m)%nat with (S (n - S m)) by lia. replace (n + S m)%nat with (S (n + m)) by lia. rewrite !factS.
    rewrite plus_INR. replace (INR (n - S m)) with (INR n - INR m - 1) by (rewrite minus_INR, S_INR by lia; ring). pose proof PI_RGT_0. pose proof (fact_pos (n + m)). field. lra.
Qed.

(** ** gradients *)
Lemma dir_ext_off : forall f g z y d l, z <> y -> (forall x, x <> y -> f x = g x) -> directional f z d l -> directional g z d l.
Proof.
  intros f g z y d l0 Hz2 E X. unfold directional in *. apply is_derive_Reals. apply is_derive_Reals in X. apply (is_derive_ext_loc (fun t => f (along z d t))); [|exact X].
  pose proof (vnorm_pos _ (vsub_nonzero z y Hz2)) as Qz. pose proof (norm_line (vsub z y) d (vsub_nonzero z y Hz2)) as N.
  assert (Ct : continuous (fun t => vnorm (vadd (vsub z y) (vscal t d))) 0) by (apply (ex_derive_continuous (fun t => vnorm (vadd (vsub z y) (vscal t d)))); eexists; exact N).
  specialize (Ct (fun u => 0 < u)). cbv beta in Ct. rewrite vscal0 in Ct.
  assert (Lo : locally (vnorm (vsub z y)) (fun u => 0 < u)).
  { exists (mkposreal _ Qz). intros u Hu. unfold ball in Hu; simpl in Hu; unfold AbsRing_ball, abs, minus, plus, opp in Hu; simpl in Hu.
    apply Rabs_def2 in Hu. lra. }
  specialize (Ct Lo). unfold filtermap in Ct. revert Ct. apply filter_imp. intros t Ht. rewrite <- along_sub in Ht. apply E.
  intros Ez. rewrite Ez in Ht. assert (Z : vnorm (vsub y y) = 0); [|lra]. unfold vnorm. replace (vdot (vsub y y) (vsub y y)) with 0; [apply sqrt_0|].
  unfold vdot, vsub, vx, vy, vz; cbn [fst snd]; ring.
Qed.
Lemma turn_mult : forall x z, turn x z = Cmult (vx x, vy x) z.
Proof. intros x [a b]. unfold turn, Cmult. cbn [fst snd]. f_equal; ring. Qed.
Lemma turn_iter : forall x k s a b, fold_left (fun st (_ : nat) => (turn x (fst st), turn x (snd st))) (seq s k) (a, b) = (Cmult (W x k) a, Cmult (W x k) b).
Proof.
  intros x k. induction k as [|k IH]; intros s a b; cbn [seq fold_left].
  - unfold W. cbn [cpower]. rewrite !Cmult_1_l. reflexivity.
  - rewrite IH. cbn [fst snd]. rewrite !turn_mult. unfold W. cbn [cpower]. f_equal; ring.
Qed.
Lemma gradient_parts : forall u m n L, vnorm u = 1 -> (m <= n)%nat -> (tri (n + 1) <= length L)%nat -> (forall m, (m <= n)%nat -> lgood (vz u) L n m) ->
  let z0 := Cmult (RtoC (INR m * harmonic_norm n m * H n m (vz u) 1)) (W u (m - 1)) in
  dspherical_prev u m n L = Some (z0, (- snd z0, fst z0), Cmult (RtoC (harmonic_norm n m * H n (S m) (vz u) 1)) (W u m)).
Proof.
  intros u m n L U Hm Hl G z0. unfold dspherical_prev. rewrite (prev_ok u U). cbn [assert bind]. rewrite (constant_norm n m Hm).
  fold (tri n). assert (Q : (tri n + n < tri (n + 1))%nat) by (apply tri_lt; lia).
  destruct (Nat.eqb_spec m 0) as [->|Nm].
  - assert (E : (if (n <? 1)%nat then Some 0 else get L (tri n + 1)) = Some (H n 1 (vz u) 1)).
    { destruct (Nat.ltb_spec n 1) as [Q1|Q1]; [rewrite H_high by lia; reflexivity|]. rewrite get_some by lia. rewrite (G 1%nat Q1). reflexivity. }
    rewrite E. cbn [bind]. unfold z0, W. cbn [INR Nat.sub cpower]. unfold Cmult, RtoC. cbn [fst snd]. f_equal. f_equal; [f_equal|]; apply injective_projections; cbn [fst snd]; ring.
  - replace (n <? m)%nat with false by (symmetry; apply Nat.ltb_ge; lia). rewrite get_some by lia. cbn [bind]. rewrite (G m Hm).
    assert (E : (if (n <? m + 1)%nat then Some 0 else get L (tri n + m + 1)) = Some (H n (S m) (vz u) 1)).
    { destruct (Nat.ltb_spec n (m + 1)) as [Q1|Q1]; [rewrite H_high by lia; reflexivity|]. replace (tri n + m + 1)%nat with (tri n + S m)%nat by lia. rewrite get_some by lia. rewrite (G (S m) ltac:(lia)). reflexivity. }
    rewrite E. cbn [bind]. rewrite turn_iter. rewrite turn_mult.
    assert (Wm : W u m = Cmult (vx u, vy u) (W u (m - 1))) by (destruct m; [lia|cbn [Nat.sub]; rewrite Nat.sub_0_r; reflexivity]). rewrite Wm.
    unfold z0. unfold Cmult, RtoC. cbn [fst snd]. f_equal. f_equal; [f_equal|]; apply injective_projections; cbn [fst snd]; ring.
Qed.

Lemma pow_quot : forall r n, 0 < r -> (if (3 <? n)%nat then r ^ (n - 3) else if (n =? 3)%nat then 1 else (1 / r) ^ (3 - n)) * (r * r) * r = r ^ n.
Proof.
  intros r n Hr. destruct (Nat.ltb_spec 3 n) as [L|L].
  - replace n with (S (S (S (n - 3)))) at 2 by lia. cbn [pow]. ring.
  - destruct n as [|[|[|[|n]]]]; cbn [Nat.eqb Nat.sub pow]; try (field; lra). lia.
Qed.

Lemma solid_gradient : forall x m n L, x <> (0, 0, 0) -> (m <= n)%nat -> (tri (n + 1) <= length L)%nat ->
  let u := vscal (1 / vnorm x) x in
  (forall m, (m <= n)%nat -> lgood (vz u) L n m) ->
  exists g, dsolid_spherical_prev x m n L (fst (harmonic n m u)) (snd (harmonic n m u)) = Some g /\
    forall d, directional (fun z => fst (solid n m z)) x d (vdot (fst g) d) /\ directional (fun z => snd (solid n m z)) x d (vdot (snd g) d).
Proof.
  intros x m n L Xn Hm Hl u G. pose proof (vnorm_unit x Xn) as U. fold u in U. pose proof (vnorm_pos x Xn) as P.
  pose proof (gradient_parts u m n L U Hm Hl G) as GP. cbv zeta in GP.
  unfold dsolid_spherical_prev. rewrite (norm_unit x Xn). cbn [bind]. fold u. rewrite GP. cbn [bind]. clear GP.
  eexists. split; [reflexivity|]. intros d.
  set (r := vnorm x) in *. pose proof (pow_quot r n P) as PQ. set (r3 := if (3 <? n)%nat then r ^ (n - 3) else _) in *.
  set (c := harmonic_norm n m) in *.
  assert (Ex : vx x = r * vx u /\ vy x = r * vy u /\ vz x = r * vz u) by (unfold u, vscal, vx, vy, vz; cbn [fst snd]; repeat split; field; lra). destruct Ex as [X1 [X2 X3]].
  assert (Uu : vx u * vx u + vy u * vy u + vz u * vz u = 1).
  { pose proof (vnorm_sq u) as Q. rewrite U in Q. unfold vdot in Q. lra. }
  assert (Sx : vdot x x = r * r * 1) by (rewrite Rmult_1_r; symmetry; apply vnorm_sq).
  assert (WS : forall k, W x k = Cmult (RtoC (r ^ k)) (W u k)) by (intros k; unfold W; rewrite X1, X2; apply cpower_scale).
  assert (A0 : Hx n m x = r ^ (n - m) * H n m (vz u) 1) by (unfold Hx; rewrite X3, Sx; apply (proj1 (H_scale n r (vz u) 1) m Hm)).
  assert (A1 : r ^ (S m) * H n (S m) (vz x) (vdot x x) = r ^ n * H n (S m) (vz u) 1).
  { destruct (Nat.le_gt_cases (S m) n) as [Q|Q]; [|rewrite !H_high by lia; ring]. rewrite X3, Sx, (proj1 (H_scale n r (vz u) 1) (S m) Q). rewrite <- Rmult_assoc, <- pow_add. do 2 f_equal. lia. }
  assert (A2 : r ^ (S m) * (r * H1 n (S m) (vz x) (vdot x x)) = r ^ n * H1 n (S m) (vz u) 1).
  { destruct (Nat.lt_ge_cases (S m) n) as [Q|Q]; [|rewrite !H1_high by lia; ring]. rewrite X3, Sx, (proj2 (H_scale n r (vz u) 1) (S m) Q). rewrite <- Rmult_assoc, <- pow_add. do 2 f_equal. lia. }
  pose proof (relF n m (vz u) 1) as RF. set (h := H n m (vz u) 1) in *. set (h1 := H n (S m) (vz u) 1) in *. set (k1 := H1 n (S m) (vz u) 1) in *.
  set (ha := H n (S m) (vz x) (vdot x x)) in *. set (ka := H1 n (S m) (vz x) (vdot x x)) in *.
  assert (Wm : m = 0%nat \/ W u m = Cmult (vx u, vy u) (W u (m - 1))) by (destruct m; [left; reflexivity|right; cbn [Nat.sub]; rewrite Nat.sub_0_r; reflexivity]).
  assert (Pm : INR m * r ^ (m - 1) * r = INR m * r ^ m) by (destruct m; [cbn [INR]; ring|cbn [Nat.sub]; rewrite Nat.sub_0_r; cbn [pow]; ring]).
  assert (Pn : (if (n =? 0)%nat then 0 else (if (n =? 1)%nat then 1 else INR n * r ^ (n - 1)) * r) = INR n * r ^ n).
  { destruct n as [|[|n]]; cbn [Nat.eqb]; [cbn [INR]; ring|cbn [INR pow]; ring|]. cbn [Nat.sub]. cbn [pow]. ring. }
  assert (Prm : r ^ m > 0) by (apply pow_lt; exact P). assert (Pnm : r ^ (n - m) * r ^ m = r ^ n) by (rewrite <- pow_add; f_equal; lia).
  (* the derivative of the solid harmonic, in terms of u *)
  assert (Dc : forall pr : Complex.C -> R, (pr = fst \/ pr = snd) ->
    directional (fun z => pr (solid n m z)) x d
      (r ^ n / r * (c * h1 * pr (W u m) * vz d - c * k1 * pr (W u m) * vdot u d + INR m * c * h * pr (Cmult (vx d, vy d) (W u (m - 1)))))).
  { intros pr Hpr.
    apply (dir_ext_off (fun z => c * (Hx n m z * pr (W z m))) _ x (0, 0, 0) d); [exact Xn| |].
    { intros z Hz. rewrite (solid_value n m z Hm Hz). fold c. destruct Hpr as [->| ->]; unfold Cmult, RtoC; cbn [fst snd]; ring. }
    assert (DW : directional (fun z => pr (W z m)) x d (pr (Cmult (RtoC (INR m)) (Cmult (vx d, vy d) (W x (m - 1)))))) by (destruct (dir_pow m x d) as [D1 D2]; destruct Hpr as [->| ->]; assumption).
    pose proof (dir_scal _ _ _ _ c (dir_mult _ _ _ _ _ _ (dir_H n m x d) DW)) as D. fold ha ka in D.
    match type of D with directional _ _ _ ?p => match goal with |- directional _ _ _ ?v => replace v with p end end; [exact D|]. clear D DW.
    rewrite A0. rewrite !WS. fold h.
    assert (Ed : vdot x d = r * vdot u d) by (unfold vdot; rewrite X1, X2, X3; ring). rewrite Ed.
    assert (B1 : ha * r ^ m = r ^ n / r * h1) by (apply (Rmult_eq_reg_l r); [|lra]; transitivity (r ^ S m * ha); [cbn [pow]; ring|rewrite A1; field; lra]).
    assert (B2 : ka * r * r ^ m = r ^ n / r * k1) by (apply (Rmult_eq_reg_l r); [|lra]; transitivity (r ^ S m * (r * ka)); [cbn [pow]; ring|rewrite A2; field; lra]).
    assert (B3 : INR m * r ^ (n - m) * r ^ (m - 1) = r ^ n / r * INR m) by (apply (Rmult_eq_reg_l r); [|lra]; transitivity (r ^ (n - m) * (INR m * r ^ (m - 1) * r)); [ring|rewrite Pm; rewrite <- Pnm; field; lra]).
    assert (Hp : forall a z, pr (Cmult (RtoC a) z) = a * pr z) by (intros a z; destruct Hpr as [->| ->]; unfold Cmult, RtoC; cbn [fst snd]; ring).
    rewrite !Hp. assert (Hq : pr (Cmult (vx d, vy d) (Cmult (RtoC (r ^ (m - 1))) (W u (m - 1)))) = r ^ (m - 1) * pr (Cmult (vx d, vy d) (W u (m - 1)))).
    { rewrite <- Hp. f_equal. apply injective_projections; unfold Cmult, RtoC; cbn [fst snd]; ring. }
    rewrite Hq. set (w := pr (W u m)). set (w' := pr (Cmult (vx d, vy d) (W u (m - 1)))).
    transitivity (c * w * vz d * (ha * r ^ m) - c * w * vdot u d * (ka * r * r ^ m) + c * h * w' * (INR m * r ^ (n - m) * r ^ (m - 1))); [ring|]. rewrite B1, B2, B3. ring. }
  assert (Fin : forall (pr : Complex.C -> R) (a0 a1 a2 yv : R), a0 = pr (Cmult (RtoC (INR m * c * h)) (W u (m - 1))) -> a1 = pr (Cmult (RtoC (INR m * c * h)) (Cmult (0, 1) (W u (m - 1)))) ->
     a2 = c * h1 * pr (W u m) -> yv = c * h * pr (W u m) -> (pr = fst \/ pr = snd) ->
     vdot (vadd (vscal r3 (functionalMatrix x (a0, a1, a2))) (if (n =? 0)%nat then (0, 0, 0) else vscal (yv * (if (n =? 1)%nat then 1 else INR n * r ^ (n - 1))) u)) d =
     r ^ n / r * (c * h1 * pr (W u m) * vz d - c * k1 * pr (W u m) * vdot u d + INR m * c * h * pr (Cmult (vx d, vy d) (W u (m - 1))))).
  { intros pr a0 a1 a2 yv E0 E1 E2 Ey Hpr.
    assert (Er : vdot (if (n =? 0)%nat then (0, 0, 0) else vscal (yv * (if (n =? 1)%nat then 1 else INR n * r ^ (n - 1))) u) d = yv * (INR n * r ^ n / r) * vdot u d).
    { rewrite <- Pn. destruct (n =? 0)%nat; [unfold vdot, vx, vy, vz; cbn [fst snd]; field; lra|]. set (kk := if (n =? 1)%nat then 1 else INR n * r ^ (n - 1)).
      transitivity (yv * kk * vdot u d); [unfold vdot, vscal, vx, vy, vz; cbn [fst snd]; ring|field; lra]. }
    assert (Ef : vdot (functionalMatrix x (a0, a1, a2)) d = r * r * ((a0 * vx d + a1 * vy d + a2 * vz d) - (vx u * a0 + vy u * a1 + vz u * a2) * vdot u d)).
    { unfold functionalMatrix. fold r. rewrite X1, X2, X3. unfold vdot, vx, vy, vz. cbn [fst snd]. ring. }
    assert (Ev : forall a b, vdot (vadd a b) d = vdot a d + vdot b d) by (intros; unfold vdot, vadd, vx, vy, vz; cbn [fst snd]; ring).
    assert (Es : forall a b, vdot (vscal a b) d = a * vdot b d) by (intros; unfold vdot, vscal, vx, vy, vz; cbn [fst snd]; ring).
    rewrite Ev, Es, Er, Ef. clear Ev Es Er Ef.
    assert (Eg : a0 * vx d + a1 * vy d = INR m * c * h * pr (Cmult (vx d, vy d) (W u (m - 1)))) by (rewrite E0, E1; destruct Hpr as [->| ->]; unfold Cmult, RtoC; cbn [fst snd]; ring).
    assert (Eu : vx u * a0 + vy u * a1 = INR m * c * h * pr (W u m)).
    { rewrite E0, E1. destruct Wm as [->|Wm]; [cbn [INR]; destruct Hpr as [->| ->]; unfold Cmult, RtoC; cbn [fst snd]; ring|]. rewrite Wm. destruct Hpr as [->| ->]; unfold Cmult, RtoC; cbn [fst snd]; ring. }
    rewrite Eg, Eu, E2, Ey. set (w := pr (W u m)). set (w' := pr (Cmult (vx d, vy d) (W u (m - 1)))).
    assert (K : k1 = vz u * h1 - (INR n - INR m) * h) by lra. rewrite K.
    assert (R3 : r3 * (r * r) = r ^ n / r) by (apply (Rmult_eq_reg_r r); [|lra]; rewrite PQ; field; lra).
    transitivity (r3 * (r * r) * (INR m * c * h * w' + c * h1 * w * vz d - (INR m * c * h * w + vz u * (c * h1 * w)) * vdot u d) + c * h * w * (INR n * r ^ n / r) * vdot u d); [ring|]. rewrite R3. field. lra. }
  assert (Yv : forall pr : Complex.C -> R, (pr = fst \/ pr = snd) -> pr (harmonic n m u) = c * h * pr (W u m)).
  { intros pr Hpr. rewrite harmonic_value. fold c h. destruct Hpr as [->| ->]; unfold Cmult, RtoC; cbn [fst snd]; ring. }
  split.
  - cbn [fst snd]. rewrite (Fin fst _ _ _ _ eq_refl); [apply Dc; left; reflexivity| | |apply Yv; left; reflexivity|left; reflexivity]; unfold Cmult, RtoC; cbn [fst snd]; ring.
  - cbn [fst snd]. rewrite (Fin snd _ _ _ _ eq_refl); [apply Dc; right; reflexivity| | |apply Yv; right; reflexivity|right; reflexivity]; unfold Cmult, RtoC; cbn [fst snd]; ring.
Qed.

Definition ggood (x : vec3) (st : list vec3) (n m : nat) : Prop := forall d,
  directional (fun z => fst (solid n m z)) x d (vdot (nth (n * n + n + m) st (0, 0, 0)) d) /\ directional (fun z => fst (solid n m z)) x d (vdot (nth (n * n + n - m) st (0, 0, 0)) d).
Lemma gstore : forall x st n m len v, (m <= n)%nat -> length st = len -> (n * n + n + m < len)%nat -> (forall d, directional (fun z => fst (solid n m z)) x d (vdot v d)) ->
  exists st', (st <- set st (n * n + n + m) v ;; if (0 <? m)%nat then set st (n * n + n - m) v else Some st) = Some st' /\ length st' = len /\ ggood x st' n m /\
    forall n' m', (m' <= n')%nat -> (n <> n' \/ m <> m') -> ggood x st n' m' -> ggood x st' n' m'.
Proof.
  intros x st n m len v Hm Hl Hi D. destruct (set_spec st (n * n + n + m) v ltac:(lia)) as [s1 [E1 [R1 V1]]]. rewrite E1. cbn [bind].
  destruct (Nat.ltb_spec 0 m) as [P|P].
  - destruct (set_spec s1 (n * n + n - m) v ltac:(lia)) as [s2 [E2 [R2 V2]]]. rewrite E2. exists s2. split; [reflexivity|]. split; [lia|]. split.
    + intros d. rewrite !V2, !V1, !Nat.eqb_refl. destruct (n * n + n + m =? n * n + n - m)%nat; split; apply D.
    + intros n' m' H' Q G d. destruct (level_index n m n' m' Hm H' Q) as [I1 [I2 [I3 I4]]]. specialize (G d). rewrite !V2, !V1.
      replace (n' * n' + n' + m' =? n * n + n - m)%nat with false by (symmetry; apply Nat.eqb_neq; lia). replace (n' * n' + n' + m' =? n * n + n + m)%nat with false by (symmetry; apply Nat.eqb_neq; lia).
      replace (n' * n' + n' - m' =? n * n + n - m)%nat with false by (symmetry; apply Nat.eqb_neq; lia). replace (n' * n' + n' - m' =? n * n + n + m)%nat with false by (symmetry; apply Nat.eqb_neq; lia). exact G.
  - exists s1. split; [reflexivity|]. split; [lia|]. split.
    + intros d. assert (m = 0)%nat by lia. subst m. rewrite Nat.add_0_r, Nat.sub_0_r in *. rewrite !V1, !Nat.eqb_refl. split; apply D.
    + intros n' m' H' Q G d. destruct (level_index n m n' m' Hm H' Q) as [I1 [I2 [I3 I4]]]. specialize (G d). rewrite !V1.
      replace (n' * n' + n' + m' =? n * n + n + m)%nat with false by (symmetry; apply Nat.eqb_neq; lia). replace (n' * n' + n' - m' =? n * n + n + m)%nat with false by (symmetry; apply Nat.eqb_neq; lia). exact G.
Qed.
Lemma gradient_table : forall junkL junk x N sv, x <> (0, 0, 0) -> (1 <= N)%nat -> length junkL = (((N + 1) * (N + 2)) / 2)%nat -> length junk = ((N + 1) * (N + 1))%nat ->
  length (fst sv) = ((N + 1) * (N + 1))%nat -> length (snd sv) = ((N + 1) * (N + 1))%nat ->
  (forall n m, (n <= N)%nat -> (m <= n)%nat -> good (vscal (1 / vnorm x) x) sv n m) ->
  exists st, Dsolid_harmonics_full junkL junk x N sv = Some st /\ length st = ((N + 1) * (N + 1))%nat /\ forall n m, (n <= N)%nat -> (m <= n)%nat -> ggood x st n m.
Proof.
  intros junkL junk x N [sr si] Xn HN HL Hj Hs1 Hs2 G. cbn [fst snd] in *. unfold Dsolid_harmonics_full. rewrite (norm_unit x Xn). cbn [bind fst snd].
  destruct (legendre_table junkL N (vz x / vnorm x) HN HL) as [L [EL [LL GL]]]. rewrite EL. cbn [bind].
  assert (Et : vz x / vnorm x = vz (vscal (1 / vnorm x) x)) by (unfold vscal, vz; cbn [fst snd]; unfold Rdiv; ring). rewrite Et in GL. set (u := vscal (1 / vnorm x) x) in *.
  set (len := ((N + 1) * (N + 1))%nat) in *. assert (Q : forall n m, (n <= N)%nat -> (m <= n)%nat -> (n * n + n + m < len)%nat) by (intros; unfold len; nia).
  match goal with |- exists st, for_opt (N + 1) ?B junk = _ /\ _ => destruct (for_opt_inv (fun k st => length st = len /\ forall n m, (n < k)%nat -> (m <= n)%nat -> ggood x st n m) (N + 1) B junk) as [st [E [I1 I2]]] end.
  - split; [exact Hj|lia].
  - intros n st Hn [Hl Gs]. 
    match goal with |- exists s', for_opt (n + 1) ?B st = _ /\ _ => destruct (for_opt_inv (fun j s => length s = len /\ (forall n' m', (n' < n)%nat -> (m' <= n')%nat -> ggood x s n' m') /\ forall m', (m' < j)%nat -> ggood x s n m') (n + 1) B st) as [s1 [F [F1 [F2 F3]]]] end.
    + split; [exact Hl|]. split; [exact Gs|lia].
    + intros m s Hm [Hs [Ga Gb]]. assert (Qm := Q n m ltac:(lia) ltac:(lia)). rewrite !get_some by lia. cbn [bind]. destruct (G n m ltac:(lia) ltac:(lia)) as [A1 [A2 _]]. cbn [fst snd] in A1, A2. rewrite A1, A2.
      destruct (solid_gradient x m n L Xn ltac:(lia)) as [g [Eg Dg]].
      { rewrite LL. destruct (Nat.eq_dec n N) as [->|D]; [lia|]. pose proof (tri_lt (n + 1) (N + 1) ltac:(lia)). lia. }
      { intros m' Hm'. apply GL; lia. }
      cbv zeta in Eg. fold u in Eg. rewrite Eg. cbn [bind].
      destruct (gstore x s n m len (fst g) ltac:(lia) Hs Qm (fun d => proj1 (Dg d))) as [s' [Es [Hs' [Gn Go]]]]. exists s'. split; [exact Es|]. split; [exact Hs'|]. split.
      * intros n' m' A B. apply Go; [exact B|lia|apply Ga; assumption].
      * intros m' A. destruct (Nat.eq_dec m' m) as [->|D]; [exact Gn|]. apply Go; [lia|lia|apply Gb; lia].
    + exists s1. split; [exact F|]. split; [exact F1|]. intros n' m' A B. destruct (Nat.eq_dec n' n) as [->|D]; [apply F3; lia|apply F2; lia].
  - exists st. split; [exact E|]. split; [exact I1|]. intros n m A B. apply I2; lia.
Qed.
