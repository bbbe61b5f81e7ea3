(** Entries of the basis interactions. *)
From Coq Require Import Reals Lra Lia Arith Bool List.
From Coquelicot Require Import Coquelicot.
From Verif Require Import RSum SpecBernstein ModelBase ModelBernstein ProofBernstein ModelBall ModelOperators SpecOperators ProofOperators PropOperators.
Import ListNotations.
Local Open Scope R_scope.

Lemma loop2_add : forall m n r s (f : nat -> nat -> R) (c : mat) k l,
  for_loop m (fun i c => for_loop n (fun j c => updm c (r + i)%nat (s + j)%nat (c (r + i)%nat (s + j)%nat + f i j)) c) c k l
  = if (((r <=? k) && (k <? r + m)) && ((s <=? l) && (l <? s + n)))%nat%bool then c k l + f (k - r)%nat (l - s)%nat else c k l.
Proof.
  assert (Inner : forall n r s i (f : nat -> R) (c : mat) k l,
    for_loop n (fun j c => updm c (r + i)%nat (s + j)%nat (c (r + i)%nat (s + j)%nat + f j)) c k l
    = if ((k =? r + i) && ((s <=? l) && (l <? s + n)))%nat%bool then c k l + f (l - s)%nat else c k l).
  { intros n r s i f c k l. induction n as [|n IH].
    - cbn [for_loop]. destruct (Nat.eqb_spec k (r + i)), (Nat.leb_spec s l), (Nat.ltb_spec l (s + 0)); cbn [andb]; reflexivity || lia.
    - cbn [for_loop]. unfold updm at 1. destruct (Nat.eqb_spec k (r + i)) as [Ek|Ek]; cbn [andb].
      + destruct (Nat.eqb_spec l (s + n)) as [El|El].
        * rewrite Ek, El in *. rewrite IH. rewrite ?Nat.eqb_refl. destruct (Nat.leb_spec s (s + n)); [|lia]. destruct (Nat.ltb_spec (s + n) (s + n)); [lia|]. destruct (Nat.ltb_spec (s + n) (s + S n)); [|lia].
          cbn [andb]. replace (s + n - s)%nat with n by lia. reflexivity.
        * rewrite IH. rewrite ?(proj2 (Nat.eqb_eq k (r + i)) Ek). destruct (Nat.leb_spec s l), (Nat.ltb_spec l (s + n)), (Nat.ltb_spec l (s + S n)); cbn [andb]; try reflexivity; lia.
      + rewrite IH. rewrite ?(proj2 (Nat.eqb_neq k (r + i)) Ek). reflexivity. }
  intros m n r s f c k l. induction m as [|m IH].
  - cbn [for_loop]. destruct (Nat.leb_spec r k), (Nat.ltb_spec k (r + 0)), (Nat.leb_spec s l), (Nat.ltb_spec l (s + n)); cbn [andb]; reflexivity || lia.
  - cbn [for_loop]. rewrite Inner, IH.
    destruct (Nat.eqb_spec k (r + m)), (Nat.leb_spec r k), (Nat.ltb_spec k (r + m)), (Nat.ltb_spec k (r + S m)), (Nat.leb_spec s l), (Nat.ltb_spec l (s + n)); cbn [andb]; try reflexivity; try lia.
    subst k. replace (r + m - r)%nat with m by lia. reflexivity.
Qed.
Lemma loop_congr : forall {S} n (f g : nat -> S -> S) s, (forall i s, (i < n)%nat -> f i s = g i s) -> for_loop n f s = for_loop n g s.
Proof. intros S n f g s H. induction n as [|n IH]; [reflexivity|]. cbn [for_loop]. rewrite IH by (intros; apply H; lia). apply H. lia. Qed.
Lemma curl_loop : forall n (f : nat -> nat -> R) (c : mat) k l, (k < n)%nat -> (l < n)%nat ->
  for_loop n (fun j m => for_loop n (fun i m =>
    let q := (j * n + i)%nat in updm m (q mod n)%nat (q / n)%nat (m (q mod n)%nat (q / n)%nat + f i j)) m) c k l = c k l + f k l.
Proof.
  intros n f c k l Hk Hl.
  assert (Inner : forall q j (c : mat), (q <= n)%nat -> (j < n)%nat -> for_loop q (fun i m => let q := (j * n + i)%nat in updm m (q mod n)%nat (q / n)%nat (m (q mod n)%nat (q / n)%nat + f i j)) c k l
    = if ((k <? q) && (l =? j))%nat%bool then c k l + f k l else c k l).
  { intros q j c0 Hq Hj. induction q as [|q IH]; [reflexivity|]. cbn [for_loop]. cbv zeta.
    assert (D : ((j * n + q) / n = j)%nat) by (rewrite Nat.div_add_l, Nat.div_small by lia; lia).
    assert (M : ((j * n + q) mod n = q)%nat) by (rewrite Nat.add_comm, Nat.mod_add, Nat.mod_small by lia; reflexivity).
    rewrite D, M. unfold updm at 1. cbv zeta in IH. 
    destruct (Nat.eqb_spec k q) as [E|E], (Nat.eqb_spec l j) as [E'|E']; cbn [andb].
    - subst q j. rewrite IH by lia. destruct (Nat.ltb_spec k k); [lia|]. destruct (Nat.ltb_spec k (S k)); [|lia]. cbn [andb]. rewrite ?Nat.eqb_refl. reflexivity.
    - rewrite IH by lia. rewrite !andb_false_r. reflexivity.
    - rewrite IH by lia. destruct (Nat.ltb_spec k q), (Nat.ltb_spec k (S q)); cbn [andb]; reflexivity || lia.
    - rewrite IH by lia. rewrite !andb_false_r. reflexivity. }
  assert (Outer : forall q (c : mat), (q <= n)%nat -> for_loop q (fun j m => for_loop n (fun i m => let q := (j * n + i)%nat in updm m (q mod n)%nat (q / n)%nat (m (q mod n)%nat (q / n)%nat + f i j)) m) c k l
    = if (l <? q)%nat then c k l + f k l else c k l).
  { intros q c0 Hq. cbv zeta in Inner |- *. induction q as [|q IH]; [reflexivity|]. cbn [for_loop]. rewrite Inner by lia. rewrite IH by lia.
    destruct (Nat.ltb_spec k n); [|lia]. cbn [andb]. destruct (Nat.eqb_spec l q), (Nat.ltb_spec l q), (Nat.ltb_spec l (S q)); reflexivity || lia. }
  rewrite Outer by lia. destruct (Nat.ltb_spec l n); [reflexivity|lia].
Qed.
Lemma curl_value : forall ss w p1 p2 m i j, (i < ss_n2 ss)%nat -> (j < ss_n2 ss)%nat ->
  addScaledSurfaceCurlInteraction ss w p1 p2 m i j = m i j + w * vdot (surface_curl ss p1 i) (surface_curl ss p2 j).
Proof. intros ss w p1 p2 m i j Hi Hj. unfold addScaledSurfaceCurlInteraction. cbv zeta. exact (curl_loop (ss_n2 ss) (fun i j => w * vdot (surface_curl ss p1 i) (surface_curl ss p2 j)) m i j Hi Hj). Qed.
Lemma block_value : forall n r c v B m k l, block_add n r c v B m k l =
  if (((r <=? k) && (k <? r + n)) && ((c <=? l) && (l <? c + n)))%nat%bool then m k l + v * B (k - r)%nat (l - c)%nat else m k l.
Proof. intros. exact (loop2_add n n r c (fun i j => v * B i j) m k l). Qed.

(** the derivatives of the shape functions *)
Lemma dx_value : forall ss s i, (i < ss_n2 ss)%nat -> basisDx ss s i = dbern (ss_p ss) (i mod (ss_p ss + 1)) (fst s) * bern (ss_p ss) (i / (ss_p ss + 1)) (snd s).
Proof.
  intros ss s i Hi. destruct (split_index _ i Hi) as [Ei [A1 A2]]. unfold basisDx. rewrite Ei at 1. rewrite phiphi_dx_spec by assumption. unfold zero_arr. ring.
Qed.
Lemma dy_value : forall ss s i, (i < ss_n2 ss)%nat -> basisDy ss s i = bern (ss_p ss) (i mod (ss_p ss + 1)) (fst s) * dbern (ss_p ss) (i / (ss_p ss + 1)) (snd s).
Proof.
  intros ss s i Hi. destruct (split_index _ i Hi) as [Ei [A1 A2]]. unfold basisDy. rewrite Ei at 1. rewrite phiphi_dy_spec by assumption. unfold zero_arr. ring.
Qed.
Lemma psi_true : forall p psi m s, shape_values p psi -> (m <= p)%nat -> psi true m s = dbern p m s.
Proof. intros p psi m s [_ D] H. eapply uniqueness_limite; [apply D, H|apply bern_derivable; assumption]. Qed.
Lemma component_plain : forall p h psi i s, shape_values p psi -> component p h psi (false, false) i s = shape p i s.
Proof. intros p h psi i s [P _]. unfold component, shape. cbn [fst snd]. rewrite !P. ring. Qed.
Lemma component_dx : forall ss psi i s, shape_values (ss_p ss) psi -> (i < ss_n2 ss)%nat -> component (ss_p ss) (ss_h ss) psi (true, false) i s = basisDx ss s i / ss_h ss.
Proof.
  intros ss psi i s P Hi. destruct (split_index _ i Hi) as [Ei [A1 A2]]. unfold component. cbn [fst snd]. rewrite (psi_true _ _ _ _ P A2), (proj1 P), dx_value by assumption. unfold Rdiv. ring.
Qed.
Lemma component_dy : forall ss psi i s, shape_values (ss_p ss) psi -> (i < ss_n2 ss)%nat -> component (ss_p ss) (ss_h ss) psi (false, true) i s = basisDy ss s i / ss_h ss.
Proof.
  intros ss psi i s P Hi. destruct (split_index _ i Hi) as [Ei [A1 A2]]. unfold component. cbn [fst snd]. rewrite (psi_true _ _ _ _ P A1), (proj1 P), dy_value by assumption. unfold Rdiv. ring.
Qed.
Lemma h_pos : forall ss, 0 < ss_h ss.
Proof. intros ss. unfold ss_h. apply Rdiv_lt_0_compat; [lra|]. apply pow_lt. lra. Qed.
(** the inner product of two curls *)
Lemma curl_dot : forall ss p1 p2 i j, p_kappa p1 <> 0 -> p_kappa p2 <> 0 ->
  p_kappa p1 * p_kappa p2 * vdot (surface_curl ss p1 i) (surface_curl ss p2 j) =
  vdot (p_dy p1) (p_dy p2) * basisDx ss (p_s p1) i * basisDx ss (p_s p2) j - vdot (p_dy p1) (p_dx p2) * basisDx ss (p_s p1) i * basisDy ss (p_s p2) j
  - vdot (p_dx p1) (p_dy p2) * basisDy ss (p_s p1) i * basisDx ss (p_s p2) j + vdot (p_dx p1) (p_dx p2) * basisDy ss (p_s p1) i * basisDy ss (p_s p2) j.
Proof.
  intros ss p1 p2 i j H1 H2. unfold surface_curl. set (k1 := p_kappa p1) in *. set (k2 := p_kappa p2) in *. clearbody k1 k2.
  generalize (basisDx ss (p_s p1) i) (basisDy ss (p_s p1) i) (basisDx ss (p_s p2) j) (basisDy ss (p_s p2) j). intros a b c d.
  unfold vdot, vscal, vadd, vx, vy, vz; cbn [fst snd]. field. split; assumption.
Qed.
