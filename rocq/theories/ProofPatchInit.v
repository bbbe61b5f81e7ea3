(** Construction and cutting of patches (C42, C43). *)
From Coq Require Import Reals Lra Lia Arith List ZArith Sorting Bool.
From Verif Require Import RSum ModelBase ModelBernstein SpecBernstein ProofBernstein ModelKnots ProofKnots
  ModelDeBoor SpecDeBoor ModelPatch SpecPatch ProofPatch.
Import ListNotations.
Local Open Scope R_scope.

(** ** Unroll *)
Lemma rect_cols : forall rows cols M, rectangular rows cols M -> (0 < rows)%nat -> m_cols M = cols /\ m_rows M = rows.
Proof.
  intros rows cols M [L R] Hr. unfold m_cols, m_rows. split; [|assumption]. destruct M as [|r M]; [simpl in L; lia|].
  apply R. left. reflexivity.
Qed.

Lemma rect_get : forall rows cols M j i, rectangular rows cols M -> (j < rows)%nat -> (i < cols)%nat ->
  (row <- get M j ;; get row i) = Some (entry M j i).
Proof.
  intros rows cols M j i [L R] Hj Hi. rewrite (get_nth M j []) by lia. cbn [bind].
  rewrite (get_nth _ i 0); [reflexivity|]. rewrite (R (nth j M [])); [assumption|]. apply nth_In. lia.
Qed.

Lemma Unroll_spec : forall rows cols M, rectangular rows cols M -> (0 < rows)%nat ->
  exists out, Unroll M = Some out /\ length out = (cols * rows)%nat
    /\ forall i j, (i < cols)%nat -> (j < rows)%nat -> nth (i * rows + j) out 0 = entry M j i.
Proof.
  intros rows cols M Rc Hr. destruct (rect_cols rows cols M Rc Hr) as [Ec Er]. unfold Unroll. rewrite Ec, Er.
  destruct (for_opt_inv (fun i (out : list R) => length out = (cols * rows)%nat
      /\ forall a b, (a < i)%nat -> (b < rows)%nat -> nth (a * rows + b) out 0 = entry M b a) cols
     (fun i out => for_opt rows (fun j out => row <- get M j ;; v <- get row i ;; set out (i * rows + j)%nat v) out)
     (repeat 0 (cols * rows))) as [out [E [L I]]].
  - split; [apply repeat_length|]. intros; lia.
  - intros i s Hi [L I].
    destruct (for_opt_inv (fun j (out : list R) => length out = (cols * rows)%nat
        /\ (forall a b, (a < i)%nat -> (b < rows)%nat -> nth (a * rows + b) out 0 = entry M b a)
        /\ (forall b, (b < j)%nat -> nth (i * rows + b) out 0 = entry M b i)) rows
       (fun j out => row <- get M j ;; v <- get row i ;; set out (i * rows + j)%nat v) s) as [out [E [L' [I' J]]]].
    + split; [assumption|]. split; [assumption|]. intros; lia.
    + intros j u Hj [L' [I' J]].
      pose proof (rect_get rows cols M j i Rc Hj Hi) as G. apply bind_some in G. destruct G as [row [G1 G2]].
      rewrite G1. cbn [bind]. rewrite G2. cbn [bind].
      destruct (set_spec u (i * rows + j)%nat (entry M j i)) as [u' [E [L2 N]]]; [rewrite L'; nia|].
      exists u'. split; [exact E|]. split; [congruence|]. split.
      * intros a b Ha Hb. rewrite N. destruct (Nat.eqb_spec (a * rows + b) (i * rows + j)); [nia|apply I'; assumption].
      * intros b Hb. rewrite N. destruct (Nat.eqb_spec (i * rows + b) (i * rows + j)) as [Q|Q].
        -- replace b with j by lia. reflexivity.
        -- apply J. lia.
    + exists out. split; [exact E|]. split; [assumption|]. intros a b Ha Hb.
      destruct (Nat.eq_dec a i) as [->|]; [apply J; assumption|apply I'; lia].
  - exists out. split; [exact E|]. split; assumption.
Qed.

Lemma store_spec : forall i tmp data, (i < 4)%nat -> length data = (4 * length tmp)%nat ->
  exists data', store_component i tmp data = Some data' /\ length data' = length data
    /\ forall j k, (j < length tmp)%nat -> (k < 4)%nat ->
         nth (4 * j + k) data' 0 = if (k =? i)%nat then nth j tmp 0 else nth (4 * j + k) data 0.
Proof.
  intros i tmp data Hi L. unfold store_component.
  destruct (for_opt_inv (fun m (d : list R) => length d = length data
     /\ forall j k, (j < length tmp)%nat -> (k < 4)%nat ->
         nth (4 * j + k) d 0 = if ((k =? i) && (j <? m))%nat%bool then nth j tmp 0 else nth (4 * j + k) data 0)
     (length tmp) (fun j data => v <- get tmp j ;; set data (j * 4 + i)%nat v) data) as [d [E [L' I]]].
  - split; [reflexivity|]. intros j k _ _. rewrite andb_false_r. reflexivity.
  - intros m s Hm [Ls Is]. rewrite (get_nth tmp m 0) by assumption. cbn [bind].
    destruct (set_spec s (m * 4 + i)%nat (nth m tmp 0)) as [s' [E [L' N]]]; [lia|].
    exists s'. split; [exact E|]. split; [congruence|]. intros j k Hj Hk. rewrite N.
    destruct (Nat.eqb_spec (4 * j + k) (m * 4 + i)) as [Q|Q].
    + assert (j = m /\ k = i) as [-> ->] by lia. rewrite Nat.eqb_refl. destruct (Nat.ltb_spec m (S m)); [reflexivity|lia].
    + rewrite Is by assumption. destruct (Nat.eqb_spec k i) as [->|]; [|reflexivity]. cbn [andb].
      destruct (Nat.ltb_spec j m), (Nat.ltb_spec j (S m)); try reflexivity; lia.
  - exists d. split; [exact E|]. split; [assumption|]. intros j k Hj Hk. rewrite I by assumption.
    destruct (Nat.ltb_spec j (length tmp)); [|lia]. rewrite andb_true_r. reflexivity.
Qed.

(** storing four components *)
Lemma store_four : forall (f : nat -> option (list R)) n data, length data = (4 * n)%nat ->
  (forall k, (k < 4)%nat -> exists tmp, f k = Some tmp /\ length tmp = n) ->
  exists data', for_opt 4 (fun i data => tmp <- f i ;; store_component i tmp data) data = Some data'
    /\ length data' = (4 * n)%nat
    /\ forall k tmp j, (k < 4)%nat -> f k = Some tmp -> (j < n)%nat -> nth (4 * j + k) data' 0 = nth j tmp 0.
Proof.
  intros f n data L F.
  destruct (for_opt_inv (fun m (d : list R) => length d = (4 * n)%nat
     /\ forall k tmp j, (k < 4)%nat -> (k < m)%nat -> f k = Some tmp -> (j < n)%nat -> nth (4 * j + k) d 0 = nth j tmp 0)
     4 (fun i data => tmp <- f i ;; store_component i tmp data) data) as [d [E [L' I]]].
  - split; [assumption|]. intros; lia.
  - intros i s Hi [Ls Is]. destruct (F i Hi) as [tmp [Ef Lt]]. rewrite Ef. cbn [bind].
    destruct (store_spec i tmp s Hi) as [d [E [Ld Id]]]; [lia|]. exists d. split; [exact E|]. split; [lia|].
    intros k tmp' j Hk Hm Ef' Hj. rewrite Id by lia. destruct (Nat.eqb_spec k i) as [->|].
    + congruence.
    + apply Is; try assumption. lia.
  - exists d. split; [exact E|]. split; [assumption|]. intros k tmp j Hk Ef Hj. apply (I k tmp j); assumption.
Qed.

(** ** Bezier patches *)
Lemma unique_bezier : forall p, (1 <= p)%nat -> ExtractUniqueKnotVector (MakeBezierKnotVector p) = Some [0; 1].
Proof.
  intros p Hp. unfold MakeBezierKnotVector.
  assert (E : forall n (l : list R) x, for_loop n (fun _ out => push_back out x) l = l ++ repeat x n).
  { intros n l x. induction n as [|n IH]; [symmetry; apply app_nil_r|]. cbn [for_loop]. rewrite IH. unfold push_back.
    rewrite <- app_assoc. f_equal. replace (S n) with (n + 1)%nat by lia. rewrite repeat_app. reflexivity. }
  rewrite !E. cbn [app]. destruct p as [|p]; [lia|]. cbn [repeat app ExtractUniqueKnotVector]. f_equal. unfold push_back at 1. cbn [app].
  assert (Z : forall n l out, unique_loop 0 (repeat 0 n ++ l) out = unique_loop 0 l out).
  { induction n as [|n IH]; intros l out; [reflexivity|]. cbn [repeat app unique_loop].
    destruct Rlt_dec; [unfold generic_tolerance in *; lra|]. apply IH. }
  assert (O : forall n out, unique_loop 1 (repeat 1 n) out = out).
  { induction n as [|n IH]; intros out; [reflexivity|]. cbn [repeat unique_loop].
    destruct Rlt_dec; [unfold generic_tolerance in *; lra|]. apply IH. }
  rewrite Z. cbn [repeat unique_loop]. destruct Rlt_dec; [|unfold generic_tolerance in *; lra].
  rewrite O. reflexivity.
Qed.

Lemma bezier_length : forall p, length (MakeBezierKnotVector p) = (2 * p)%nat.
Proof.
  intros p. pose proof (uniform_shape p 0 0) as U. cbv zeta in U. destruct U as [U _].
  rewrite (proj1 (bezier_is_uniform p)). rewrite U. lia.
Qed.

Lemma init_bezier : forall inv junk xyzw kx ky p q,
  length xyzw = 4%nat -> (forall M, In M xyzw -> rectangular q p M) -> (1 <= p)%nat -> (1 <= q)%nat ->
  length kx = (2 * p)%nat -> length ky = (2 * q)%nat ->
  ExtractUniqueKnotVector kx = Some [0; 1] -> ExtractUniqueKnotVector ky = Some [0; 1] ->
  exists data, init_Patch inv junk xyzw kx ky = Some (Patch data p q [0; 1] [0; 1])
    /\ length data = (4 * (p * q))%nat
    /\ forall k i j, (k < 4)%nat -> (i < p)%nat -> (j < q)%nat ->
         nth (4 * (i * q + j) + k) data 0 = entry (nth k xyzw []) j i.
Proof.
  intros inv junk xyzw kx ky p q L4 Rc Hp Hq Lx Ly Ux Uy. unfold init_Patch. rewrite L4. cbn [Nat.eqb assert bind].
  assert (G : forall k, (k < 4)%nat -> get xyzw k = Some (nth k xyzw [])) by (intros; apply get_nth; lia).
  assert (Rk : forall k, (k < 4)%nat -> rectangular q p (nth k xyzw [])) by (intros; apply Rc, nth_In; lia).
  rewrite (G 0%nat) by lia. cbn [bind]. rewrite Ux, Uy. cbn [bind].
  destruct (rect_cols q p (nth 0 xyzw []) (Rk 0%nat ltac:(lia)) ltac:(lia)) as [Ec Er]. rewrite Ec, Er, Lx, Ly.
  replace (p <=? 2 * p)%nat with true by (symmetry; apply Nat.leb_le; lia).
  replace (q <=? 2 * q)%nat with true by (symmetry; apply Nat.leb_le; lia). cbn [assert bind].
  replace (2 * p - p)%nat with p by lia. replace (2 * q - q)%nat with q by lia.
  cbn [length Nat.eqb andb Nat.sub]. rewrite !Nat.mul_1_r.
  destruct (store_four (fun i => M <- get xyzw i ;; Unroll M) (p * q) (repeat 0 (4 * (p * q)))) as [data [E [L I]]].
  - apply repeat_length.
  - intros k Hk. rewrite (G k Hk). cbn [bind]. destruct (Unroll_spec q p (nth k xyzw []) (Rk k Hk) ltac:(lia)) as [o [Eo [Lo _]]].
    exists o. auto.
  - exists data.
    assert (E2 : for_opt 4 (fun i data => M <- get xyzw i ;; tmp <- Unroll M ;; store_component i tmp data)
                   (repeat 0 (4 * (p * q))) = Some data).
    { rewrite <- E. cbn [for_opt bind]. rewrite !G by lia. cbn [bind]. reflexivity. }
    rewrite E2. cbn [bind]. split; [reflexivity|]. split; [assumption|]. intros k i j Hk Hi Hj.
    destruct (Unroll_spec q p (nth k xyzw []) (Rk k Hk) ltac:(lia)) as [o [Eo [Lo Io]]].
    rewrite (I k o (i * q + j)%nat Hk); [apply Io; assumption| |nia]. rewrite (G k Hk). exact Eo.
Qed.

(** ** cutting *)
Lemma nth_skipn0 : forall (l : list R) a m, nth m (skipn a l) 0 = nth (a + m) l 0.
Proof.
  induction l as [|x l IH]; intros a m; [rewrite skipn_nil; destruct m; destruct a; reflexivity|].
  destruct a as [|a]; [reflexivity|]. simpl. apply IH.
Qed.

Lemma push_four : forall data dx dy ux uy a out index piece,
  nth_error out index = Some piece -> p_degx piece = dx -> p_degy piece = dy -> p_knx piece = ux -> p_kny piece = uy ->
  (a + 4 <= length data)%nat ->
  exists out', for_opt 4 (fun k out =>
              d <- get data (a + k)%nat ;;
              piece <- get out index ;;
              set out index (Patch (p_data piece ++ [d]) (p_degx piece) (p_degy piece) (p_knx piece) (p_kny piece))) out = Some out'
    /\ length out' = length out
    /\ nth_error out' index = Some (Patch (p_data piece ++ firstn 4 (skipn a data)) dx dy ux uy)
    /\ forall j, j <> index -> nth_error out' j = nth_error out j.
Proof.
  intros data dx dy ux uy a out index piece Hp Ex Ey Ekx Eky La.
  assert (Li : (index < length out)%nat) by (apply nth_error_Some; congruence).
  destruct (for_opt_inv (fun m (o : list patch) => length o = length out
      /\ nth_error o index = Some (Patch (p_data piece ++ firstn m (skipn a data)) dx dy ux uy)
      /\ forall j, j <> index -> nth_error o j = nth_error out j) 4
      (fun k out => d <- get data (a + k)%nat ;; piece <- get out index ;;
              set out index (Patch (p_data piece ++ [d]) (p_degx piece) (p_degy piece) (p_knx piece) (p_kny piece))) out)
    as [o [E I]].
  - split; [reflexivity|]. split; [|auto]. cbn [firstn]. rewrite app_nil_r. rewrite Hp. f_equal. subst. destruct piece; reflexivity.
  - intros m s Hm [Ls [Is Js]]. rewrite (get_nth data (a + m) 0) by lia. cbn [bind]. unfold get. rewrite Is. cbn [bind p_data p_degx p_degy p_knx p_kny].
    destruct (set_spec s index (Patch ((p_data piece ++ firstn m (skipn a data)) ++ [nth (a + m) data 0]) dx dy ux uy)) as [s' [E [L N]]]; [lia|].
    exists s'. split; [exact E|]. split; [lia|]. split.
    + rewrite (nth_error_nth' s' (Patch [] 0 0 [] [])) by lia. rewrite N, Nat.eqb_refl. f_equal. f_equal.
      rewrite <- app_assoc. f_equal.
      assert (Q : forall (l : list R) m, (m < length l)%nat -> firstn (S m) l = firstn m l ++ [nth m l 0]).
      { clear. induction l as [|x l IH]; intros m Hm; simpl in Hm; [lia|]. destruct m as [|m]; [reflexivity|].
        cbn [firstn app nth]. f_equal. apply IH. lia. }
      rewrite Q by (rewrite skipn_length; lia). f_equal. f_equal.
      rewrite nth_skipn0. reflexivity.
    + intros j Hj. rewrite <- Js by assumption. destruct (lt_dec j (length s)).
      * rewrite !(nth_error_nth' _ (Patch [] 0 0 [] [])) by lia. rewrite N. destruct (Nat.eqb_spec j index); [contradiction|reflexivity].
      * rewrite !(proj2 (nth_error_None _ _)) by lia. reflexivity.
  - exists o. split; [exact E|]. exact I.
Qed.

(** the entries of piece (ix, iy): the m-th control point, m = jx * yp + jy *)
Definition chunk (P : patch) (ix iy m : nat) : list R :=
  firstn 4 (skipn (accs P ix iy (m / p_degy P) (m mod p_degy P)) (p_data P)).
Definition chunks (P : patch) (ix iy n : nat) : list R := flat_map (chunk P ix iy) (seq 0 n).
Definition piece (P : patch) (ix iy n : nat) : patch :=
  Patch (chunks P ix iy n) (p_degx P) (p_degy P) [0; 1] [0; 1].

Lemma chunks_S : forall P ix iy n, chunks P ix iy (S n) = chunks P ix iy n ++ chunk P ix iy n.
Proof.
  intros. unfold chunks. rewrite seq_S, flat_map_app. simpl. rewrite app_nil_r. reflexivity.
Qed.

Lemma chunk_length : forall P ix iy m, patch_ok P -> (ix < length (p_knx P) - 1)%nat -> (iy < length (p_kny P) - 1)%nat ->
  (m < p_degx P * p_degy P)%nat -> length (chunk P ix iy m) = 4%nat.
Proof.
  intros P ix iy m H Hx Hy Hm. unfold chunk. rewrite firstn_length, skipn_length.
  pose proof (pk_degy P H). assert (m / p_degy P < p_degx P)%nat by (apply Nat.div_lt_upper_bound; lia).
  assert (m mod p_degy P < p_degy P)%nat by (apply Nat.mod_upper_bound; lia).
  pose proof (accs_range P ix iy (m / p_degy P) (m mod p_degy P) 3 H Hx Hy H1 H2 ltac:(lia)). lia.
Qed.

Lemma chunks_length : forall P ix iy n, patch_ok P -> (ix < length (p_knx P) - 1)%nat -> (iy < length (p_kny P) - 1)%nat ->
  (n <= p_degx P * p_degy P)%nat -> length (chunks P ix iy n) = (4 * n)%nat.
Proof.
  intros P ix iy n H Hx Hy. induction n as [|n IH]; intros Hn; [reflexivity|].
  rewrite chunks_S, app_length, IH, chunk_length by (assumption || lia). lia.
Qed.

Lemma chunks_nth : forall P ix iy n m k, patch_ok P -> (ix < length (p_knx P) - 1)%nat -> (iy < length (p_kny P) - 1)%nat ->
  (n <= p_degx P * p_degy P)%nat -> (m < n)%nat -> (k < 4)%nat ->
  nth (4 * m + k) (chunks P ix iy n) 0 = nth (accs P ix iy (m / p_degy P) (m mod p_degy P) + k) (p_data P) 0.
Proof.
  intros P ix iy n m k H Hx Hy Hn Hm Hk. induction n as [|n IH]; [lia|]. rewrite chunks_S.
  destruct (Nat.eq_dec m n) as [->|].
  - rewrite app_nth2; rewrite chunks_length by (assumption || lia); [|lia].
    replace (4 * n + k - 4 * n)%nat with k by lia. unfold chunk.
    assert (Q : forall (l : list R) a k, (k < a)%nat -> nth k (firstn a l) 0 = nth k l 0).
    { clear. induction l as [|x l IH]; intros a k Hk; [rewrite firstn_nil; reflexivity|]. destruct a; [lia|].
      destruct k; [reflexivity|]. simpl. apply IH. lia. }
    rewrite Q by assumption. apply nth_skipn0.
  - rewrite app_nth1 by (rewrite chunks_length by (assumption || lia); lia). apply IH; lia.
Qed.

Lemma chunks_loop : forall P ix iy out index, patch_ok P -> (ix < length (p_knx P) - 1)%nat -> (iy < length (p_kny P) - 1)%nat ->
  nth_error out index = Some (piece P ix iy 0) ->
  exists out', for_opt (p_degx P) (fun jx out =>
          for_opt (p_degy P) (fun jy out =>
            let accs := (4 * ((length (p_kny P) - 1) * p_degy P * (p_degx P * ix + jx) + p_degy P * iy + jy))%nat in
            for_opt 4 (fun k out =>
              d <- get (p_data P) (accs + k)%nat ;;
              piece <- get out index ;;
              set out index (Patch (p_data piece ++ [d]) (p_degx piece) (p_degy piece) (p_knx piece) (p_kny piece)))
              out) out) out = Some out'
    /\ length out' = length out
    /\ nth_error out' index = Some (piece P ix iy (p_degx P * p_degy P))
    /\ forall j, j <> index -> nth_error out' j = nth_error out j.
Proof.
  intros P ix iy out index H Hx Hy H0.
  destruct (for_opt_inv (fun jx (o : list patch) => length o = length out
     /\ nth_error o index = Some (piece P ix iy (jx * p_degy P))
     /\ forall j, j <> index -> nth_error o j = nth_error out j) (p_degx P)
     (fun jx out =>
          for_opt (p_degy P) (fun jy out =>
            let accs := (4 * ((length (p_kny P) - 1) * p_degy P * (p_degx P * ix + jx) + p_degy P * iy + jy))%nat in
            for_opt 4 (fun k out =>
              d <- get (p_data P) (accs + k)%nat ;;
              piece <- get out index ;;
              set out index (Patch (p_data piece ++ [d]) (p_degx piece) (p_degy piece) (p_knx piece) (p_kny piece)))
              out) out) out) as [o [E I]].
  - split; [reflexivity|]. split; [exact H0|auto].
  - intros jx s Hjx [Ls [Is Js]].
    destruct (for_opt_inv (fun jy (o : list patch) => length o = length out
       /\ nth_error o index = Some (piece P ix iy (jx * p_degy P + jy))
       /\ forall j, j <> index -> nth_error o j = nth_error out j) (p_degy P)
       (fun jy out =>
            let accs := (4 * ((length (p_kny P) - 1) * p_degy P * (p_degx P * ix + jx) + p_degy P * iy + jy))%nat in
            for_opt 4 (fun k out =>
              d <- get (p_data P) (accs + k)%nat ;;
              piece <- get out index ;;
              set out index (Patch (p_data piece ++ [d]) (p_degx piece) (p_degy piece) (p_knx piece) (p_kny piece)))
              out) s) as [o [E [L1 [I1 J1]]]].
    + split; [assumption|]. split; [rewrite Nat.add_0_r; exact Is|assumption].
    + intros jy u Hjy [Lu [Iu Ju]]. cbv zeta.
      pose proof (accs_range P ix iy jx jy 3 H Hx Hy Hjx Hjy ltac:(lia)) as Hr. unfold accs in Hr.
      destruct (push_four (p_data P) (p_degx P) (p_degy P) [0; 1] [0; 1]
        (4 * ((length (p_kny P) - 1) * p_degy P * (p_degx P * ix + jx) + p_degy P * iy + jy)) u index _ Iu
        eq_refl eq_refl eq_refl eq_refl ltac:(lia)) as [o [E [L1 [I1 J1]]]].
      exists o. split; [exact E|]. split; [lia|]. split.
      * rewrite I1. f_equal. unfold piece. cbn [p_data]. f_equal.
        replace (jx * p_degy P + S jy)%nat with (S (jx * p_degy P + jy)) by lia. rewrite chunks_S. f_equal.
        unfold chunk, accs. cbv zeta.
        rewrite Nat.div_add_l by lia. rewrite (Nat.div_small jy) by assumption.
        replace ((jx * p_degy P + jy) mod p_degy P)%nat with jy
          by (rewrite Nat.add_comm, Nat.mod_add by lia; symmetry; apply Nat.mod_small; assumption).
        rewrite Nat.add_0_r. reflexivity.
      * intros j Hj. rewrite J1 by assumption. apply Ju. assumption.
    + exists o. split; [exact E|]. split; [assumption|]. split; [|assumption].
      rewrite I1. f_equal. f_equal. lia.
  - exists o. split; [exact E|]. exact I.
Qed.

Lemma shred_spec : forall P, patch_ok P -> ~ (length (p_kny P) = 2%nat /\ length (p_knx P) = 2%nat) ->
  exists out, PatchShredder P = Some out
    /\ length out = ((length (p_knx P) - 1) * (length (p_kny P) - 1))%nat
    /\ forall ix iy, (ix < length (p_knx P) - 1)%nat -> (iy < length (p_kny P) - 1)%nat ->
         nth_error out (ix * (length (p_kny P) - 1) + iy) = Some (piece P ix iy (p_degx P * p_degy P)).
Proof.
  intros P H N. unfold PatchShredder.
  replace ((length (p_kny P) =? 2) && (length (p_knx P) =? 2))%nat%bool with false.
  2:{ symmetry. apply andb_false_iff. destruct (Nat.eqb_spec (length (p_kny P)) 2); [|left; reflexivity].
      right. apply Nat.eqb_neq. intros Q. apply N. auto. }
  cbv zeta.
  set (nx := (length (p_knx P) - 1)%nat) in *. set (ny := (length (p_kny P) - 1)%nat) in *.
  set (inner := fun ix iy (out : list patch) => for_opt (p_degx P) (fun jx out =>
          for_opt (p_degy P) (fun jy out =>
            for_opt 4 (fun k out =>
              d <- get (p_data P) (4 * (ny * p_degy P * (p_degx P * ix + jx) + p_degy P * iy + jy) + k)%nat ;;
              piece <- get out (ix * ny + iy)%nat ;;
              set out (ix * ny + iy)%nat (Patch (p_data piece ++ [d]) (p_degx piece) (p_degy piece) (p_knx piece) (p_kny piece)))
              out) out) out).
  set (e0 := Patch [] (p_degx P) (p_degy P) [0; 1] [0; 1]).
  assert (Step : forall ix iy out, (ix < nx)%nat -> (iy < ny)%nat -> nth_error out (ix * ny + iy) = Some e0 ->
     exists out', inner ix iy out = Some out' /\ length out' = length out
       /\ nth_error out' (ix * ny + iy) = Some (piece P ix iy (p_degx P * p_degy P))
       /\ forall j, j <> (ix * ny + iy)%nat -> nth_error out' j = nth_error out j).
  { intros ix iy out Hx Hy H0. apply (chunks_loop P ix iy out (ix * ny + iy) H Hx Hy). exact H0. }

  destruct (for_opt_inv (fun n (out : list patch) => length out = (nx * ny)%nat
      /\ (forall ix iy, (ix < n)%nat -> (iy < ny)%nat -> nth_error out (ix * ny + iy) = Some (piece P ix iy (p_degx P * p_degy P)))
      /\ (forall m, (n * ny <= m < nx * ny)%nat -> nth_error out m = Some e0)) nx
     (fun ix out => for_opt ny (fun iy out => inner ix iy out) out) (repeat e0 (nx * ny))) as [o [E [L [I _]]]].
  - split; [apply repeat_length|]. split; [intros; lia|]. intros m Hm.
    rewrite (nth_error_nth' _ e0) by (rewrite repeat_length; lia). rewrite nth_repeat. reflexivity.
  - intros ix s Hx [Ls [Is Es]].
    destruct (for_opt_inv (fun n (out : list patch) => length out = (nx * ny)%nat
      /\ (forall a b, ((a < ix)%nat \/ (a = ix /\ (b < n)%nat)) -> (b < ny)%nat ->
             nth_error out (a * ny + b) = Some (piece P a b (p_degx P * p_degy P)))
      /\ (forall m, (ix * ny + n <= m < nx * ny)%nat -> nth_error out m = Some e0)) ny
      (fun iy out => inner ix iy out) s) as [o [E [L [I Eo]]]].
    + split; [assumption|]. split; [intros a b [Ha|[_ Hb]] Hb'; [apply Is; assumption|lia]|].
      intros m Hm. apply Es. lia.
    + intros iy u Hy [Lu [Iu Eu]].
      destruct (Step ix iy u Hx Hy) as [o [E [L [I J]]]]; [apply Eu; nia|].
      exists o. split; [exact E|]. split; [lia|]. split.
      * intros a b Hab Hb. destruct (Nat.eq_dec (a * ny + b) (ix * ny + iy)) as [Q|Q].
        -- assert (a = ix /\ b = iy) as [-> ->]; [|assumption].
           destruct Hab as [Ha|[-> Ha]]; [nia|]. split; [reflexivity|lia].
        -- rewrite J by assumption. apply Iu; [|assumption]. destruct Hab as [Ha|[-> Ha]]; [left; assumption|].
           right. split; [reflexivity|]. lia.
      * intros m Hm. rewrite J by lia. apply Eu. lia.
    + exists o. split; [exact E|]. split; [assumption|]. split.
      * intros a b Ha Hb. apply I; [|assumption]. destruct (Nat.eq_dec a ix); [right; split; assumption|left; lia].
      * intros m Hm. apply Eo. lia.
  - exists o. split; [exact E|]. split; [assumption|]. exact I.
Qed.
