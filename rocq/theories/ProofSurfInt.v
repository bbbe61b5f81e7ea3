(** Sums over the elements of a uniformly refined mesh and integrals over the patches. *)
From Coq Require Import Reals Lra Lia Arith Bool List QArith Qreals Permutation.
From Coquelicot Require Import Coquelicot.
From Verif Require Import RSum ModelBase ModelBernstein ModelTree ModelQuad ModelAssembly ModelDuffy SpecQuad PropQuad SpecForms SpecConform SpecProj SpecL2
  ProofPar PropForms ProofProjMesh.
Import ListNotations.
Local Close Scope Q_scope.
Local Open Scope R_scope.

(** ** sums over the cells *)
Section Cells.
Context {Pt : Type} (close : Pt -> Pt -> bool) (corners : list (list Pt)) (M : nat) (t : tree) (els : list node).
Hypothesis Hm : uniform_mesh close corners M t els.
Notation n := (2 ^ M)%nat.
(** every cell belongs to an element, and sums over the elements are sums over the cells *)
Lemma cell_elements : exists cell : nat -> nat -> nat -> node,
  (forall p X Y, (p < length corners)%nat -> (X < n)%nat -> (Y < n)%nat -> In (cell p X Y) els /\ n_patch (cell p X Y) = p /\ at_cell n (cell p X Y) X Y) /\
  (forall e, In e els -> exists X Y, (X < n)%nat /\ (Y < n)%nat /\ (n_patch e < length corners)%nat /\ cell (n_patch e) X Y = e) /\
  forall f : node -> R, rsum (fun k => match nth_error els k with Some e => f e | None => 0 end) (length els)
    = rsum (fun p => rsum (fun X => rsum (fun Y => f (cell p X Y)) n) n) (length corners).
Proof.
  destruct (mesh_grid close corners M t els Hm) as [pos [L [Hp Hc]]].
  assert (Hn : (0 < n)%nat) by (apply Nat.neq_0_lt_0, Nat.pow_nonzero; lia).
  assert (H4 : (4 ^ M = n * n)%nat) by (rewrite <- Nat.pow_mul_l; reflexivity).
  assert (Nd : NoDup (map pos (seq 0 (length els)))) by (eapply Permutation_NoDup; [symmetry; exact Hp|apply seq_NoDup]).
  set (inv := fun q => hd 0%nat (filter (fun k => pos k =? q)%nat (seq 0 (length els)))).
  assert (Hinv : forall q, (q < length corners * (n * n))%nat -> (inv q < length els)%nat /\ pos (inv q) = q).
  { intros q Hq. assert (I : In q (map pos (seq 0 (length els)))).
    { eapply Permutation_in; [symmetry; exact Hp|]. apply in_seq. rewrite H4. lia. }
    apply in_map_iff in I. destruct I as [k [Ek Ik]]. unfold inv.
    assert (If : In k (filter (fun k => pos k =? q)%nat (seq 0 (length els)))) by (apply filter_In; split; [exact Ik|apply Nat.eqb_eq; exact Ek]).
    destruct (filter (fun k => pos k =? q)%nat (seq 0 (length els))) as [|j l] eqn:El; [contradiction|]. cbn [hd].
    assert (Ij : In j (filter (fun k => pos k =? q)%nat (seq 0 (length els)))) by (rewrite El; left; reflexivity).
    apply filter_In in Ij. destruct Ij as [Ij Ej]. apply in_seq in Ij. apply Nat.eqb_eq in Ej. split; [lia|exact Ej]. }
  assert (Hpos : forall k, (k < length els)%nat -> (pos k < length corners * (n * n))%nat).
  { intros k Hk. assert (I : In (pos k) (map pos (seq 0 (length els)))) by (apply in_map, in_seq; lia).
    apply (Permutation_in _ Hp) in I. apply in_seq in I. rewrite H4 in I. lia. }
  assert (Hinj : forall j k, (j < length els)%nat -> (k < length els)%nat -> pos j = pos k -> j = k).
  { intros j k Hj Hk E. apply (NoDup_nth _ 0%nat) with (i := j) (j := k) in Nd; [exact Nd|rewrite map_length, seq_length; lia|rewrite map_length, seq_length; lia|].
    rewrite !(nth_indep _ 0%nat (pos 0%nat)) by (rewrite map_length, seq_length; lia). rewrite !map_nth, !seq_nth by lia. exact E. }
  destruct els as [|e0 els0] eqn:Eels.
  { exfalso. cbn [length] in L. destruct Hm as [Hc0 _]. destruct corners; [congruence|]. cbn [length] in L.
    assert (4 ^ M <> 0)%nat by (apply Nat.pow_nonzero; lia). lia. }
  rewrite <- Eels in *. clear Eels.
  exists (fun p X Y => nth (inv ((p * n + Y) * n + X)%nat) els e0). split; [|split].
  - intros p X Y Hp' HX HY. assert (Hq : ((p * n + Y) * n + X < length corners * (n * n))%nat) by nia.
    destruct (Hinv _ Hq) as [Hi Ei]. split; [apply nth_In; exact Hi|].
    destruct (Hc (inv ((p * n + Y) * n + X)%nat) _ (nth_error_nth' els e0 Hi)) as [Hcell Hpatch]. rewrite Ei in Hcell, Hpatch.
    replace (((p * n + Y) * n + X) / n)%nat with (p * n + Y)%nat in * by (rewrite Nat.div_add_l, (Nat.div_small X) by lia; lia).
    replace (((p * n + Y) * n + X) mod n)%nat with X in * by (rewrite Nat.add_comm, Nat.mod_add, Nat.mod_small by lia; reflexivity).
    replace ((p * n + Y) mod n)%nat with Y in * by (rewrite Nat.add_comm, Nat.mod_add, Nat.mod_small by lia; reflexivity).
    replace ((p * n + Y) / n)%nat with p in * by (rewrite Nat.div_add_l, (Nat.div_small Y) by lia; lia).
    split; assumption.
  - intros e He. apply In_nth_error in He. destruct He as [k Ek]. assert (Hk : (k < length els)%nat) by (apply nth_error_Some; congruence).
    destruct (Hc k e Ek) as [_ Pe]. pose proof (Hpos k Hk) as Hq. exists (pos k mod n)%nat, ((pos k / n) mod n)%nat.
    split; [apply Nat.mod_upper_bound; lia|]. split; [apply Nat.mod_upper_bound; lia|]. rewrite Pe.
    split; [apply Nat.div_lt_upper_bound; [lia|]; apply Nat.div_lt_upper_bound; [lia|]; nia|].
    replace ((pos k / n / n * n + (pos k / n) mod n) * n + pos k mod n)%nat with (pos k).
    + replace (inv (pos k)) with k; [apply nth_error_nth; exact Ek|]. apply Hinj; [exact Hk|apply Hinv; exact Hq|]. symmetry. apply Hinv. exact Hq.
    + rewrite (Nat.mul_comm (pos k / n / n)), <- (Nat.div_mod (pos k / n) n) by lia. rewrite Nat.mul_comm. apply Nat.div_mod. lia.
  - intros f.
    transitivity (rsum (fun q => f (nth (inv q) els e0)) (length corners * (n * n))).
    + rewrite <- lsum_seq. rewrite <- (lsum_seq _ (length corners * (n * n))). rewrite <- H4. rewrite <- (lsum_perm _ _ _ Hp), lsum_map.
      apply lsum_ext. intros k Hk. apply in_seq in Hk. rewrite (nth_error_nth' els e0) by lia.
      f_equal. f_equal. apply Hinj; [lia| |].
      * apply Hinv. apply Hpos. lia.
      * symmetry. apply Hinv. apply Hpos. lia.
    + rewrite rsum_flatten. apply rsum_ext. intros p Hp'. rewrite rsum_flatten.
      rewrite rsum_swap. apply rsum_ext. intros X HX. apply rsum_ext. intros Y HY.
      f_equal. f_equal. f_equal. ring.
Qed.
End Cells.

(** ** integrals of functions that are given on the cells *)
Lemma chasles_grid : forall (g : R -> R) (v : nat -> R) n m, (0 < n)%nat -> (m <= n)%nat ->
  (forall X, (X < m)%nat -> is_RInt g (INR X / INR n) (INR (S X) / INR n) (v X)) -> is_RInt g 0 (INR m / INR n) (rsum v m).
Proof.
  intros g v n m Hn. induction m as [|m IH]; intros Hm H.
  - cbn [rsum INR]. replace (0 / INR n) with 0 by (unfold Rdiv; ring). apply (is_RInt_point (V := R_NormedModule)).
  - cbn [rsum]. apply (is_RInt_Chasles (V := R_NormedModule) g 0 (INR m / INR n)); [apply IH; [lia|]; intros X HX; apply H; lia|]. apply H. lia.
Qed.
Lemma grid_integral : forall (g : R -> R) (v : nat -> R) n, (0 < n)%nat ->
  (forall X, (X < n)%nat -> is_RInt g (INR X / INR n) (INR (S X) / INR n) (v X)) -> is_RInt g 0 1 (rsum v n).
Proof.
  intros g v n Hn H. replace 1 with (INR n / INR n) at 1 by (field; apply not_0_INR; lia). apply chasles_grid; [exact Hn|lia|exact H].
Qed.
(** substitution on a cell *)
Lemma cell_substitution : forall (g f : R -> R) n X v, (0 < n)%nat -> (forall s, 0 <= s < 1 -> g (INR X / INR n + / INR n * s) = f s) ->
  is_RInt f 0 1 v -> is_RInt g (INR X / INR n) (INR (S X) / INR n) (/ INR n * v).
Proof.
  intros g f n X v Hn H Hf. assert (Pn : 0 < INR n) by (apply lt_0_INR; exact Hn).
  assert (Hlin : is_RInt (fun y => scal (INR n) (f (INR n * y + - INR X))) (INR X / INR n) (INR (S X) / INR n) v).
  { apply (is_RInt_comp_lin (V := R_NormedModule) f (INR n) (- INR X) (INR X / INR n) (INR (S X) / INR n)).
    replace (INR n * (INR X / INR n) + - INR X) with 0 by (field; lra).
    replace (INR n * (INR (S X) / INR n) + - INR X) with 1 by (rewrite (S_INR X); field; lra). exact Hf. }
  apply (is_RInt_scal (V := R_NormedModule) _ _ _ (/ INR n)) in Hlin.
  apply (is_RInt_ext (V := R_NormedModule)) with (2 := Hlin). intros y Hy.
  assert (Ho : INR X / INR n < INR (S X) / INR n) by (rewrite (S_INR X); unfold Rdiv; apply Rmult_lt_compat_r; [apply Rinv_0_lt_compat|]; lra).
  rewrite Rmin_left, Rmax_right in Hy by lra.
  unfold scal. cbn. unfold mult. cbn. rewrite <- Rmult_assoc, Rinv_l, Rmult_1_l by lra.
  rewrite <- H.
  - f_equal. field. lra.
  - destruct Hy as [Y1 Y2]. apply (Rmult_lt_compat_l (INR n)) in Y1, Y2; try lra.
    replace (INR n * (INR X / INR n)) with (INR X) in Y1 by (field; lra).
    replace (INR n * (INR (S X) / INR n)) with (INR X + 1) in Y2 by (rewrite (S_INR X); field; lra). lra.
Qed.
Definition poly_integral (d : nat) (c : nat -> nat -> R) : R := rsum (fun a => rsum (fun b => c a b / (INR (S a) * INR (S b))) d) d.
(** the point x of the unit interval lies in a cell *)
Lemma find_cell : forall n x, (0 < n)%nat -> 0 <= x < 1 -> exists X, (X < n)%nat /\ 0 <= INR n * x - INR X < 1.
Proof.
  intros n x Hn [H0 H1]. assert (Pn : 0 < INR n) by (apply lt_0_INR; exact Hn). assert (N0 : 0 <= INR n * x) by (apply Rmult_le_pos; lra).
  exists (Z.to_nat (Int_part (INR n * x))). destruct (base_Int_part (INR n * x)) as [B1 B2].
  assert (Z0 : (0 <= Int_part (INR n * x))%Z) by (apply le_IZR; apply Rnot_lt_le; intros C; assert (IZR (Int_part (INR n * x)) <= IZR (-1)) by (apply IZR_le; apply lt_IZR in C; lia); simpl (IZR (-1)) in *; lra).
  assert (EI : INR (Z.to_nat (Int_part (INR n * x))) = IZR (Int_part (INR n * x))) by (rewrite INR_IZR_INZ, Z2Nat.id by exact Z0; reflexivity).
  split; [|rewrite EI; lra]. apply INR_lt. rewrite EI. assert (INR n * x < INR n * 1) by (apply Rmult_lt_compat_l; lra). lra.
Qed.
(** a function that is a polynomial on every cell of a grid *)
Lemma grid_square : forall (F : R * R -> R) n d (c : nat -> nat -> nat -> nat -> R), (0 < n)%nat ->
  (forall X Y s u, (X < n)%nat -> (Y < n)%nat -> 0 <= s < 1 -> 0 <= u < 1 ->
     F (INR X / INR n + / INR n * s, INR Y / INR n + / INR n * u) = tensor_poly d (c X Y) (s, u)) ->
  square_integral F (rsum (fun X => rsum (fun Y => / INR n * / INR n * poly_integral d (c X Y)) n) n).
Proof.
  intros F n d c Hn H. assert (Pn : 0 < INR n) by (apply lt_0_INR; exact Hn).
  (* the integral over y for x in the cells X *)
  set (inner := fun X s => rsum (fun Y => / INR n * rsum (fun b => (rsum (fun a => c X Y a b * s ^ a) d) / INR (S b)) d) n).
  set (cellX := fun x => Z.to_nat (Int_part (INR n * x))).
  exists (fun x => inner (cellX x) (INR n * x - INR (cellX x))). split.
  - intros x Hx. assert (Hx' : 0 <= x < 1) by lra.
    assert (Hc : (cellX x < n)%nat /\ 0 <= INR n * x - INR (cellX x) < 1).
    { destruct (find_cell n x Hn Hx') as [X [HX Hs]]. replace (cellX x) with X; [split; assumption|].
      unfold cellX. symmetry. apply Nat2Z.inj. rewrite Z2Nat.id.
      - symmetry. rewrite (Int_part_spec (INR n * x) (Z.of_nat X)); [reflexivity|]. rewrite <- INR_IZR_INZ. lra.
      - rewrite (Int_part_spec (INR n * x) (Z.of_nat X)); [lia|]. rewrite <- INR_IZR_INZ. lra. }
    destruct Hc as [HX Hs]. set (X := cellX x) in *. set (s := INR n * x - INR X) in *.
    unfold inner. apply grid_integral; [exact Hn|]. intros Y HY.
    apply (cell_substitution _ (poly_eval (fun b => rsum (fun a => c X Y a b * s ^ a) d) d)); [exact Hn| |apply integral_poly].
    intros u Hu. replace x with (INR X / INR n + / INR n * s) at 1 by (unfold s; field; lra). rewrite H by assumption.
    unfold tensor_poly, poly_eval. cbn [fst snd]. rewrite rsum_swap. apply rsum_ext. intros b Hb. rewrite <- rsum_scal_r. reflexivity.
  - apply (grid_integral _ (fun X => rsum (fun Y => / INR n * / INR n * poly_integral d (c X Y)) n)); [exact Hn|]. intros X HX.
    replace (rsum (fun Y => / INR n * / INR n * poly_integral d (c X Y)) n) with (/ INR n * rsum (fun Y => / INR n * poly_integral d (c X Y)) n)
      by (rewrite <- rsum_scal; apply rsum_ext; intros; ring).
    apply (cell_substitution _ (inner X)); [exact Hn| |].
    + intros s Hs. replace (INR n * (INR X / INR n + / INR n * s)) with (INR X + s) by (field; lra).
      replace (cellX (INR X / INR n + / INR n * s)) with X; [f_equal; ring|]. unfold cellX.
      replace (INR n * (INR X / INR n + / INR n * s)) with (INR X + s) by (field; lra).
      rewrite (Int_part_spec _ (Z.of_nat X)); [rewrite Nat2Z.id; reflexivity|]. rewrite <- INR_IZR_INZ. lra.
    + unfold inner.
      apply (is_RInt_ext (V := R_NormedModule) (poly_eval (fun a => rsum (fun Y => / INR n * rsum (fun b => c X Y a b / INR (S b)) d) n) d)).
      * intros s _. unfold poly_eval.
        rewrite (rsum_ext (fun Y => / INR n * rsum (fun b => rsum (fun a => c X Y a b * s ^ a) d / INR (S b)) d) (fun Y => rsum (fun a => / INR n * rsum (fun b => c X Y a b / INR (S b)) d * s ^ a) d)).
        -- rewrite rsum_swap. apply rsum_ext. intros a Ha. rewrite rsum_scal_r. reflexivity.
        -- intros Y HY. rewrite <- rsum_scal.
           rewrite (rsum_ext _ (fun b => rsum (fun a => / INR n * (c X Y a b / INR (S b)) * s ^ a) d)).
           ++ rewrite rsum_swap. apply rsum_ext. intros a Ha. rewrite <- rsum_scal, <- rsum_scal_r. reflexivity.
           ++ intros b Hb. unfold Rdiv. rewrite <- rsum_scal_r, <- rsum_scal. apply rsum_ext. intros a Ha. ring.
      * replace (rsum (fun Y => / INR n * poly_integral d (c X Y)) n) with (rsum (fun a => rsum (fun Y => / INR n * rsum (fun b => c X Y a b / INR (S b)) d) n / INR (S a)) d); [apply integral_poly|].
        unfold Rdiv. rewrite (rsum_ext _ (fun a => rsum (fun Y => / INR n * rsum (fun b => c X Y a b * / INR (S b)) d * / INR (S a)) n)) by (intros a Ha; rewrite <- rsum_scal_r; reflexivity).
        rewrite rsum_swap. apply rsum_ext. intros Y HY. unfold poly_integral. rewrite <- rsum_scal. apply rsum_ext. intros a Ha.
        rewrite Rmult_assoc. f_equal. rewrite <- rsum_scal_r. apply rsum_ext. intros b Hb. field. split; apply not_0_INR; lia.
Qed.
(** the cubature on a polynomial *)
Lemma exact_pow : forall d x w j, exact_rule d x w -> (j < d)%nat -> quad x w (fun t => t ^ j) = / INR (S j).
Proof.
  intros d x w j [_ Ex] Hj. set (c := fun k => if Nat.eqb k j then 1 else 0).
  assert (Ec : forall y, poly_eval c d y = y ^ j).
  { intros y. unfold poly_eval, c. rewrite (rsum_single _ d j) by (exact Hj || (intros k Hk Hne; destruct (Nat.eqb_spec k j); [congruence|ring])). rewrite Nat.eqb_refl. ring. }
  rewrite <- (Ex c (/ INR (S j))).
  - unfold quad. apply rsum_ext. intros k Hk. rewrite Ec. reflexivity.
  - replace (/ INR (S j)) with (rsum (fun k => c k / INR (S k)) d); [apply integral_poly|].
    rewrite (rsum_single _ d j) by (exact Hj || (intros k Hk Hne; unfold c; destruct (Nat.eqb_spec k j); [congruence|unfold Rdiv; ring])). unfold c. rewrite Nat.eqb_refl. unfold Rdiv. ring.
Qed.
Lemma cubature_poly : forall d x w c, exact_rule d x w ->
  rsum (fun q => q_w (tensor_rule (x, w)) q * tensor_poly d c (q_xi (tensor_rule (x, w)) q)) (q_size (tensor_rule (x, w))) = poly_integral d c.
Proof.
  intros d x w c Ex. pose proof (tensor_value x w (fun s u => tensor_poly d c (s, u)) (proj1 Ex)) as Hv.
  transitivity (cub_value (tensor_rule (x, w)) (fun s u => tensor_poly d c (s, u))).
  - unfold cub_value, q_w, q_xi, q_size. apply rsum_ext. intros q Hq. rewrite <- surjective_pairing. reflexivity.
  - rewrite Hv. unfold poly_integral. unfold quad at 1.
    rewrite (rsum_ext _ (fun k => rsum (fun a => rsum (fun b => c a b / INR (S b)) d * (nth k w 0 * nth k x 0 ^ a)) d)).
    + rewrite rsum_swap. apply rsum_ext. intros a Ha. rewrite rsum_scal. rewrite <- (rsum_scal_r).
      change (rsum (fun i => nth i w 0 * nth i x 0 ^ a) (length w)) with (quad x w (fun y => y ^ a)). rewrite (exact_pow d x w a Ex Ha).
      apply rsum_ext. intros b Hb. field. split; apply not_0_INR; lia.
    + intros k Hk. unfold quad, tensor_poly. cbn [fst snd].
      rewrite <- rsum_scal.
      rewrite (rsum_ext _ (fun q => rsum (fun a => rsum (fun b => nth k w 0 * nth k x 0 ^ a * c a b * (nth q w 0 * nth q x 0 ^ b)) d) d)).
      * rewrite rsum_swap. apply rsum_ext. intros a Ha. rewrite rsum_swap. rewrite <- rsum_scal_r. apply rsum_ext. intros b Hb. rewrite rsum_scal.
        change (rsum (fun i => nth i w 0 * nth i x 0 ^ b) (length w)) with (quad x w (fun y => y ^ b)). rewrite (exact_pow d x w b Ex Hb). unfold Rdiv. ring.
      * intros q Hq. rewrite <- !rsum_scal. apply rsum_ext. intros a Ha. rewrite <- !rsum_scal. apply rsum_ext. intros b Hb. ring.
Qed.

(** ** the quadrature over the elements is the integral over the patches *)
Theorem surface_sum_exact : forall {Pt} (close : Pt -> Pt -> bool) corners M t els x w d (f : node -> R * R -> R) F,
  uniform_mesh close corners M t els -> exact_rule d x w ->
  (forall e, In e els -> is_tensor_poly d (f e)) -> given_on_elements els f F ->
  patches_integral (length corners) F (surface_sum els (tensor_rule (x, w)) f).
Proof.
  intros Pt close corners M t els x w d f F Hm Ex Hp HF.
  destruct (cell_elements close corners M t els Hm) as [cell [Hc [_ Hs]]]. set (n := (2 ^ M)%nat) in *.
  assert (Hn : (0 < n)%nat) by (apply Nat.neq_0_lt_0, Nat.pow_nonzero; lia).
  assert (Hval : forall e c, (forall s, f e s = tensor_poly d c s) ->
    rsum (fun q => q_w (tensor_rule (x, w)) q * f e (q_xi (tensor_rule (x, w)) q)) (q_size (tensor_rule (x, w))) = poly_integral d c).
  { intros e c Hec. rewrite <- (cubature_poly d x w c Ex). apply rsum_ext. intros q Hq. rewrite Hec. reflexivity. }
  set (I := fun e => rsum (fun q => q_w (tensor_rule (x, w)) q * f e (q_xi (tensor_rule (x, w)) q)) (q_size (tensor_rule (x, w)))).
  exists (fun p => rsum (fun X => rsum (fun Y => / INR n * / INR n * I (cell p X Y)) n) n). split.
  - intros p Hp'.
    assert (Ch : exists c : nat -> nat -> nat -> nat -> R, forall X Y, (X < n)%nat -> (Y < n)%nat -> forall s, f (cell p X Y) s = tensor_poly d (c X Y) s).
    { assert (Row : forall X, (X < n)%nat -> exists c : nat -> nat -> nat -> R, forall Y, (Y < n)%nat -> forall s, f (cell p X Y) s = tensor_poly d (c Y) s).
      { intros X HX. assert (G : forall m, (m <= n)%nat -> exists c : nat -> nat -> nat -> R, forall Y, (Y < m)%nat -> forall s, f (cell p X Y) s = tensor_poly d (c Y) s).
        { induction m as [|m IH]; intros Hm'; [exists (fun _ _ _ => 0); lia|]. destruct IH as [c Hcm]; [lia|].
          destruct (Hp (cell p X m)) as [c1 H1]; [apply Hc; lia|]. exists (fun Y => if (Y =? m)%nat then c1 else c Y). intros Y HY s.
          destruct (Nat.eqb_spec Y m) as [->|]; [apply H1|apply Hcm; lia]. }
        apply G. lia. }
      assert (G : forall m, (m <= n)%nat -> exists c : nat -> nat -> nat -> nat -> R, forall X Y, (X < m)%nat -> (Y < n)%nat -> forall s, f (cell p X Y) s = tensor_poly d (c X Y) s).
      { induction m as [|m IH]; intros Hm'; [exists (fun _ _ _ _ => 0); lia|]. destruct IH as [c Hcm]; [lia|].
        destruct (Row m) as [c1 H1]; [lia|]. exists (fun X => if (X =? m)%nat then c1 else c X). intros X Y HX HY s.
        destruct (Nat.eqb_spec X m) as [->|]; [apply H1; exact HY|apply Hcm; lia]. }
      apply G. lia. }
    destruct Ch as [c Hcc].
    rewrite (rsum_ext _ (fun X => rsum (fun Y => / INR n * / INR n * poly_integral d (c X Y)) n)).
    + apply grid_square; [exact Hn|]. intros X Y s u HX HY Hs' Hu. destruct (Hc p X Y Hp' HX HY) as [Ie [Pe [_ [_ [Lx [Ly Le]]]]]].
      rewrite <- (Hcc X Y HX HY (s, u)). rewrite <- (HF (cell p X Y) (s, u) Ie) by assumption. rewrite Pe. f_equal. unfold patch_point. rewrite Lx, Ly, Le. reflexivity.
    + intros X HX. apply rsum_ext. intros Y HY. f_equal. apply Hval. apply Hcc; assumption.
  - unfold surface_sum. etransitivity; [exact (Hs (fun e => Q2R (get_h e) * Q2R (get_h e) * I e))|]. apply rsum_ext. intros p Hp'. apply rsum_ext. intros X HX. apply rsum_ext. intros Y HY.
    destruct (Hc p X Y Hp' HX HY) as [_ [_ [_ [_ [_ [_ Le]]]]]]. rewrite Le. reflexivity.
Qed.
(** integrals over the patches are unique *)
Lemma square_integral_unique : forall F u v, square_integral F u -> square_integral F v -> u = v.
Proof.
  intros F u v [i1 [H1 J1]] [i2 [H2 J2]]. rewrite <- (is_RInt_unique _ _ _ _ J1), <- (is_RInt_unique _ _ _ _ J2). apply RInt_ext.
  intros x Hx. rewrite Rmin_left, Rmax_right in Hx by lra. rewrite <- (is_RInt_unique _ _ _ _ (H1 x Hx)). apply is_RInt_unique. apply H2. exact Hx.
Qed.
Lemma patches_integral_unique : forall P F u v, patches_integral P F u -> patches_integral P F v -> u = v.
Proof.
  intros P F u v [vs [H1 ->]] [ws [H2 ->]]. apply rsum_ext. intros p Hp. eapply square_integral_unique; [apply H1|apply H2]; exact Hp.
Qed.

(** every function on the elements is one on the patches *)
Lemma cell_index : forall n X s, (0 < n)%nat -> 0 <= s < 1 -> Z.to_nat (Int_part (INR n * (INR X / INR n + / INR n * s))) = X.
Proof.
  intros n X s Hn Hs. assert (Pn : 0 < INR n) by (apply lt_0_INR; exact Hn).
  replace (INR n * (INR X / INR n + / INR n * s)) with (INR X + s) by (field; lra).
  rewrite (Int_part_spec _ (Z.of_nat X)); [apply Nat2Z.id|]. rewrite <- INR_IZR_INZ. lra.
Qed.
Lemma function_on_patches : forall {Pt} (close : Pt -> Pt -> bool) corners M t els (f : node -> R * R -> R),
  uniform_mesh close corners M t els -> exists F, given_on_elements els f F.
Proof.
  intros Pt close corners M t els f Hm. destruct (cell_elements close corners M t els Hm) as [cell [Hc [He _]]]. set (n := (2 ^ M)%nat) in *.
  assert (Hn : (0 < n)%nat) by (apply Nat.neq_0_lt_0, Nat.pow_nonzero; lia). assert (Pn : 0 < INR n) by (apply lt_0_INR; exact Hn).
  set (idx := fun x => Z.to_nat (Int_part (INR n * x))).
  exists (fun p z => f (cell p (idx (fst z)) (idx (snd z))) (INR n * fst z - INR (idx (fst z)), INR n * snd z - INR (idx (snd z)))).
  intros e s Ie H1 H2. destruct (He e Ie) as [X [Y [HX [HY [Hp Ec]]]]]. destruct (Hc _ X Y Hp HX HY) as [_ [_ Ha]]. rewrite Ec in Ha.
  destruct Ha as [_ [_ [Lx [Ly Le]]]]. unfold patch_point. rewrite Lx, Ly, Le. cbn [fst snd]. unfold idx.
  rewrite !cell_index by assumption. rewrite Ec. f_equal. rewrite (surjective_pairing s) at 3. f_equal; field; lra.
Qed.
