From Coq Require Import Reals Lra Lia Arith List.
From Verif Require Import RSum ModelBase ModelBernstein ModelDeBoor SpecDeBoor ProofDeBoor ProofDeBoorDer.
Import ListNotations.
Local Open Scope R_scope.

Lemma tp_spline_eq : forall kx ky cp p q x y,
  spline ky (map (fun row => spline kx row p x) cp) q y = tp_spline kx ky cp p q x y.
Proof.
  intros. unfold spline at 1, tp_spline. rewrite map_length. apply rsum_ext. intros j Hj.
  rewrite (nth_indep _ 0 ((fun row => spline kx row p x) [])) by (rewrite map_length; assumption).
  rewrite (map_nth (fun row => spline kx row p x)). unfold spline. rewrite <- rsum_scal_r. reflexivity.
Qed.

Lemma transpose_map : forall (f : list R -> R -> R) px rows,
  transpose (length px) (map (fun row => map (f row) px) rows)
  = map (fun x => map (fun row => f row x) rows) px.
Proof.
  intros f px rows. unfold transpose.
  apply (nth_ext _ _ [] []); [rewrite !map_length, seq_length; reflexivity|].
  intros j Hj. rewrite map_length, seq_length in Hj.
  rewrite (nth_indep _ [] ((fun j => map (fun r => nth j r 0) (map (fun row => map (f row) px) rows)) 0%nat))
    by (rewrite map_length, seq_length; assumption).
  rewrite (map_nth (fun j => map (fun r => nth j r 0) (map (fun row => map (f row) px) rows))).
  rewrite seq_nth by assumption. cbn [Nat.add].
  rewrite (nth_indep (map (fun x => map (fun row => f row x) rows) px) [] ((fun x => map (fun row => f row x) rows) 0))
    by (rewrite map_length; assumption).
  rewrite (map_nth (fun x => map (fun row => f row x) rows)).
  rewrite map_map. apply map_ext. intros row.
  rewrite (nth_indep _ 0 (f row 0)) by (rewrite map_length; assumption).
  apply map_nth.
Qed.

Definition tp_input (cp : list (list R)) (kx ky : list R) (p q : nat) (x y : R) : Prop :=
  (forall row, In row cp -> regular_input row kx p x)
  /\ length ky = (length cp + q + 1)%nat /\ (q < length cp)%nat /\ nondecreasing ky
  /\ nth q ky 0 <= y < nth (length cp) ky 0.

Lemma DeBoorTP_spline : forall junk cp kx ky px py p q,
  (forall x y, In x px -> In y py -> tp_input cp kx ky p q x y) -> px <> [] -> py <> [] ->
  (p <= MaxP)%nat -> (q <= MaxP)%nat -> (MaxP <= length junk)%nat ->
  DeBoorTP junk cp kx ky px py
  = Some (map (fun x => map (fun y => tp_spline kx ky cp p q x y) py) px).
Proof.
  intros junk cp kx ky px py p q H Hpx Hpy Hp Hq Hj. unfold DeBoorTP.
  destruct px as [|x0 px0] eqn:Epx; [contradiction|]. rewrite <- Epx in *.
  destruct py as [|y0 py0] eqn:Epy; [contradiction|]. rewrite <- Epy in *.
  assert (Hx0 : In x0 px) by (rewrite Epx; left; reflexivity).
  assert (Hy0 : In y0 py) by (rewrite Epy; left; reflexivity).
  rewrite (DeBoorMat_list junk cp kx p px); [|intros row x Hr Hx; apply (H x y0); assumption|assumption|assumption].
  cbn [bind]. rewrite (transpose_map (fun row x => spline kx row p x)).
  rewrite (DeBoorMat_list junk _ ky q py); [|intros row y Hrow Hy|assumption|assumption].
  - rewrite map_map. f_equal. apply map_ext. intros x. apply map_ext. intros y. apply tp_spline_eq.
  - apply in_map_iff in Hrow. destruct Hrow as [x [<- Hx]].
    destruct (H x y Hx Hy) as [_ [A1 [A2 [A3 A4]]]]. unfold regular_input. rewrite map_length. auto.
Qed.

Lemma DeBoorDer_rows : forall junk kx p x rows,
  (forall row, In row rows -> regular_input row kx (S p) x) ->
  (S p <= MaxP)%nat -> (MaxP <= length junk)%nat ->
  (forall row i, In row rows -> (1 <= i < length row)%nat -> nth i kx 0 < nth (i + S p) kx 0) ->
  ~ In x kx ->
  exists ds, DeBoorDer junk rows kx [x] = Some (map (fun d => [d]) ds)
    /\ length ds = length rows
    /\ (forall j, (j < length rows)%nat ->
          derivable_pt_lim (spline kx (nth j rows []) (S p)) x (nth j ds 0)).
Proof.
  intros junk kx p x rows. induction rows as [|row rows IH]; intros Hr Hp Hj Hk Hx.
  - exists []. split; [reflexivity|]. split; [reflexivity|]. intros j Hj'. simpl in Hj'. lia.
  - destruct IH as [ds [E [L D]]]; try assumption.
    { intros; apply Hr; right; assumption. }
    { intros row' i Hin Hi. apply (Hk row' i); [right; assumption|assumption]. }
    destruct (DeBoorDer_derivative junk row kx p x) as [d [Ed Dd]]; try assumption.
    { apply Hr; left; reflexivity. }
    { intros i Hi. apply (Hk row i); [left; reflexivity|assumption]. }
    exists (d :: ds). unfold DeBoorDer in *. cbn [map_opt]. rewrite Ed. cbn [bind].
    rewrite E. cbn [bind map]. split; [reflexivity|]. split; [simpl; lia|].
    intros [|j] Hj'; [exact Dd|]. cbn [nth]. apply D. simpl in Hj'. lia.
Qed.

Lemma transpose_single : forall ds, transpose 1 (map (fun d : R => [d]) ds) = [ds].
Proof.
  intros. unfold transpose. simpl. f_equal. rewrite map_map. simpl. apply map_id.
Qed.

Lemma tp_sum_deriv : forall (f df : nat -> R) (g : nat -> R -> R) n x c,
  (forall j, (j < n)%nat -> derivable_pt_lim (g j) x (df j)) ->
  derivable_pt_lim (fun t => rsum (fun j => g j t * c j) n) x (rsum (fun j => df j * c j) n).
Proof.
  intros f df g n x c H.
  apply (rsum_derivable (fun j t => g j t * c j) (fun j t => df j * c j)). intros j Hj.
  apply (derivable_pt_lim_ext (fun t => c j * g j t)); [intros; ring|].
  rewrite Rmult_comm. apply dpl_scal. apply H. assumption.
Qed.

Lemma tp_spline_rows : forall kx ky cp p q x y,
  tp_spline kx ky cp p q x y
  = rsum (fun j => spline kx (nth j cp []) p x * bspline (fun m => nth m ky 0) q j y) (length cp).
Proof.
  intros. unfold tp_spline, spline. apply rsum_ext. intros j _. rewrite <- rsum_scal_r. reflexivity.
Qed.

Lemma DeBoorTPDer_x : forall junk cp kx ky p q x y, tp_input cp kx ky (S p) q x y ->
  (S p <= MaxP)%nat -> (q <= MaxP)%nat -> (MaxP <= length junk)%nat ->
  (forall row i, In row cp -> (1 <= i < length row)%nat -> nth i kx 0 < nth (i + S p) kx 0) ->
  ~ In x kx ->
  exists d, DeBoorTPDer junk cp kx ky [x] [y] true false = Some [[d]]
    /\ derivable_pt_lim (fun t => tp_spline kx ky cp (S p) q t y) x d.
Proof.
  intros junk cp kx ky p q x y [H1 [H2 [H3 [H4 H5]]]] Hp Hq Hj Hk Hx.
  destruct (DeBoorDer_rows junk kx p x cp H1 Hp Hj Hk Hx) as [ds [E [L D]]].
  unfold DeBoorTPDer. rewrite E. cbn [bind length]. rewrite transpose_single.
  rewrite (DeBoorMat_list junk [ds] ky q [y]); [|intros row z [<-|[]] [<-|[]]|assumption|assumption].
  2:{ unfold regular_input. rewrite L. auto. }
  eexists. split; [reflexivity|]. unfold spline. rewrite L.
  apply (derivable_pt_lim_ext (fun t => rsum (fun j => spline kx (nth j cp []) (S p) t
      * bspline (fun m => nth m ky 0) q j y) (length cp))).
  { intros t. symmetry. apply tp_spline_rows. }
  apply (tp_sum_deriv (fun _ => 0) (fun j => nth j ds 0) (fun j t => spline kx (nth j cp []) (S p) t)
           (length cp) x (fun j => bspline (fun m => nth m ky 0) q j y)).
  exact D.
Qed.

Lemma DeBoorTPDer_y : forall junk cp kx ky p q x y, tp_input cp kx ky p (S q) x y ->
  (p <= MaxP)%nat -> (S q <= MaxP)%nat -> (MaxP <= length junk)%nat ->
  (forall i, (1 <= i < length cp)%nat -> nth i ky 0 < nth (i + S q) ky 0) ->
  ~ In y ky ->
  exists d, DeBoorTPDer junk cp kx ky [x] [y] false true = Some [[d]]
    /\ derivable_pt_lim (fun t => tp_spline kx ky cp p (S q) x t) y d.
Proof.
  intros junk cp kx ky p q x y [H1 [H2 [H3 [H4 H5]]]] Hp Hq Hj Hk Hy.
  unfold DeBoorTPDer.
  rewrite (DeBoorMat_list junk cp kx p [x]); [|intros row z Hr [<-|[]]; apply H1; assumption|assumption|assumption].
  cbn [bind]. rewrite (transpose_map (fun row x => spline kx row p x)). cbn [map].
  destruct (DeBoorDer_derivative junk (map (fun row => spline kx row p x) cp) ky q y) as [d [E D]]; try assumption.
  { unfold regular_input. rewrite map_length. auto. }
  { rewrite map_length. assumption. }
  exists d. unfold DeBoorDer. cbn [map_opt]. rewrite E. split; [reflexivity|].
  apply (derivable_pt_lim_ext (spline ky (map (fun row => spline kx row p x) cp) (S q))); [|exact D].
  intros t. apply tp_spline_eq.
Qed.
