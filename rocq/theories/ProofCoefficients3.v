(** Uniqueness and symmetry of the coefficients. *)
From Coq Require Import Reals Arith Bool List Lia Lra ZArith Permutation.
From Coquelicot Require Import Coquelicot.
From Verif Require Import ModelBase RSum ModelBall ModelOperators SpecOperators ProofOperators ProofPotential ProofPar SpecInterp ProofInterp ModelSpherical SpecSpherical SpecHomogenised ModelCoefficients SpecCoefficients
  ProofSpherical ProofSphericalTable ProofSphericalCode ProofHomogenised PropSpherical PropHomogenised ProofCoefficients ProofCoefficients2 ProofPeriodic ProofPeriodic2.
Import ListNotations.
Local Open Scope R_scope.

(** two minimisers have the same image *)
Lemma midpoint : forall rows cols A b x y, residual rows cols A b (fun c => (x c + y c) / 2) =
  residual rows cols A b x / 2 + residual rows cols A b y / 2 - rsum (fun r => (rsum (fun c => A r c * (x c - y c)) cols) ^ 2) rows / 4.
Proof.
  intros rows cols A b x y. unfold residual. induction rows as [|n IH]; [cbn [rsum]; field|]. cbn [rsum]. rewrite IH.
  rewrite (rsum_ext (fun c => A n c * ((x c + y c) / 2)) (fun c => / 2 * (A n c * x c + A n c * y c))) by (intros; field). rewrite rsum_scal, rsum_plus.
  rewrite (rsum_ext (fun c => A n c * (x c - y c)) (fun c => A n c * x c - A n c * y c)) by (intros; ring). rewrite rsum_minus. field.
Qed.
Lemma same_image : forall rows cols A b x y, (forall z, residual rows cols A b x <= residual rows cols A b z) -> residual rows cols A b y <= residual rows cols A b x ->
  forall r, (r < rows)%nat -> rsum (fun c => A r c * (x c - y c)) cols = 0.
Proof.
  intros rows cols A b x y Mi Le. pose proof (Mi (fun c => (x c + y c) / 2)) as M. rewrite midpoint in M.
  assert (P : rsum (fun r => (rsum (fun c => A r c * (x c - y c)) cols) ^ 2) rows <= 0) by lra. clear M Mi Le.
  induction rows as [|n IH]; intros r Hr; [lia|]. cbn [rsum] in P. set (s := rsum (fun c => A n c * (x c - y c)) cols) in *.
  assert (N : 0 <= rsum (fun r => (rsum (fun c => A r c * (x c - y c)) cols) ^ 2) n) by (apply rsum_nonneg; intros; apply pow2_ge_0).
  assert (Q : 0 <= s ^ 2) by apply pow2_ge_0. destruct (Nat.eq_dec r n) as [->|Ne]; [fold s; nra|]. apply IH; [lra|lia].
Qed.
Lemma rsum_tsum : forall deg (x : nat -> R) (a : nat -> R) (J : nat -> nat -> R) g, (forall n m, (1 <= n <= deg)%nat -> (m <= n)%nat -> a (tri n - 1 + m)%nat = fac m * J n m) ->
  (forall n m, (1 <= n <= deg)%nat -> (m <= n)%nat -> x (tri n - 1 + m)%nat = g n m) -> g 0%nat 0%nat = 0 ->
  rsum (fun c => a c * x c) (tri (deg + 1) - 1) = tsum deg (fun n m => fac m * g n m) J.
Proof.
  intros deg x a J g Va Vx G0. rewrite tri_flatten. unfold tsum. replace (deg + 1)%nat with (S deg) by lia. rewrite rsum_shift.
  match goal with |- _ = ?z + _ => replace z with 0 by (cbn [Nat.add rsum]; rewrite G0; ring) end. rewrite Rplus_0_l. apply rsum_ext. intros i Hi. replace (S i + 1)%nat with (i + 2)%nat by lia. apply rsum_ext. intros m Hm.
  rewrite Va, Vx by lia. ring.
Qed.
Lemma tsum_norm : forall deg c (J F : nat -> nat -> R), (forall n m, (m <= n)%nat -> J n m = -2 * harmonic_norm n m * F n m) -> tsum deg c J = 0 -> tsum deg (fun n m => harmonic_norm n m * c n m) F = 0.
Proof.
  intros deg c J F E Z. assert (Q : -2 * tsum deg (fun n m => harmonic_norm n m * c n m) F = tsum deg c J); [|lra]. unfold tsum. rewrite <- rsum_scal. apply rsum_ext. intros n Hn. rewrite <- rsum_scal. apply rsum_ext. intros m Hm.
  rewrite E by lia. ring.
Qed.
(** the columns of the matrix are linearly independent *)
Lemma full_rank : forall deg t xs A x, square_grid t deg xs -> (forall f k, (f < 3)%nat -> (k < length xs)%nat -> rows_ok deg (length xs) xs A f k) ->
  (forall r, (r < 6 * length xs)%nat -> rsum (fun c => A r c * x c) (tri (deg + 1) - 1) = 0) ->
  forall n m, (1 <= n <= deg)%nat -> (m <= n)%nat -> x (tri n - 1 + m)%nat = 0.
Proof.
  intros deg t xs A x [-> [Nd Lt]] Rw Z. set (xs := list_prod t t) in *.
  set (g := fun n m => if (n =? 0)%nat then 0 else x (tri n - 1 + m)%nat).
  assert (Gx : forall n m, (1 <= n <= deg)%nat -> (m <= n)%nat -> x (tri n - 1 + m)%nat = g n m) by (intros n m Hn Hm; unfold g; destruct (Nat.eqb_spec n 0); [lia|reflexivity]).
  set (p := fun i => nth i t 0).
  assert (Dp : distinct (deg + 1) p). { intros i j Hi Hj N E. apply N. apply (proj1 (NoDup_nth t 0) Nd); [lia|lia|exact E]. }
  assert (Row : forall f i j, (f < 3)%nat -> (i < deg + 1)%nat -> (j < deg + 1)%nat ->
    tsum deg (fun n m => fac m * g n m) (vjump f (p i, p j)) = 0 /\ tsum deg (fun n m => fac m * g n m) (sjump f (p i, p j)) = 0).
  { intros f i j Hf Hi Hj. assert (I : In (p i, p j) xs) by (apply in_prod; apply nth_In; lia). destruct (In_nth xs (p i, p j) (0, 0) I) as [k [Hk Ek]].
    split.
    - rewrite <- (rsum_tsum deg x (A (k + 2 * f * length xs)%nat) (vjump f (p i, p j)) g); [apply Z; nia| |exact Gx|reflexivity]. intros n m Hn Hm. rewrite <- Ek. exact (proj1 (Rw f k Hf Hk n m Hn Hm)).
    - rewrite <- (rsum_tsum deg x (A (k + (2 * f + 1) * length xs)%nat) (sjump f (p i, p j)) g); [apply Z; nia| |exact Gx|reflexivity]. intros n m Hn Hm. rewrite <- Ek. exact (proj2 (Rw f k Hf Hk n m Hn Hm)). }
  set (c := fun n m => harmonic_norm n m * (fac m * g n m)).
  assert (E : forall (F : nat -> nat -> R -> R -> R), (forall n m, (n <= deg)%nat -> (forall b, polynomial (deg + 1) (fun a => F n m a b)) /\ (forall a, polynomial (deg + 1) (fun b => F n m a b))) ->
    (forall i j, (i < deg + 1)%nat -> (j < deg + 1)%nat -> tsum deg c (fun n m => F n m (p i) (p j)) = 0) -> forall a b, tsum deg c (fun n m => F n m a b) = 0).
  { intros F P0 Z0. apply (grid_zero (deg + 1) (fun a b => tsum deg c (fun n m => F n m a b)) p); [| |exact Dp|exact Z0].
    - intros b. apply (poly_tsum (deg + 1) deg c (fun n m a => F n m a b)). intros n m Hn Hm. apply P0, Hn.
    - intros a. apply (poly_tsum (deg + 1) deg c (fun n m b => F n m a b)). intros n m Hn Hm. apply P0, Hn. }
  assert (C : forall n m, (1 <= n <= deg)%nat -> (m <= n)%nat -> c n m = 0).
  { apply periodic_zero; apply E; try (intros n m Hn; apply (four_poly deg n m Hn)); intros i j Hi Hj.
    - apply (tsum_norm deg _ (vjump 2 (p i, p j))); [intros; apply jump_z; assumption|apply Row; lia].
    - apply (tsum_norm deg _ (sjump 2 (p i, p j))); [intros; apply slope_z; assumption|apply Row; lia].
    - apply (tsum_norm deg _ (vjump 0 (p i, p j))); [intros; apply jump_x; assumption|apply Row; lia].
    - apply (tsum_norm deg _ (sjump 0 (p i, p j))); [intros; apply slope_x; assumption|apply Row; lia]. }
  intros n m Hn Hm. rewrite (Gx n m Hn Hm). specialize (C n m Hn Hm). unfold c in C. pose proof (norm_positive n m) as Pn. apply Rmult_integral in C. destruct C as [C|C]; [lra|].
  apply Rmult_integral in C. destruct C as [C|C]; [unfold fac in C; destruct (m =? 0)%nat; lra|exact C].
Qed.

(** ** the result *)
Lemma degree_bound : forall p, (4 <= getDegree p <= 12)%nat /\ Nat.odd (getDegree p) = false.
Proof. intros p. unfold getDegree. destruct (Rlt_dec _ p); [split; [lia|reflexivity]|]. destruct (Rlt_dec _ p); (split; [lia|reflexivity]). Qed.
Lemma coefficients_value : forall solve mem jA jd jf xs ws p, sized (getDegree p) mem -> length jf = ((getDegree p + 1) * (getDegree p + 1))%nat -> length ws = length xs ->
  let deg := getDegree p in exists A d cs0 cs,
  getCoefficients solve mem jA jd jf xs ws p = Some cs /\ length cs = ((deg + 1) * (deg + 1))%nat /\ length cs0 = ((deg + 1) * (deg + 1))%nat /\
  symmetric_coefficients cs0 (deg + 1) /\ symmetric_coefficients cs (deg + 1) /\ (forall a, (a <> 0)%nat -> nth a cs 0 = nth a cs0 0) /\ nth 0 cs0 0 = 0 /\
  nth 0 cs 0 = -2 * sqrt PI * (face_average (expansion cs0 deg) xs ws + 1 / 24) /\
  packed (solve (6 * length xs)%nat (tri (deg + 1) - 1)%nat A (fun i => - d i)) cs deg /\
  (forall f k, (f < 3)%nat -> (k < length xs)%nat -> rows_ok deg (length xs) xs A f k) /\ (forall f k, (f < 3)%nat -> (k < length xs)%nat -> disp_ok (length xs) xs d f k).
Proof.
  intros solve mem jA jd jf xs ws p Sz Lj Lw deg. fold deg in Sz, Lj. destruct (degree_bound p) as [Dg _]. fold deg in Dg.
  destruct (displacement_value jd xs) as [d [Ed Vd]]. destruct (system_matrix_value mem jA deg xs Sz ltac:(lia)) as [A [EA VA]].
  set (x := solve (6 * length xs)%nat (tri (deg + 1) - 1)%nat A (fun i => - d i)). set (co := fun i => if (i =? 0)%nat then 0 else x (i - 1)%nat).
  destruct (copy_value jf co deg Lj) as [cs0 [Ec [Lc [Z0 Vc]]]].
  assert (Sy : symmetric_coefficients cs0 (deg + 1)). { intros n m Hn Hm. destruct n as [|n]; [replace m with 0%nat by lia; reflexivity|]. destruct (Vc (S n) m ltac:(lia) Hm) as [-> ->]. reflexivity. }
  pose proof (first_value cs0 deg xs ws ltac:(lia) Lc Sy Z0 Lw) as Ef. set (c0 := -2 * sqrt PI * (face_average (expansion cs0 deg) xs ws + 1 / 24)) in *.
  destruct (set_spec cs0 0 c0 ltac:(lia)) as [cs [Es [Ls Ns]]].
  assert (K : forall a, (a <> 0)%nat -> nth a cs 0 = nth a cs0 0) by (intros a Ha; rewrite Ns; destruct (Nat.eqb_spec a 0); [contradiction|reflexivity]).
  exists A, d, cs0, cs. split.
  { unfold getCoefficients. fold deg. rewrite Ed. cbn [bind]. rewrite EA. cbn [bind]. replace (((deg + 1) * (deg + 2)) / 2)%nat with (tri (deg + 1)) by (unfold tri; replace (deg + 1 + 1)%nat with (deg + 2)%nat by lia; reflexivity).
    fold x. change (fun i => if (i =? 0)%nat then 0 else x (i - 1)%nat) with co. rewrite Ec. cbn [bind]. rewrite Ef. cbn [bind]. exact Es. }
  split; [lia|]. split; [exact Lc|]. split; [exact Sy|]. split.
  { intros n m Hn Hm. destruct n as [|n]; [replace m with 0%nat by lia; reflexivity|]. rewrite !K by nia. apply Sy; assumption. }
  split; [exact K|]. split; [exact Z0|]. split; [rewrite Ns; reflexivity|]. split; [|split; assumption].
  intros n m Hn Hm. rewrite K by nia. replace (n * (n + 1) + m)%nat with (n * n + n + m)%nat by lia. rewrite (proj1 (Vc n m Hn Hm)). unfold co.
  pose proof (tri_lt 0 n ltac:(lia)). destruct (Nat.eqb_spec (tri n + m) 0) as [Q|Q]; [lia|]. replace (tri n + m - 1)%nat with (tri n - 1 + m)%nat by lia. reflexivity.
Qed.

(** ** mirror images *)
Definition signed (cs : list R) (N : nat) : list R := map (fun a => (-1) ^ Nat.sqrt a * nth a cs 0) (seq 0 (N * N)).
Lemma sqrt_block : forall n j, (j < 2 * n + 1)%nat -> Nat.sqrt (n * n + j) = n.
Proof. intros n j Hj. apply Nat.sqrt_unique. lia. Qed.
Lemma signed_value : forall cs N n j, (n < N)%nat -> (j < 2 * n + 1)%nat -> nth (n * n + j) (signed cs N) 0 = (-1) ^ n * nth (n * n + j) cs 0.
Proof.
  intros cs N n j Hn Hj. unfold signed. rewrite nth_map_seq by nia. rewrite sqrt_block by exact Hj. reflexivity.
Qed.
Lemma signed_symmetric : forall cs N, symmetric_coefficients cs N -> symmetric_coefficients (signed cs N) N.
Proof.
  intros cs N Sy n m Hn Hm. replace (n * n + n - m)%nat with (n * n + (n - m))%nat by lia. replace (n * n + n + m)%nat with (n * n + (n + m))%nat by lia. rewrite !signed_value by lia. f_equal.
  replace (n * n + (n - m))%nat with (n * n + n - m)%nat by lia. replace (n * n + (n + m))%nat with (n * n + n + m)%nat by lia. apply Sy; assumption.
Qed.
Lemma solid_parity : forall n m v, (m <= n)%nat -> fst (solid n m (vneg v)) = (-1) ^ n * fst (solid n m v).
Proof.
  intros n m v Hm. unfold solid. rewrite neg_unit, vnorm_neg, (harmonic_parity n m _ Hm). unfold Cmult, RtoC. cbn [fst snd]. ring.
Qed.
Lemma expansion_mirror : forall cs N v, expansion (signed cs N) N v = expansion cs N (vneg v).
Proof.
  intros cs N v. unfold expansion. rewrite modified_even. f_equal. unfold series. apply rsum_ext. intros n Hn. apply rsum_ext. intros j Hj.
  rewrite signed_value by assumption. rewrite solid_parity by (apply order_le, Hj). ring.
Qed.
Lemma expansion_differentiable : forall cs N v d, off_lattice v -> directional (expansion cs N) v d (slope (expansion cs N) v d).
Proof.
  intros cs N v d O. rewrite (slope_expansion cs N v d O). unfold expansion. apply (dir_plus modified (fun z => series cs N (fun n m => fst (solid n m z)))); [apply modified_differentiable, O|].
  apply (series_dir cs N (fun n m z => fst (solid n m z))). intros n m Hn Hm. apply solid_differentiable; [apply off_zero, O|exact Hm].
Qed.
Lemma slope_mirror : forall cs N v d, off_lattice v -> slope (expansion (signed cs N) N) v d = - slope (expansion cs N) (vneg v) d.
Proof.
  intros cs N v d O. apply slope_eq. pose proof (expansion_differentiable cs N (vneg v) d (lattice_neg v O)) as D. unfold directional in *. apply is_derive_Reals. apply is_derive_Reals in D.
  apply (is_derive_ext (fun t => expansion cs N (SpecOperators.along (vneg v) d (- t)))).
  - intros t. rewrite expansion_mirror. f_equal. destruct v as [[v1 v2] v3], d as [[d1 d2] d3]. unfold SpecOperators.along, vneg, vadd, vscal, vx, vy, vz. cbn [fst snd]. repeat (apply injective_projections; cbn [fst snd]); ring.
  - match goal with |- is_derive _ _ ?l => replace l with (scal (-1) (slope (expansion cs N) (vneg v) d)) by (unfold scal; cbn; unfold mult; cbn; ring) end.
    apply (is_derive_comp (fun t => expansion cs N (SpecOperators.along (vneg v) d t)) (fun t => - t)); [rewrite Ropp_0; exact D|]. auto_derive; [exact I|ring].
Qed.
Lemma face_mirror : forall f a b, vneg (face f a b) = vadd (face f (- a) (- b)) (axis f) /\ vneg (vadd (face f a b) (axis f)) = face f (- a) (- b).
Proof. intros f a b. destruct f as [|[|f]]; unfold vneg, face, axis, e1, e2, e3, vadd, vscal, vx, vy, vz; cbn [fst snd]; split; repeat (apply injective_projections; cbn [fst snd]); field. Qed.
Lemma jumps_mirror : forall cs N f a b, jump (expansion (signed cs N) N) f (face f a b) = - jump (expansion cs N) f (face f (- a) (- b)) /\
  normal_jump (expansion (signed cs N) N) f (face f a b) = normal_jump (expansion cs N) f (face f (- a) (- b)).
Proof.
  intros cs N f a b. destruct (face_off f a b) as [O O']. destruct (face_mirror f a b) as [F F']. unfold jump, normal_jump. rewrite !expansion_mirror, !slope_mirror by assumption. rewrite F, F'. split; ring.
Qed.
Definition local_defect (u : vec3 -> R) (a b : R) : R := rsum (fun f => jump u f (face f a b) ^ 2 + normal_jump u f (face f a b) ^ 2) 3.
Lemma rsum_nth : forall {B} (g : B -> R) (l : list B) d, rsum (fun k => g (nth k l d)) (length l) = lsum g l.
Proof. intros B g l d. induction l as [|x l IH]; [reflexivity|]. cbn [length]. rewrite rsum_shift. cbn [nth lsum]. rewrite IH. reflexivity. Qed.
Lemma lsum_prod : forall (g : R -> R -> R) l l', lsum (fun q => g (fst q) (snd q)) (list_prod l l') = lsum (fun a => lsum (g a) l') l.
Proof. intros g l l'. induction l as [|a l IH]; [reflexivity|]. cbn [list_prod lsum]. rewrite lsum_app, lsum_map, IH. reflexivity. Qed.
Lemma mirror_perm : forall t, NoDup t -> mirrored t -> Permutation (map Ropp t) t.
Proof.
  intros t Nd M. apply NoDup_Permutation; [|exact Nd|].
  - apply FinFun.Injective_map_NoDup; [|exact Nd]. intros a b E. apply Ropp_eq_compat in E. rewrite !Ropp_involutive in E. exact E.
  - intros a. rewrite in_map_iff. split; [intros [b [<- I]]; apply M, I|]. intros I. exists (- a). split; [ring|apply M, I].
Qed.
Lemma lsum_mirror : forall (g : R -> R) t, NoDup t -> mirrored t -> lsum (fun a => g (- a)) t = lsum g t.
Proof. intros g t Nd M. rewrite <- (lsum_map g Ropp). apply lsum_perm. apply mirror_perm; assumption. Qed.
Lemma defect_mirror : forall cs N t, NoDup t -> mirrored t -> defect (expansion (signed cs N) N) (list_prod t t) = defect (expansion cs N) (list_prod t t).
Proof.
  intros cs N t Nd M. assert (E : forall u, defect u (list_prod t t) = lsum (fun a => lsum (local_defect u a) t) t).
  { intros u. rewrite <- lsum_prod. unfold defect. apply (rsum_nth (fun q => local_defect u (fst q) (snd q))). }
  rewrite !E. rewrite <- (lsum_mirror (fun a => lsum (local_defect (expansion cs N) a) t) t Nd M). apply lsum_ext. intros a _. rewrite <- (lsum_mirror (local_defect (expansion cs N) (- a)) t Nd M). apply lsum_ext. intros b _.
  unfold local_defect. apply rsum_ext. intros f _. destruct (jumps_mirror cs N f a b) as [-> ->]. ring.
Qed.
