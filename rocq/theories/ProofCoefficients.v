(** Proofs for C69: the linear system for the coefficients. *)
From Coq Require Import Reals Arith Bool List Lia Lra ZArith.
From Coquelicot Require Import Coquelicot.
From Verif Require Import ModelBase RSum ModelBall ModelOperators SpecOperators ProofOperators ProofPotential ModelSpherical SpecSpherical SpecHomogenised ModelCoefficients SpecCoefficients
  ProofSpherical ProofSphericalCode ProofSphericalTable ProofHomogenised PropSpherical PropHomogenised.
Import ListNotations.
Local Open Scope R_scope.

(** ** the points on the faces *)
Lemma face_eq : forall f q, face_point f q = face f (fst q) (snd q).
Proof. intros [|[|f]] q; unfold face_point, face; repeat (apply injective_projections; cbn [fst snd]); lra. Qed.
Lemma shift_eq : forall f, face_shift f = axis f.
Proof. intros [|[|f]]; reflexivity. Qed.
Lemma component_eq : forall f v, face_component f v = vdot v (axis f).
Proof. intros [|[|f]] v; unfold face_component, vdot, axis, e1, e2, e3, vx, vy, vz; cbn [fst snd]; ring. Qed.
Lemma half_integer : forall i, -1/2 <> INR i - 1 /\ 1/2 <> INR i - 1.
Proof.
  intros i. assert (E : forall r, INR i = r -> r = 1/2 \/ r = 3/2 -> False); [|split; intros K; apply (E _ eq_refl); lra].
  intros r Er Q. destruct i as [|[|i]]; rewrite ?S_INR in Er; cbn [INR] in Er; try lra. pose proof (pos_INR i). lra.
Qed.
Lemma face_off : forall f a b, off_lattice (face f a b) /\ off_lattice (vadd (face f a b) (axis f)).
Proof.
  intros f a b. split; intros i j k Hi Hj Hk E; apply (f_equal (fun v => (vx v, vy v, vz v))) in E; revert E; unfold lattice, vadd, axis, face, e1, e2, e3, vx, vy, vz;
    destruct f as [|[|f]]; cbn [fst snd]; intros E; injection E; intros E3 E2 E1;
    first [apply (proj1 (half_integer i)); lra|apply (proj1 (half_integer j)); lra|apply (proj1 (half_integer k)); lra|apply (proj2 (half_integer i)); lra|apply (proj2 (half_integer j)); lra|apply (proj2 (half_integer k)); lra].
Qed.
Lemma face_norm : forall f a b, vnorm (vadd (face f a b) (axis f)) = vnorm (face f a b).
Proof. intros f a b. unfold vnorm. f_equal. unfold vdot, vadd, axis, face, e1, e2, e3, vx, vy, vz. destruct f as [|[|f]]; cbn [fst snd]; field. Qed.
Lemma face_norm0 : forall f a b, vnorm (face f a b) = vnorm (face 0 a b).
Proof. intros f a b. unfold vnorm. f_equal. unfold vdot, face, vx, vy, vz. destruct f as [|[|f]]; cbn [fst snd]; field. Qed.
Lemma face_nonzero : forall f a b, face f a b <> (0, 0, 0) /\ vadd (face f a b) (axis f) <> (0, 0, 0).
Proof. intros f a b. destruct (face_off f a b) as [A B]. split; apply off_zero; assumption. Qed.

(** ** derivatives *)
Lemma slope_eq : forall u v d l, directional u v d l -> slope u v d = l.
Proof. intros u v d l D. unfold directional in D. apply is_derive_Reals in D. apply is_derive_unique. exact D. Qed.
Lemma solid_differentiable : forall n m v d, v <> (0, 0, 0) -> (m <= n)%nat -> directional (fun z => fst (solid n m z)) v d (slope (fun z => fst (solid n m z)) v d).
Proof.
  intros n m v d Vn Hm. pose proof (solid_dir v n m d Vn Hm) as D. cbv zeta in D. rewrite (slope_eq _ _ _ _ D). exact D.
Qed.
Lemma modified_differentiable : forall v d, off_lattice v -> directional modified v d (slope modified v d).
Proof.
  intros v d O. destruct (C68_gradient v O) as [g [_ G]]. specialize (G d). assert (D : directional modified v d (vdot g d)).
  { apply (dir_ext_list (value k_mod) modified shifts); [apply off_list, O| |exact G]. intros z Hz. apply off_list in Hz. unfold value. rewrite (k_mod_value z Hz). reflexivity. }
  rewrite (slope_eq _ _ _ _ D). exact D.
Qed.
Lemma slope_kmod : forall v d, off_lattice v -> exists g, Dk_mod v = Some g /\ slope modified v d = vdot g d.
Proof.
  intros v d O. destruct (C68_gradient v O) as [g [E G]]. exists g. split; [exact E|]. apply slope_eq.
  apply (dir_ext_list (value k_mod) modified shifts); [apply off_list, O| |exact (G d)]. intros z Hz. apply off_list in Hz. unfold value. rewrite (k_mod_value z Hz). reflexivity.
Qed.
Lemma slope_expansion : forall cs N v d, off_lattice v -> slope (expansion cs N) v d = slope modified v d + series cs N (fun n m => slope (fun z => fst (solid n m z)) v d).
Proof.
  intros cs N v d O. apply slope_eq. unfold expansion. apply (dir_plus modified (fun z => series cs N (fun n m => fst (solid n m z)))); [apply modified_differentiable, O|].
  apply (series_dir cs N (fun n m z => fst (solid n m z))). intros n m Hn Hm. apply solid_differentiable; [apply off_zero, O|exact Hm].
Qed.

(** the jumps of the solid harmonics *)
Definition vjump (f : nat) (q : R * R) (n m : nat) : R := jump (fun z => fst (solid n m z)) f (face f (fst q) (snd q)).
Definition sjump (f : nat) (q : R * R) (n m : nat) : R := normal_jump (fun z => fst (solid n m z)) f (face f (fst q) (snd q)).

Lemma harmonic0 : forall v, v <> (0, 0, 0) -> forall w, w <> (0, 0, 0) -> fst (solid 0 0 v) = fst (solid 0 0 w).
Proof. intros v Hv w Hw. rewrite !solid_value by (assumption || lia). unfold Hx. rewrite !H_O. cbn [Nat.eqb]. unfold W. cbn [cpower]. reflexivity. Qed.
Lemma vjump0 : forall f q, vjump f q 0 0 = 0.
Proof. intros f q. unfold vjump, jump. destruct (face_nonzero f (fst q) (snd q)) as [A B]. rewrite (harmonic0 _ A _ B). ring. Qed.
Lemma slope0 : forall v d, v <> (0, 0, 0) -> slope (fun z => fst (solid 0 0 z)) v d = 0.
Proof.
  intros v d Hv. apply slope_eq. apply (dir_ext_list (fun _ => fst (solid 0 0 v)) _ [(0, 0, 0)]); [intros [K|[]]; congruence| |exact (dir_const _ v d)].
  intros z Hz. apply harmonic0; [exact Hv|]. intros K. apply Hz. left. congruence.
Qed.
Lemma sjump0 : forall f q, sjump f q 0 0 = 0.
Proof. intros f q. unfold sjump, normal_jump. destruct (face_nonzero f (fst q) (snd q)) as [A B]. rewrite !slope0 by assumption. ring. Qed.
Lemma series_minus : forall cs N f g, series cs N f - series cs N g = series cs N (fun n m => f n m - g n m).
Proof.
  intros cs N f g. unfold series. rewrite <- rsum_minus. apply rsum_ext. intros n Hn. rewrite <- rsum_minus. apply rsum_ext. intros j Hj. ring.
Qed.
Lemma jump_expansion : forall cs N f q, jump (expansion cs N) f (face f (fst q) (snd q)) = jump modified f (face f (fst q) (snd q)) + series cs N (vjump f q).
Proof. intros cs N f q. unfold jump, expansion, vjump, jump. rewrite <- series_minus. ring. Qed.
Lemma normal_jump_expansion : forall cs N f q, normal_jump (expansion cs N) f (face f (fst q) (snd q)) = normal_jump modified f (face f (fst q) (snd q)) + series cs N (sjump f q).
Proof.
  intros cs N f q. destruct (face_off f (fst q) (snd q)) as [A B]. unfold normal_jump. rewrite !slope_expansion by assumption. unfold sjump, normal_jump. rewrite <- series_minus. ring.
Qed.

(** ** the rows of the matrix *)
Lemma nth_map_seq : forall (f : nat -> R) n i, (i < n)%nat -> nth i (map f (seq 0 n)) 0 = f i.
Proof. intros f n i Hi. rewrite (nth_indep _ 0 (f 0%nat)) by (rewrite map_length, seq_length; exact Hi). rewrite map_nth, seq_nth by exact Hi. reflexivity. Qed.
Lemma nth_twice : forall l m, nth m (twice l) 0 = fac m * nth m l 0.
Proof.
  intros [|a r] m; [destruct m; cbn; ring|]. cbn [twice]. destruct m as [|m]; [cbn; ring|]. cbn [nth]. unfold fac. cbn [Nat.eqb].
  destruct (Nat.lt_ge_cases m (length r)) as [L|L].
  - rewrite (nth_indep _ 0 (0 * 2)) by (rewrite map_length; exact L). rewrite (map_nth (fun x => x * 2)). ring.
  - rewrite !nth_overflow by (rewrite ?map_length; exact L). ring.
Qed.
Lemma twice_length : forall l, length (twice l) = length l.
Proof. intros [|a r]; [reflexivity|]. cbn [twice length]. rewrite map_length. reflexivity. Qed.

Lemma face_rows_value : forall mem deg M f k q A, sized deg mem -> (1 <= deg)%nat -> (1 <= M)%nat ->
  exists A', face_rows mem deg M f k q A = Some A' /\
    (forall n m, (1 <= n <= deg)%nat -> (m <= n)%nat -> A' (k + 2 * f * M)%nat (tri n - 1 + m)%nat = fac m * vjump f q n m /\ A' (k + (2 * f + 1) * M)%nat (tri n - 1 + m)%nat = fac m * sjump f q n m) /\
    (forall i j, i <> (k + 2 * f * M)%nat -> i <> (k + (2 * f + 1) * M)%nat -> A' i j = A i j).
Proof.
  intros mem deg M f k q A Sz Hd HM. unfold face_rows. rewrite face_eq, shift_eq. set (v := face f (fst q) (snd q)). set (v' := vadd v (axis f)).
  destruct (face_nonzero f (fst q) (snd q)) as [Vn Vn']. fold v in Vn, Vn'. fold v' in Vn'. pose proof (face_norm f (fst q) (snd q)) as En. fold v in En. fold v' in En.
  pose proof (Sz v) as S1. pose proof (Sz v') as S2. destruct (mem v) as [[[jY st] jL] jG]. destruct (mem v') as [[[jY' st'] jL'] jG'].
  destruct S1 as [A1 [A2 [A3 A4]]]. destruct S2 as [B1 [B2 [B3 B4]]].
  destruct (C66_value jY st v deg Vn A1 A2) as [re [im [E1 [L1 [_ G1]]]]]. destruct (C66_value jY' st' v' deg Vn' B1 B2) as [re' [im' [E2 [L2 [_ G2]]]]].
  rewrite E1, E2. cbn [bind].
  destruct (C66_gradient jL jG jY st v deg (re, im) Vn Hd A3 A4 A1 A2 E1) as [G [E3 [L3 G3]]]. destruct (C66_gradient jL' jG' jY' st' v' deg (re', im') Vn' Hd B3 B4 B1 B2 E2) as [G' [E4 [L4 G4]]].
  rewrite E3, E4. cbn [bind fst snd].
  assert (V1 : forall n m, (n <= deg)%nat -> (m <= n)%nat -> vnorm v ^ n * (nth (n * n + n + m) re 0 - nth (n * n + n + m) re' 0) = vjump f q n m).
  { intros n m Hn Hm. destruct (G1 n m Hn Hm) as [-> _]. destruct (G2 n m Hn Hm) as [-> _]. unfold vjump, jump. fold v. fold v'. unfold solid, Cmult, RtoC. cbn [fst snd]. rewrite En. ring. }
  assert (V2 : forall n m, (n <= deg)%nat -> (m <= n)%nat -> face_component f (nth (n * n + n + m) G (0, 0, 0)) - face_component f (nth (n * n + n + m) G' (0, 0, 0)) = sjump f q n m).
  { intros n m Hn Hm. rewrite !component_eq. unfold sjump, normal_jump. fold v. fold v'. rewrite (slope_eq _ _ _ _ (proj1 (G3 n m (axis f) Hn Hm))), (slope_eq _ _ _ _ (proj1 (G4 n m (axis f) Hn Hm))). reflexivity. }
  clear G1 G2 G3 G4.
  match goal with |- exists A', for_opt deg ?b A = Some A' /\ _ => destruct (for_opt_inv (fun i A' =>
    (forall n m, (1 <= n <= i)%nat -> (m <= n)%nat -> A' (k + 2 * f * M)%nat (tri n - 1 + m)%nat = fac m * vjump f q n m /\ A' (k + (2 * f + 1) * M)%nat (tri n - 1 + m)%nat = fac m * sjump f q n m) /\
    (forall i j, i <> (k + 2 * f * M)%nat -> i <> (k + (2 * f + 1) * M)%nat -> A' i j = A i j)) deg b A) as [A' [E P]]; [| |exists A'; split; [exact E|exact P]] end.
  { split; [intros n m Hn; lia|reflexivity]. }
  intros i B Hi [I1 I2].
  rewrite (map_opt_spec _ (fun m => vjump f q (S i) m)).
  2:{ intros m Hm. apply in_seq in Hm. rewrite (get_nth re _ 0) by (rewrite L1; nia). cbn [bind]. rewrite (get_nth re' _ 0) by (rewrite L2; nia). cbn [bind]. f_equal. apply V1; lia. }
  cbn [bind]. rewrite (map_opt_spec _ (fun m => sjump f q (S i) m)).
  2:{ intros m Hm. apply in_seq in Hm. rewrite (get_nth G _ (0, 0, 0)) by (rewrite L3; nia). cbn [bind]. rewrite (get_nth G' _ (0, 0, 0)) by (rewrite L4; nia). cbn [bind]. f_equal. apply V2; lia. }
  cbn [bind]. eexists. split; [reflexivity|]. fold (tri (S i)).
  assert (Rd : (k + 2 * f * M <> k + (2 * f + 1) * M)%nat) by nia. set (r1 := (k + 2 * f * M)%nat) in *. set (r2 := (k + (2 * f + 1) * M)%nat) in *. clearbody r1 r2.
  split.
  - intros n m Hn Hm. unfold write_row. rewrite !twice_length, !map_length, !seq_length. rewrite !Nat.eqb_refl.
    replace (r1 =? r2)%nat with false by (symmetry; apply Nat.eqb_neq; exact Rd). cbn [andb].
    destruct (Nat.eq_dec n (S i)) as [->|Ne].
    + replace (tri (S i) - 1 <=? tri (S i) - 1 + m)%nat with true by (symmetry; apply Nat.leb_le; lia). replace (tri (S i) - 1 + m <? tri (S i) - 1 + (S i + 1))%nat with true by (symmetry; apply Nat.ltb_lt; lia).
      cbn [andb]. rewrite !(Nat.add_comm (tri (S i) - 1) m), !Nat.add_sub, !nth_twice, !nth_map_seq by lia. split; reflexivity.
    + assert (T : (tri n + n < tri (S i))%nat) by (apply tri_lt; lia). pose proof (tri_lt 0 n ltac:(lia)) as T0.
      assert (F : (tri (S i) - 1 <=? tri n - 1 + m)%nat = false) by (apply Nat.leb_gt; lia). rewrite F. replace (r2 =? r1)%nat with false by (symmetry; apply Nat.eqb_neq; congruence). cbn [andb]. exact (I1 n m ltac:(lia) Hm).
  - intros i0 j N1 N2. unfold write_row. replace (i0 =? r1)%nat with false by (symmetry; apply Nat.eqb_neq; exact N1). replace (i0 =? r2)%nat with false by (symmetry; apply Nat.eqb_neq; exact N2). cbn [andb]. apply I2; assumption.
Qed.

Definition rows_ok (deg M : nat) (xs : list (R * R)) (A : nat -> nat -> R) (f k : nat) : Prop := forall n m, (1 <= n <= deg)%nat -> (m <= n)%nat ->
  A (k + 2 * f * M)%nat (tri n - 1 + m)%nat = fac m * vjump f (nth k xs (0, 0)) n m /\ A (k + (2 * f + 1) * M)%nat (tri n - 1 + m)%nat = fac m * sjump f (nth k xs (0, 0)) n m.
Lemma row_distinct : forall M k k' g g', (k < M)%nat -> (k' < M)%nat -> (k + g * M = k' + g' * M)%nat -> k = k' /\ g = g'.
Proof.
  intros M k k' g g' H1 H2 E. assert (g = g'); [|subst; lia]. assert (Q : forall a b c d, (a < M)%nat -> (b < M)%nat -> (a + c * M = b + d * M)%nat -> (c <= d)%nat) by (intros a b c d Ha Hb Q; destruct (Nat.le_gt_cases c d) as [L|L]; [exact L|]; pose proof (Nat.mul_le_mono_r (S d) c M L) as P; cbn [Nat.mul] in P; lia).
  pose proof (Q k k' g g' H1 H2 E). pose proof (Q k' k g' g H2 H1 (eq_sym E)). lia.
Qed.
Lemma rows_keep : forall deg M xs A A' f k f' k', (k < M)%nat -> (k' < M)%nat -> (f, k) <> (f', k') ->
  (forall i j, i <> (k' + 2 * f' * M)%nat -> i <> (k' + (2 * f' + 1) * M)%nat -> A' i j = A i j) -> rows_ok deg M xs A f k -> rows_ok deg M xs A' f k.
Proof.
  intros deg M xs A A' f k f' k' H1 H2 Ne Kp Rw n m Hn Hm. destruct (Rw n m Hn Hm) as [R1 R2].
  assert (D : forall a b, (a <= 1)%nat -> (b <= 1)%nat -> (k + (2 * f + a) * M <> k' + (2 * f' + b) * M)%nat).
  { intros a b Ha Hb E. destruct (row_distinct _ _ _ _ _ H1 H2 E) as [E1 E2]. apply Ne. f_equal; lia. }
  pose proof (D 0%nat 0%nat) as D00. pose proof (D 0%nat 1%nat) as D01. pose proof (D 1%nat 0%nat) as D10. pose proof (D 1%nat 1%nat) as D11. rewrite !Nat.add_0_r in *.
  split; rewrite Kp by (first [apply D00|apply D01|apply D10|apply D11]; lia); assumption.
Qed.
Lemma system_matrix_value : forall mem junk deg xs, sized deg mem -> (1 <= deg)%nat ->
  exists A, system_matrix mem junk deg xs = Some A /\ forall f k, (f < 3)%nat -> (k < length xs)%nat -> rows_ok deg (length xs) xs A f k.
Proof.
  intros mem junk deg xs Sz Hd. unfold system_matrix. set (M := length xs).
  match goal with |- exists A, for_opt M ?b junk = Some A /\ _ => destruct (for_opt_inv (fun i A => forall f k, (f < 3)%nat -> (k < i)%nat -> rows_ok deg M xs A f k) M b junk) as [A [E P]]; [| |exists A; split; [exact E|intros f k Hf Hk; apply P; assumption]] end.
  { intros f k _ Hk; lia. }
  intros i A Hi I. rewrite (get_nth xs i (0, 0) Hi). cbn [bind]. set (q := nth i xs (0, 0)).
  destruct (face_rows_value mem deg M 0 i q A Sz Hd ltac:(lia)) as [A0 [E0 [V0 K0]]]. rewrite E0. cbn [bind].
  destruct (face_rows_value mem deg M 1 i q A0 Sz Hd ltac:(lia)) as [A1 [E1 [V1 K1]]]. rewrite E1. cbn [bind].
  destruct (face_rows_value mem deg M 2 i q A1 Sz Hd ltac:(lia)) as [A2 [E2 [V2 K2]]]. rewrite E2. exists A2. split; [reflexivity|].
  intros f k Hf Hk. destruct (Nat.eq_dec k i) as [->|Ne].
  - destruct f as [|[|[|f]]]; [| | |lia].
    + apply (rows_keep deg M xs A1 A2 _ _ 2 i Hi Hi); [discriminate|exact K2|]. apply (rows_keep deg M xs A0 A1 _ _ 1 i Hi Hi); [discriminate|exact K1|]. exact V0.
    + apply (rows_keep deg M xs A1 A2 _ _ 2 i Hi Hi); [discriminate|exact K2|]. exact V1.
    + exact V2.
  - assert (Hk' : (k < M)%nat) by lia. apply (rows_keep deg M xs A1 A2 _ _ 2 i Hk' Hi); [congruence|exact K2|]. apply (rows_keep deg M xs A0 A1 _ _ 1 i Hk' Hi); [congruence|exact K1|].
    apply (rows_keep deg M xs A A0 _ _ 0 i Hk' Hi); [congruence|exact K0|]. apply I; lia.
Qed.

(** ** the right-hand side *)
Definition disp_ok (M : nat) (xs : list (R * R)) (d : nat -> R) (f k : nat) : Prop := let q := nth k xs (0, 0) in
  d (k + 2 * f * M)%nat = jump modified f (face f (fst q) (snd q)) /\ d (k + (2 * f + 1) * M)%nat = normal_jump modified f (face f (fst q) (snd q)).
Lemma face_displacement_value : forall xs f d, exists d', face_displacement (length xs) f xs d = Some d' /\
  (forall k, (k < length xs)%nat -> disp_ok (length xs) xs d' f k) /\ (forall f' k, (f' <> f)%nat -> (k < length xs)%nat -> disp_ok (length xs) xs d f' k -> disp_ok (length xs) xs d' f' k).
Proof.
  intros xs f d. unfold face_displacement. set (M := length xs).
  match goal with |- exists A, for_opt M ?b d = Some A /\ _ => destruct (for_opt_inv (fun i d' => (forall k, (k < i)%nat -> disp_ok M xs d' f k) /\ (forall f' k, (f' <> f)%nat -> (k < M)%nat -> disp_ok M xs d f' k -> disp_ok M xs d' f' k)) M b d) as [d' [E P]];
    [| |exists d'; split; [exact E|exact P]] end.
  { split; [intros k Hk; lia|intros f' k _ _ D; exact D]. }
  intros i d' Hi [I1 I2]. rewrite (get_nth xs i (0, 0) Hi). cbn [bind]. set (q := nth i xs (0, 0)). rewrite face_eq, shift_eq. set (v := face f (fst q) (snd q)). set (v' := vadd v (axis f)).
  destruct (face_off f (fst q) (snd q)) as [O O']. fold v in O, O'. fold v' in O'.
  destruct (slope_kmod v (axis f) O) as [g [Eg Gg]]. destruct (slope_kmod v' (axis f) O') as [g' [Eg' Gg']].
  rewrite Eg, Eg', (k_mod_value v O), (k_mod_value v' O'). cbn [bind]. eexists. split; [reflexivity|].
  assert (Vn : face_component f (vsub g g') = normal_jump modified f v).
  { rewrite component_eq. unfold normal_jump. fold v'. rewrite Gg, Gg'. unfold vdot, vsub, vx, vy, vz. cbn [fst snd]. ring. }
  assert (Dk : forall g k, (k < M)%nat -> (g, k) <> (f, i) -> forall a b, (a <= 1)%nat -> (b <= 1)%nat -> (k + (2 * g + a) * M <> i + (2 * f + b) * M)%nat).
  { intros g0 k Hk Ne a b Ha Hb E. destruct (row_distinct _ _ _ _ _ Hk Hi E) as [E1 E2]. apply Ne. f_equal; lia. }
  assert (Kp : forall g0 k x y, (k < M)%nat -> (g0, k) <> (f, i) -> disp_ok M xs d' g0 k -> disp_ok M xs (write (write d' (i + 2 * f * M) x) (i + (2 * f + 1) * M) y) g0 k).
  { intros g0 k x y Hk Ne [D1 D2]. pose proof (Dk g0 k Hk Ne 0%nat 0%nat) as D00. pose proof (Dk g0 k Hk Ne 0%nat 1%nat) as D01. pose proof (Dk g0 k Hk Ne 1%nat 0%nat) as D10. pose proof (Dk g0 k Hk Ne 1%nat 1%nat) as D11. rewrite !Nat.add_0_r in *.
    unfold disp_ok, write.
    replace (k + 2 * g0 * M =? i + (2 * f + 1) * M)%nat with false by (symmetry; apply Nat.eqb_neq, D01; lia). replace (k + 2 * g0 * M =? i + 2 * f * M)%nat with false by (symmetry; apply Nat.eqb_neq, D00; lia).
    replace (k + (2 * g0 + 1) * M =? i + (2 * f + 1) * M)%nat with false by (symmetry; apply Nat.eqb_neq, D11; lia). replace (k + (2 * g0 + 1) * M =? i + 2 * f * M)%nat with false by (symmetry; apply Nat.eqb_neq, D10; lia).
    split; assumption. }
  split.
  - intros k Hk. destruct (Nat.eq_dec k i) as [->|Ne]; [|apply Kp; [lia|congruence|apply I1; lia]].
    unfold disp_ok, write. fold q. fold v. rewrite !Nat.eqb_refl. replace (i + 2 * f * M =? i + (2 * f + 1) * M)%nat with false by (symmetry; apply Nat.eqb_neq; nia).
    split; [reflexivity|exact Vn].
  - intros f' k Nf Hk D. apply Kp; [exact Hk|congruence|apply I2; assumption].
Qed.
Lemma displacement_value : forall junk xs, exists d, getDisplacement junk xs = Some d /\ forall f k, (f < 3)%nat -> (k < length xs)%nat -> disp_ok (length xs) xs d f k.
Proof.
  intros junk xs. unfold getDisplacement.
  destruct (face_displacement_value xs 0 junk) as [d0 [E0 [V0 _]]]. rewrite E0. cbn [bind].
  destruct (face_displacement_value xs 1 d0) as [d1 [E1 [V1 K1]]]. rewrite E1. cbn [bind].
  destruct (face_displacement_value xs 2 d1) as [d2 [E2 [V2 K2]]]. rewrite E2. exists d2. split; [reflexivity|].
  intros f k Hf Hk. destruct f as [|[|[|f]]]; [| | |lia].
  - apply K2; [lia|exact Hk|]. apply K1; [lia|exact Hk|]. apply V0, Hk.
  - apply K2; [lia|exact Hk|]. apply V1, Hk.
  - apply V2, Hk.
Qed.
