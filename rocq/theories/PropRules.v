(** C88 and C89 with the rules of the library itself: the members of QuadratureVector<GaussLegendreRule, 50>, taken as Gauss rules (PropQuad C37 and
    PropGauss C55: the eigenvalue rules are exact, the tables agree with the exact moments up to the last decimals). *)
From Coq Require Import Reals Lra Lia Arith Bool List ZArith QArith Qreals.
From Coquelicot Require Import Coquelicot.
From Verif Require Import RSum SpecBernstein ModelBase ModelBernstein ModelTree ModelBall ModelBlock ModelH2 ModelInterp ModelH2Init ModelQuad ModelAssembly ModelDuffy ModelOperators ModelPipeline
  SpecTree SpecMesh SpecBall SpecBlock SpecInterp SpecDuffy SpecCheb SpecFlat SpecQuad SpecOperators SpecHyper ProofTree ProofTreeWF ProofTreeHist ProofTreeGeo ProofTreeLook ProofBall ProofOperators ProofDuffy ProofDuffyInt ProofPipeline
  ProofBernstein PropTree PropBlock PropTopo PropBall PropH2 PropAssembly PropInterp PropDuffy PropQuad PropGauss PropCompare PropConform PropFarLaplace PropNearFar PropFarDouble PropGalerkin PropCompressed PropPipeline PropMotion ProofMotion ProofNearFar ProofGaussErr ProofCheb PropOperators ProofHyper PropWhole PropHyper.
Import ListNotations.
Local Close Scope Q_scope.
Local Open Scope R_scope.

(** what the solver returns for every size up to N *)
Definition decompositions (N : nat) (lam : nat -> nat -> R) (V : nat -> nat -> nat -> R) : Prop :=
  forall n, (0 < n <= N)%nat -> eigen_decomposition n jacobi (lam n) (V n).
(** GaussSquare<Constants::maximum_quadrature_degree> and GaussLegendre<Constants::maximum_quadrature_degree>, indexed by an int;
    an index below zero reaches the base case, too *)
Definition library_rule (lam : nat -> nat -> R) (V : nat -> nat -> nat -> R) (d : Z) : rule :=
  if (d <? 0)%Z then eigen_rule 1 (lam 1%nat) (V 1%nat) else qvector (fun n => eigen_rule n (lam n) (V n)) 50 (Z.to_nat d).
(** the rule of moment computation, H2Multipole.hpp 134-136: GL[ceil(0.5 * (number_of_points + polynomial_degree - 2))] *)
Definition moment_rule (lam : nat -> nat -> R) (V : nat -> nat -> nat -> R) (n p : nat) : rule :=
  qvector (fun k => eigen_rule k (lam k) (V k)) 50 ((n + p - 1) / 2).

Theorem C88_decompositions : forall N, exists lam V, decompositions N lam V.
Proof.
  induction N as [|N [lam [V IH]]]; [exists (fun _ _ => 0), (fun _ _ _ => 0); intros n Hn; lia|].
  destruct (C55_exists (Datatypes.S N) ltac:(lia)) as [l [v D]].
  exists (fun n => if (n =? Datatypes.S N)%nat then l else lam n), (fun n => if (n =? Datatypes.S N)%nat then v else V n). intros n Hn.
  destruct (Nat.eqb_spec n (Datatypes.S N)) as [->|Ne]; [exact D|apply IH; lia].
Qed.
Lemma eigen_positive : forall n lam V, (0 < n)%nat -> eigen_decomposition n jacobi lam V ->
  positive_rule (fst (eigen_rule n lam V)) (snd (eigen_rule n lam V)) /\ exact_rule (2 * n) (fst (eigen_rule n lam V)) (snd (eigen_rule n lam V)).
Proof.
  intros n lam V Hn D. destruct (eigen_rule n lam V) as [x w] eqn:E. cbn [fst snd]. destruct (C55_exact n lam V x w Hn D E) as [Lx [Lw Ex]].
  destruct (C55_nodes n lam V x w Hn D E) as [_ [A [B _]]]. destruct (C55_weights n lam V x w Hn D E) as [_ S1]. split; [|exact Ex].
  split; [|split].
  - split; [congruence|]. intros k Hk. apply A, nth_In. lia.
  - intros k Hk. apply Rlt_le, B. lia.
  - rewrite Lw. exact S1.
Qed.
Lemma library_lookup : forall lam V d, exists n, (0 < n <= 51)%nat /\ library_rule lam V d = eigen_rule n (lam n) (V n) /\ ((0 <= d <= 50)%Z -> n = (Z.to_nat d + 1)%nat).
Proof.
  intros lam V d. unfold library_rule. destruct (Z.ltb_spec d 0) as [L|L]; [exists 1%nat; repeat split; lia|].
  rewrite C38_lookup. destruct (Nat.leb_spec (Z.to_nat d) 50) as [Q|Q].
  - exists (Z.to_nat d + 1)%nat. repeat split; lia.
  - exists 1%nat. repeat split; lia.
Qed.
(** every member of the table is a Gauss rule *)
Theorem C88_library_rule : forall lam V d, decompositions 51 lam V -> (0 <= d <= 50)%Z -> PropWhole.gauss_rule d (library_rule lam V d).
Proof.
  intros lam V d D Hd. destruct (library_lookup lam V d) as [n [Hn [-> En]]]. specialize (En Hd). subst n. apply eigen_positive; [lia|apply D; exact Hn].
Qed.
(** the rule of the moments is exact for the products of the interpolation polynomials and the shape functions *)
Theorem C88_moment_rule : forall lam V n p, decompositions 51 lam V -> (0 < n)%nat -> (n + p <= 101)%nat ->
  positive_rule (fst (moment_rule lam V n p)) (snd (moment_rule lam V n p)) /\ exact_rule (n + p) (fst (moment_rule lam V n p)) (snd (moment_rule lam V n p)).
Proof.
  intros lam V n p D Hn Hp. unfold moment_rule. rewrite C38_lookup. assert (Q : ((n + p - 1) / 2 <= 50)%nat) by (apply Nat.div_le_upper_bound; lia).
  apply Nat.leb_le in Q as Qb. rewrite Qb. destruct (eigen_positive ((n + p - 1) / 2 + 1) (lam ((n + p - 1) / 2 + 1)%nat) (V ((n + p - 1) / 2 + 1)%nat) ltac:(lia)) as [A [L X]]; [apply D; lia|].
  split; [exact A|]. split; [exact L|]. set (x := fst _) in *. set (w := snd _) in *. set (k := ((n + p - 1) / 2 + 1)%nat) in *.
  assert (K : (n + p <= 2 * k)%nat) by (unfold k; pose proof (Nat.div_mod (n + p - 1) 2 ltac:(lia)); pose proof (Nat.mod_upper_bound (n + p - 1) 2 ltac:(lia)); lia).
  intros c v I. specialize (X (fun i => if (i <? n + p)%nat then c i else 0) v).
  assert (Pe : forall s, poly_eval (fun i => if (i <? n + p)%nat then c i else 0) (2 * k) s = poly_eval c (n + p) s).
  { intros s. unfold poly_eval. replace (2 * k)%nat with (n + p + (2 * k - (n + p)))%nat by lia. rewrite rsum_split. 
    rewrite (rsum_ext _ (fun i => c i * s ^ i) (n + p)) by (intros i Hi; apply Nat.ltb_lt in Hi; rewrite Hi; reflexivity).
    rewrite (rsum_zero _ (2 * k - (n + p))); [ring|]. intros i _. destruct (Nat.ltb_spec (n + p + i) (n + p)) as [Z|_]; [lia|ring]. }
  rewrite <- X by (apply (integral01_ext (poly_eval c (n + p))); [intros; symmetry; apply Pe|exact I]). unfold quad. apply rsum_ext. intros i _. rewrite Pe. reflexivity.
Qed.
Lemma library_forms : forall lam V els p order M, decompositions 51 lam V -> (0 <= p)%Z -> (-1 <= order)%Z -> (1 <= M)%nat -> (0 <= farfield_degree p order < 50)%Z -> ((p + 2) * Z.of_nat M < 100)%Z ->
  forms_quadrature els p order M (library_rule lam V).
Proof.
  intros lam V els p order M D Hp Ho HM HF HB. split.
  - intros d. destruct (library_lookup lam V d) as [n [Hn [-> _]]]. unfold eigen_rule. cbn [fst snd]. rewrite !map_length, !seq_length. lia.
  - intros E1 E2 _ _ deg.
    assert (Hd : 0 <= snd (compare_elements E1 E2)).
    { unfold compare_elements. destruct (addr_eqb _ _); [cbn; lra|]. cbv zeta. assert (0 <= element_distance E1 E2) by (unfold element_distance; cbv zeta; match goal with |- 0 <= (if ?c then _ else _) => destruct c end; lra).
      match goal with |- 0 <= snd (if ?c then _ else _) => destruct c end; cbn [snd]; assumption. }
    destruct (C39_assertion p order M Hp Ho HM ltac:(lia)) as [U _]. specialize (U HB _ Hd). fold deg in U. unfold used_degree in U. fold deg in U.
    split; [exact U|]. apply C88_library_rule; [exact D|]. assert (farfield_degree p order <= deg)%Z by (unfold deg; apply Z.le_max_r). lia.
Qed.
(** the computation with the rules of the library: m points less half the degree are left for the kernel *)
Theorem C88_library_converges : forall lam V X O U W P M g op ss order eta mincl T nd a0, decompositions 51 lam V -> surface_mesh X P -> init_mesh X P M = Some g ->
  flat_surface X O U W -> (forall p, area U W p <> 0) -> (forall q, (q < P)%nat -> area U W q <= a0) ->
  op = laplace_sl \/ op = laplace_dl \/ op = laplace_adl -> (-1 <= order <= 0)%Z -> 0 < eta < 2 -> (0 <= mincl)%Z -> ss_M ss = M -> (1 <= M)%nat ->
  (ss_p ss + 2 < 50)%nat -> ((ss_p ss + 2) * M < 100)%nat ->
  let p := Z.of_nat (ss_p ss) in let GS := fun d => tensor_rule (library_rule lam V d) in let D := (ss_n2 ss * t_elements (g_tree g))%nat in
  exists bt d0 c q, block_tree (g_tree g) (near_of (mid_of (g_balls g)) (rad_of (g_balls g)) eta) mincl = Some bt /\ far_distance (g_balls g) bt d0 /\
  0 <= c /\ 0 <= q < 1 /\ let E := ss_h ss * ss_h ss * (a0 * a0 / (4 * PI)) * rule_error eta d0 (Z.to_nat (p + 4 - 2 * order)) in
  forall n ja jm H F alpha rhs res res', (0 < n)%nat -> (n + ss_p ss <= 101)%nat -> let R := moment_rule lam V n (ss_p ss) in
  compressed_operator op ss X P M order GS eta mincl n (fst R) (snd R) ja jm = Some H -> full_operator op ss X P M order GS T F ->
  h2_product H D nd T alpha rhs res res' -> forall u,
  Rabs (res' u - (res u + alpha * rsum (fun v => F u v * rhs v) nd)) <=
  Rabs alpha * ((c * q ^ n + E) * norm1 D (fun r => T r u) * norm1 D (fun r => rsum (fun v => T r v * rhs v) nd)).
Proof.
  intros lam V X O U W P M g op ss order eta mincl T nd a0 DC HX Eg FX FA Ha Hop Ho He H0 HM HM1 HF HB p GS D.
  assert (FQ : forms_quadrature (g_elements g) p order M (library_rule lam V)) by (apply library_forms; unfold p, farfield_degree; try assumption; try lia; nia).
  destruct (C88_compressed_converges X O U W P M g op ss order (library_rule lam V) eta mincl T nd (Z.to_nat (p + 4 - 2 * order)) a0 HX Eg FX FA Ha Hop He H0 HM FQ ltac:(unfold p; lia) ltac:(unfold p, farfield_degree; lia))
    as [bt [d0 [c [q [A1 [A2 [A3 [A4 A5]]]]]]]].
  exists bt, d0, c, q. split; [exact A1|]. split; [exact A2|]. split; [exact A3|]. split; [exact A4|]. cbv zeta in A5 |- *.
  intros n ja jm H F alpha rhs res res' Hn Hnp EH EF HP u. destruct (C88_moment_rule lam V n (ss_p ss) DC Hn Hnp) as [R1 R2].
  exact (A5 n _ _ ja jm H F alpha rhs res res' Hn R1 R2 EH EF HP u).
Qed.
Theorem C89_library_converges : forall lam V X O U W P M g ss eta mincl T nd tg, decompositions 51 lam V -> surface_mesh X P -> init_mesh X P M = Some g ->
  flat_surface X O U W -> (forall p, area U W p <> 0) -> tangents_below U W P tg -> 0 < eta < 2 -> (0 <= mincl)%Z -> ss_M ss = M -> (1 <= M)%nat ->
  (ss_p ss < 50)%nat -> ((ss_p ss + 2) * M < 100)%nat ->
  let p := Z.of_nat (ss_p ss) in let GS := fun d => tensor_rule (library_rule lam V d) in let D := (ss_n2 ss * t_elements (g_tree g))%nat in
  exists bt d0 c q, block_tree (g_tree g) (near_of (mid_of (g_balls g)) (rad_of (g_balls g)) eta) mincl = Some bt /\ far_distance (g_balls g) bt d0 /\
  0 <= c /\ 0 <= q < 1 /\ let E := INR (ss_p ss) ^ 2 * (tg * tg / PI) * curl_error eta d0 (ss_p ss + 2) in
  forall n ja jm H F alpha rhs res res', (0 < n)%nat -> (n + ss_p ss <= 101)%nat -> let R := moment_rule lam V n (ss_p ss) in
  compressed_operator laplace_hs ss X P M 1 GS eta mincl n (fst R) (snd R) ja jm = Some H -> full_operator laplace_hs ss X P M 1 GS T F ->
  h2_product H D nd T alpha rhs res res' -> forall u,
  Rabs (res' u - (res u + alpha * rsum (fun v => F u v * rhs v) nd)) <=
  Rabs alpha * ((c * q ^ n + E) * norm1 D (fun r => T r u) * norm1 D (fun r => rsum (fun v => T r v * rhs v) nd)).
Proof.
  intros lam V X O U W P M g ss eta mincl T nd tg DC HX Eg FX FA Ha He H0 HM HM1 HF HB p GS D.
  assert (FQ : forms_quadrature (g_elements g) p 1 M (library_rule lam V)) by (apply library_forms; unfold p, farfield_degree; try assumption; try lia; nia).
  destruct (C89_compressed_converges X O U W P M g ss 1 (library_rule lam V) eta mincl T nd (ss_p ss + 2) tg HX Eg FX FA Ha He H0 HM FQ ltac:(lia) ltac:(unfold p, farfield_degree; lia))
    as [bt [d0 [c [q [A1 [A2 [A3 [A4 A5]]]]]]]].
  exists bt, d0, c, q. split; [exact A1|]. split; [exact A2|]. split; [exact A3|]. split; [exact A4|]. cbv zeta in A5 |- *.
  intros n ja jm H F alpha rhs res res' Hn Hnp EH EF HP u. destruct (C88_moment_rule lam V n (ss_p ss) DC Hn Hnp) as [R1 R2].
  exact (A5 n _ _ ja jm H F alpha rhs res res' Hn R1 R2 EH EF HP u).
Qed.
Example C89_library_example : let ss := mkSS 1 1 zero_arr zero_arr zero_arr zero_arr in exists lam V g, decompositions 51 lam V /\
  surface_mesh far_sheets 2 /\ flat_surface far_sheets far_O far_U far_V /\ (forall p, area far_U far_V p <> 0) /\ (forall q, (q < 2)%nat -> area far_U far_V q <= 1) /\ tangents_below far_U far_V 2 1 /\
  init_mesh far_sheets 2 1 = Some g /\ let GS := fun d => tensor_rule (library_rule lam V d) in
  forall op order n T rhs nd, op = laplace_sl \/ op = laplace_dl \/ op = laplace_adl \/ op = laplace_hs -> (0 < n)%nat -> let R := moment_rule lam V n (ss_p ss) in
  exists H F res', compressed_operator op ss far_sheets 2 1 order GS 1 0 n (fst R) (snd R) zero_arr zero_mat = Some H /\ full_operator op ss far_sheets 2 1 order GS T F /\
    h2_product H (ss_n2 ss * t_elements (g_tree g)) nd T 1 rhs zero_arr res'.
Proof.
  intros ss. destruct (C88_decompositions 51) as [lam [V D]]. destruct far_fits as [MO FI].
  assert (SM : surface_mesh far_sheets 2) by (split; [lia|]; rewrite sheet_numbers; split; assumption).
  destruct (C88_mesh_exists far_sheets 2 1 SM) as [g Eg]. exists lam, V, g. split; [exact D|]. split; [exact SM|].
  destruct C79_disjoint_example as [FX [FA _]]. split; [exact FX|]. split; [exact FA|].
  assert (N1 : forall z, z = 1 -> sqrt z <= 1) by (intros z ->; rewrite sqrt_1; lra).
  split. { intros q Hq. unfold area, far_U, far_V, vcross, vnorm, vdot, vx, vy, vz. cbn [fst snd]. apply N1. ring. }
  split. { intros q Hq. unfold far_U, far_V, vnorm, vdot, vx, vy, vz. cbn [fst snd]. split; apply N1; ring. }
  split; [exact Eg|]. intros GS op order n T rhs nd Hop Hn R.
  assert (IL : In op (library_operators Ci)) by (destruct Hop as [-> | [-> | [-> | ->]]]; cbn; tauto).
  destruct (C88_compressed_exists far_sheets 2 1 g Ci op ss order GS 1 0 n (fst R) (snd R) zero_arr zero_mat SM Eg IL ltac:(lia) Hn) as [H [EH _]].
  destruct (C88_full_exists op ss far_sheets 2 1 order GS T SM) as [F EF].
  destruct (C28_execution_exists H (ss_n2 ss * t_elements (g_tree g)) nd T 1 rhs zero_arr) as [res' HP]. exists H, F, res'. auto.
Qed.

(* BEGIN ASSUMPTIONS *)
Print Assumptions C88_decompositions.
Print Assumptions C88_library_rule.
Print Assumptions C88_moment_rule.
Print Assumptions C88_library_converges.
Print Assumptions C89_library_converges.
