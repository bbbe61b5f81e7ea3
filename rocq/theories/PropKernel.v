(** C86: the kernel of the Laplace-Beltrami operator. *)
From Coq Require Import Reals Lra Lia Arith Bool List ZArith QArith Qreals Permutation Relations.
From Verif Require Import RSum ModelBase ModelBernstein SpecBernstein ProofBernstein ModelTree SpecTree SpecMesh ModelGlue SpecGlue ModelDeBoor SpecDeBoor ProofDeBoor ProofDeBoorDer PropDeBoor ProofIndep ProofTopoInfo ProofGlueMat ProofGlueMesh PropTopo PropGlue
  SpecPatch ProofProjection SpecForms ModelBall ModelOperators SpecOperators ModelForms ProofNearFar ProofForms PropTree PropAssembly PropForms ModelProj SpecProj ProofPiece ProofProj ProofProjMesh PropProj
  ProofOperators PropUtil ModelAnsatz SpecConform ProofConform ProofAnsatz SpecInterp ProofInterp PropConform PropComplete PropConstants ModelQuad ModelDuffy ModelL2 SpecQuad PropQuad PropL2 ProofLin PropUnique.
Import ListNotations.
Local Close Scope Q_scope.
Local Open Scope R_scope.


(** ** one element: a polynomial with derivatives zero at the points of a grid is constant *)
Lemma poly_dbern : forall p i, (i <= p)%nat -> polynomial (p + 1) (dbern p i).
Proof.
  intros [|p] i Hi; [exists (fun _ => 0); intros t; cbn [dbern]; symmetry; apply rsum_zero; intros; ring|]. cbn [dbern].
  apply poly_scal. apply (poly_ext _ (fun x => (match i with O => 0 | Datatypes.S j => bern p j x end) + -1 * (if (i <=? p)%nat then bern p i x else 0))); [intros; ring|].
  assert (Z : polynomial (Datatypes.S p + 1) (fun _ => 0)) by (exists (fun _ => 0); intros; symmetry; apply rsum_zero; intros; ring).
  apply poly_plus; [|apply poly_scal].
  - destruct i as [|i]; [exact Z|]. apply (poly_mono (p + 1)); [lia|]. apply poly_bern. lia.
  - destruct (Nat.leb_spec i p); [|exact Z]. apply (poly_mono (p + 1)); [lia|]. apply poly_bern. assumption.
Qed.
Lemma zero_derivative : forall (F : R -> R), (forall x, derivable_pt_lim F x 0) -> forall x y, F x = F y.
Proof.
  intros F D x y. assert (G : forall a b, a < b -> F a = F b).
  { intros a b L. destruct (MVT_cor2 F (fun _ => 0) a b L) as [c [E _]]; [intros; apply D|]. lra. }
  destruct (Rtotal_order x y) as [L|[->|L]]; [apply G; exact L|reflexivity|symmetry; apply G; exact L].
Qed.
Lemma tensor_flat : forall p (c : nat -> R) (x : nat -> R), distinct (p + 1) x ->
  (forall k l, (k < p + 1)%nat -> (l < p + 1)%nat ->
     rsum (fun i => c i * (dbern p (i mod (p + 1)) (x k) * bern p (i / (p + 1)) (x l))) ((p + 1) * (p + 1)) = 0 /\
     rsum (fun i => c i * (bern p (i mod (p + 1)) (x k) * dbern p (i / (p + 1)) (x l))) ((p + 1) * (p + 1)) = 0) ->
  exists a, forall i, (i < (p + 1) * (p + 1))%nat -> c i = a.
Proof.
  intros p c x Dx Z. set (f := fun s : R * R => rsum (fun i => c i * tensor_bernstein p i s) ((p + 1) * (p + 1))).
  assert (B : forall i, (i < (p + 1) * (p + 1))%nat -> (i mod (p + 1) <= p)%nat /\ (i / (p + 1) <= p)%nat).
  { intros i Hi. pose proof (Nat.mod_upper_bound i (p + 1) ltac:(lia)). assert (i / (p + 1) < p + 1)%nat by (apply Nat.div_lt_upper_bound; lia). lia. }
  assert (Ext : forall (f g : R -> R) y l, (forall z, f z = g z) -> derivable_pt_lim f y l -> derivable_pt_lim g y l).
  { intros f1 g1 y l Ex D eps He. destruct (D eps He) as [d Hd]. exists d. intros z Z1 Z2. rewrite <- !Ex. apply Hd; assumption. }
  assert (Sc : forall (f : R -> R) y l a, derivable_pt_lim f y l -> derivable_pt_lim (fun z => f z * a) y (l * a)).
  { intros f1 y l a D. replace (l * a) with (l * a + f1 y * 0) by ring. apply (derivable_pt_lim_mult f1 (fun _ => a)); [exact D|apply derivable_pt_lim_const]. }
  assert (Fx : forall l u w, (l < p + 1)%nat -> f (u, x l) = f (w, x l)).
  { intros l u w Hl. apply (zero_derivative (fun u => f (u, x l))). intros y.
    assert (Z1 : rsum (fun i => dbern p (i mod (p + 1)) y * bern p (i / (p + 1)) (x l) * c i) ((p + 1) * (p + 1)) = 0).
    { apply (poly_zero (p + 1) (fun y => rsum (fun i => dbern p (i mod (p + 1)) y * bern p (i / (p + 1)) (x l) * c i) ((p + 1) * (p + 1))) x); [|exact Dx|].
      - apply poly_sum. intros i Hi. apply (poly_ext _ (fun y => bern p (i / (p + 1)) (x l) * c i * dbern p (i mod (p + 1)) y)); [intros; ring|]. apply poly_scal. apply poly_dbern. apply B. exact Hi.
      - intros k Hk. rewrite <- (proj1 (Z k l Hk Hl)). apply rsum_ext. intros; ring. }
    rewrite <- Z1. unfold f. apply (rsum_derivable (fun i z => c i * tensor_bernstein p i (z, x l)) (fun i y => dbern p (i mod (p + 1)) y * bern p (i / (p + 1)) (x l) * c i)).
    intros i Hi. unfold tensor_bernstein. cbn [fst snd]. apply (Ext (fun z => bern p (i mod (p + 1)) z * bern p (i / (p + 1)) (x l) * c i)); [intros; ring|]. apply Sc. apply (Sc (fun z => bern p (i mod (p + 1)) z)). apply bern_derivable. apply B. exact Hi. }
  assert (Fy : forall k u w, (k < p + 1)%nat -> f (x k, u) = f (x k, w)).
  { intros k u w Hk. apply (zero_derivative (fun u => f (x k, u))). intros y.
    assert (Z1 : rsum (fun i => dbern p (i / (p + 1)) y * bern p (i mod (p + 1)) (x k) * c i) ((p + 1) * (p + 1)) = 0).
    { apply (poly_zero (p + 1) (fun y => rsum (fun i => dbern p (i / (p + 1)) y * bern p (i mod (p + 1)) (x k) * c i) ((p + 1) * (p + 1))) x); [|exact Dx|].
      - apply poly_sum. intros i Hi. apply (poly_ext _ (fun y => bern p (i mod (p + 1)) (x k) * c i * dbern p (i / (p + 1)) y)); [intros; ring|]. apply poly_scal. apply poly_dbern. apply B. exact Hi.
      - intros l Hl. rewrite <- (proj2 (Z k l Hk Hl)). apply rsum_ext. intros; ring. }
    rewrite <- Z1. unfold f. apply (rsum_derivable (fun i z => c i * tensor_bernstein p i (x k, z)) (fun i y => dbern p (i / (p + 1)) y * bern p (i mod (p + 1)) (x k) * c i)).
    intros i Hi. unfold tensor_bernstein. cbn [fst snd]. apply (Ext (fun z => bern p (i / (p + 1)) z * bern p (i mod (p + 1)) (x k) * c i)); [intros; ring|]. apply Sc. apply (Sc (fun z => bern p (i / (p + 1)) z)). apply bern_derivable. apply B. exact Hi. }
  set (a := f (x 0%nat, x 0%nat)). exists a. intros i Hi. enough (c i + -1 * a = 0) by lra. apply (tensor_nodes p (fun i => c i + -1 * a) x Dx); [|exact Hi]. intros k l Hk Hl.
  rewrite (rsum_ext _ (fun i => c i * tensor_bernstein p i (x k, x l) + -1 * a * tensor_bernstein p i (x k, x l))) by (intros; ring). rewrite rsum_plus, rsum_scal.
  fold (f (x k, x l)). rewrite (Fx l (x k) (x 0%nat) Hl), (Fy 0%nat (x l) (x 0%nat) ltac:(lia)). fold a.
  assert (One : rsum (fun i => tensor_bernstein p i (x k, x l)) ((p + 1) * (p + 1)) = 1); [|rewrite One; ring].
  rewrite rsum_flatten. transitivity (rsum (fun iy => 1 * bern p iy (x l)) (p + 1)); [|rewrite rsum_scal, bern_sum; ring]. apply rsum_ext. intros iy Hy. rewrite <- (bern_sum p (x k)), <- rsum_scal_r. apply rsum_ext. intros ix Hx'.
  unfold tensor_bernstein. rewrite (Nat.add_comm (iy * _)), Nat.mod_add, Nat.div_add, Nat.mod_small, Nat.div_small by lia. cbn [Nat.add fst snd]. reflexivity.
Qed.

(** patches a and b have a common edge *)
Definition neighbours (verts : list (list nat)) (a b : nat) : Prop :=
  (a < length verts)%nat /\ (b < length verts)%nat /\ exists i j, (i < 4)%nat /\ (j < 4)%nat /\ opposed verts a i b j.
(** the surface is in one piece *)
Definition one_piece (verts : list (list nat)) : Prop :=
  forall a b, (a < length verts)%nat -> (b < length verts)%nat -> clos_refl_sym_trans nat (neighbours verts) a b.

Section Mesh.
Context {Pt : Type} (close : Pt -> Pt -> bool) (corners : list (list Pt)) (M : nat) (t : tree) (els : list node).
Hypothesis Hm : uniform_mesh close corners M t els.
Variables (ws : list R) (junk : mat) (j1 j2 : arr) (solve : nat -> mat -> arr -> arr).
Hypothesis Hw : (20 <= length ws)%nat.
Hypothesis Hs : good_solve solve.
Notation verts := (fst (patch_vertices close [] corners)).
Hypothesis HM : mesh_ok verts.
Hypothesis HO : oriented verts.
Notation n := (2 ^ M)%nat.
Notation P := (length corners).
Notation beltrami ss X Q S := (local_operator laplace_beltrami_integrand ss X Q 1 (t_elements t) (as_T S) els).
Notation value p S v e s := (discrete_value p (P * 4 ^ M) (as_cols S) (as_T S) v 0 (n_id e) (n_h e) s).

Lemma vdot_zero : forall g : vec3, vdot g g = 0 -> g = (0, 0, 0).
Proof.
  intros [[a b] c]. unfold vdot, vx, vy, vz. cbn [fst snd]. intros E. assert (A : a = 0) by nra. assert (B : b = 0) by nra. assert (C : c = 0) by nra. rewrite A, B, C. reflexivity.
Qed.
(** the function is constant on every element *)
Lemma element_flat : forall p S X ss r v, ss_p ss = p -> ss_M ss = M -> resolves p r -> (forall e s, In e els -> p_kappa (surf_point X e s 1) <> 0) ->
  dotp (as_cols S) v (times (as_cols S) (beltrami ss X (tensor_rule r) S) v) = 0 ->
  forall e, In e els -> exists a, forall s, value p S v e s = a.
Proof.
  intros p S X ss r v Ep EM Hr Hk Z e I. destruct (tensor_points ws Hw p r Hr) as [Pw Pts]. set (Q := tensor_rule r) in *.
  destruct (scalar_function close corners M t els Hm X ss (as_cols S) (as_T S) v) as [E [vh [HE Hv]]]. destruct (gradients close corners M t els Hm X ss (as_cols S) (as_T S) v E vh HE Hv Hk) as [gv Gv].
  rewrite (C62_laplace_beltrami close corners M t els Hm ss X Q _ _ v v E E vh vh gv gv HE HE EM Hv Hv Hk Gv Gv) in Z.
  pose proof (n_h_pos e) as Ph. assert (Hl : (p + 1 <= length (fst r))%nat) by apply Hr.
  set (c := fun i => local_coefficient p (P * 4 ^ M) (as_cols S) (as_T S) v 0 (n_id e) i). assert (N2 : ss_n2 ss = ((p + 1) * (p + 1))%nat) by (unfold ss_n2; rewrite Ep; reflexivity).
  assert (Ext : forall (f g : R -> R) x l, (forall z, f z = g z) -> derivable_pt_lim f x l -> derivable_pt_lim g x l).
  { intros f g0 x l Ex D eps He. destruct (D eps He) as [d Hd]. exists d. intros z Z1 Z2. rewrite <- !Ex. apply Hd; assumption. }
  assert (Ev : forall z, value p S v e z = vh e (surf_point X e z 1)).
  { intros z. pose proof (Hv e (surf_point X e z 1) I) as G. rewrite (C61_scalar close corners M t els Hm X ss _ _ v E e _ HE I), Ep, (elements_count close corners M t els Hm ws Hw) in G. apply some_inj in G. symmetry. exact G. }
  destruct (tensor_flat p c (fun k => nth k (fst r) 0)) as [a Ha].
  - intros i j Hi Hj. apply Hr; lia.
  - intros k l Hk1 Hl1. destruct (Pts k l ltac:(lia) ltac:(lia)) as [q [Hq Eq]]. set (s := (nth k (fst r) 0, nth l (fst r) 0)) in *.
    pose proof (surface_sum_zero els Q (fun e s => vdot (gv e s) (gv e s) * p_kappa (surf_point X e s 1)) Pw
      ltac:(intros e' s'; apply Rmult_le_pos; [unfold vdot; repeat apply Rplus_le_le_0_compat; apply Rle_0_sqr|apply sqrt_pos]) Z e q I Hq) as G. cbv beta in G. rewrite Eq in G.
    apply Rmult_integral in G. destruct G as [G|G]; [|exfalso; exact (Hk _ _ I G)]. apply vdot_zero in G.
    destruct (Gv e s I) as [da [db [[D1 D2] [Ea [Eb _]]]]]. rewrite G in Ea, Eb. unfold vdot, vx, vy, vz in Ea, Eb. cbn [fst snd] in Ea, Eb.
    destruct (discrete_derivatives ss (P * 4 ^ M) (as_cols S) (as_T S) v 0 (n_id e) (n_h e) s ltac:(lra)) as [F1 F2]. rewrite Ep in F1, F2. fold c in F1, F2.
    pose proof (uniqueness_limite _ _ _ _ (Ext _ _ _ _ (fun z => Ev _) F1) D1) as U1. pose proof (uniqueness_limite _ _ _ _ (Ext _ _ _ _ (fun z => Ev _) F2) D2) as U2.
    assert (Sc : forall y, y / n_h e / n_h e = 0 -> y = 0).
    { intros y Y. replace y with (y / n_h e / n_h e * n_h e * n_h e) by (field; lra). rewrite Y. ring. }
    split; apply Sc; rewrite <- N2.
    + transitivity da; [|rewrite <- Ea; ring]. rewrite <- U1. f_equal. f_equal. apply rsum_ext. intros i Hi. rewrite dx_value, Ep by exact Hi. reflexivity.
    + transitivity db; [|rewrite <- Eb; ring]. rewrite <- U2. f_equal. f_equal. apply rsum_ext. intros i Hi. rewrite dy_value, Ep by exact Hi. reflexivity.
  - exists (a / n_h e). intros s. unfold discrete_value. f_equal. fold c. rewrite (rsum_ext _ (fun i => a * tensor_bernstein p i s)) by (intros i Hi; pose proof (Ha i Hi) as Q1; unfold c in Q1; rewrite Q1; reflexivity). rewrite rsum_scal.
    assert (One : rsum (fun i => tensor_bernstein p i s) ((p + 1) * (p + 1)) = 1); [|rewrite One; ring].
    rewrite rsum_flatten. transitivity (rsum (fun iy => 1 * bern p iy (snd s)) (p + 1)); [|rewrite rsum_scal, bern_sum; ring]. apply rsum_ext. intros iy Hy. rewrite <- (bern_sum p (fst s)), <- rsum_scal_r. apply rsum_ext. intros ix Hx'.
    unfold tensor_bernstein. rewrite (Nat.add_comm (iy * _)), Nat.mod_add, Nat.div_add, Nat.mod_small, Nat.div_small by lia. cbn [Nat.add fst snd]. reflexivity.
Qed.
(** a continuous function which is constant on every element is constant *)
Lemma flat_constant : forall p rep S v, (1 <= rep <= p)%nat -> (p <= 19)%nat -> ansatz_continuous ws junk j1 j2 solve p M P rep t els = Some S -> one_piece verts ->
  (forall e, In e els -> exists a, forall s, value p S v e s = a) -> exists a, forall e s, In e els -> value p S v e s = a.
Proof.
  intros p rep S v Hr Hp ES Con Flat. pose proof (mesh_numbered close corners M t els Hm) as Nb. pose proof (n_pos M) as Hn. pose proof (verts_length close corners) as VL.
  assert (Pn : 0 < INR n) by (apply lt_0_INR; lia).
  assert (Meet : forall e e' z z', In e els -> In e' els -> unit_square z -> unit_square z' -> same_surface_point verts (n_patch e) (patch_point e z) (n_patch e') (patch_point e' z') -> forall s s', value p S v e s = value p S v e' s').
  { intros e e' z z' I I' U U' SP s s'. destruct (Flat e I) as [a Ha]. destruct (Flat e' I') as [a' Ha']. rewrite Ha, Ha', <- (Ha z), <- (Ha' z').
    destruct (ProofForms.numbered_in _ _ e Nb I) as [_ Ek]. destruct (ProofForms.numbered_in _ _ e' Nb I') as [_ Ek'].
    apply (C64_continuous close corners M t els Hm ws junk j1 j2 solve Hw Hs HM HO p rep S v _ _ e e' z z' Hr Hp ES Ek Ek' U U' SP). }
  assert (Cell : forall q X Y, (q < P)%nat -> (X < n)%nat -> (Y < n)%nat -> exists e, In e els /\ at_cell n e X Y /\ n_patch e = q).
  { intros q X Y Hq HX HY. destruct (cell_element close corners M t els Hm ws Hw q X Y Hq HX HY) as [k [e [Ek [C Pe]]]]. exists e. split; [apply (nth_error_In _ _ Ek)|]. split; assumption. }
  assert (Pp : forall e X Y s, at_cell n e X Y -> patch_point e s = ((INR X + fst s) / INR n, (INR Y + snd s) / INR n)) by (intros; apply cell_patch_point; assumption).
  (* one patch *)
  assert (Row : forall q X Y e e', In e els -> In e' els -> n_patch e = q -> n_patch e' = q -> at_cell n e X Y -> at_cell n e' 0 Y -> forall s s', value p S v e s = value p S v e' s').
  { intros q X. induction X as [|X IH]; intros Y e e' I I' Pe Pe' C C' s s'.
    - apply (Meet e e' (0, 0) (0, 0) I I'); [split; cbn; lra|split; cbn; lra|]. left. split; [congruence|]. rewrite (Pp e 0%nat Y _ C), (Pp e' 0%nat Y _ C'). reflexivity.
    - assert (HX : (Datatypes.S X < n)%nat) by apply C. assert (HY : (Y < n)%nat) by apply C.
      assert (Hq : (q < P)%nat) by (rewrite <- Pe; apply (mesh_cells close corners M t els Hm e I)).
      destruct (Cell q X Y Hq ltac:(lia) HY) as [e2 [I2 [C2 P2]]].
      rewrite (Meet e e2 (0, 0) (1, 0) I I2 ltac:(split; cbn; lra) ltac:(split; cbn; lra)) with (s' := s).
      + apply (IH Y e2 e'); assumption.
      + left. split; [congruence|]. rewrite (Pp e _ Y _ C), (Pp e2 X Y _ C2), S_INR. cbn [fst snd]. f_equal. f_equal. ring. }
  assert (Col : forall q Y e e', In e els -> In e' els -> n_patch e = q -> n_patch e' = q -> at_cell n e 0 Y -> at_cell n e' 0 0 -> forall s s', value p S v e s = value p S v e' s').
  { intros q Y. induction Y as [|Y IH]; intros e e' I I' Pe Pe' C C' s s'.
    - apply (Row q 0%nat 0%nat); assumption.
    - assert (HY : (Datatypes.S Y < n)%nat) by apply C.
      assert (Hq : (q < P)%nat) by (rewrite <- Pe; apply (mesh_cells close corners M t els Hm e I)).
      destruct (Cell q 0%nat Y Hq ltac:(lia) ltac:(lia)) as [e2 [I2 [C2 P2]]].
      rewrite (Meet e e2 (0, 0) (0, 1) I I2 ltac:(split; cbn; lra) ltac:(split; cbn; lra)) with (s' := s).
      + apply (IH e2 e'); assumption.
      + left. split; [congruence|]. rewrite (Pp e 0%nat _ _ C), (Pp e2 0%nat Y _ C2), S_INR. cbn [fst snd]. f_equal. f_equal. ring. }
  assert (Patch : forall e e', In e els -> In e' els -> n_patch e = n_patch e' -> forall s s', value p S v e s = value p S v e' s').
  { assert (Zero : forall e, In e els -> exists e0, In e0 els /\ n_patch e0 = n_patch e /\ at_cell n e0 0 0 /\ forall s s', value p S v e s = value p S v e0 s').
    { intros e I. destruct (mesh_cells close corners M t els Hm e I) as [[X [Y C]] Pe]. assert (HX : (X < n)%nat) by apply C. assert (HY : (Y < n)%nat) by apply C.
      destruct (Cell _ 0%nat Y Pe ltac:(lia) HY) as [e1 [I1 [C1 P1]]]. destruct (Cell _ 0%nat 0%nat Pe ltac:(lia) ltac:(lia)) as [e0 [I0 [C0 P0]]]. exists e0. split; [exact I0|]. split; [exact P0|]. split; [exact C0|]. intros s s'.
      rewrite (Row (n_patch e) X Y e e1 I I1 eq_refl P1 C C1 s s'). apply (Col (n_patch e) Y e1 e0); assumption. }
    intros e e' I I' Pe s s'. destruct (Zero e I) as [e0 [I0 [P0 [C0 V0]]]]. destruct (Zero e' I') as [e1 [I1 [P1 [C1 V1]]]].
    rewrite (V0 s s), (V1 s' s). apply (Row (n_patch e) 0%nat 0%nat); [assumption|assumption|assumption|congruence|assumption|assumption]. }
  (* corners of a patch *)
  assert (Side : forall c, c = 0 \/ c = 1 -> exists X z, (X < n)%nat /\ 0 <= z <= 1 /\ (INR X + z) / INR n = c).
  { intros c [-> | ->]; [exists 0%nat, 0|exists (n - 1)%nat, 1]; (split; [lia|]); (split; [lra|]); [cbn [INR]; field; lra|rewrite minus_INR by lia; cbn [INR]; field; lra]. }
  assert (Corner : forall q i u, (q < P)%nat -> (i < 4)%nat -> u = 0 \/ u = 1 -> exists e z, In e els /\ n_patch e = q /\ unit_square z /\ patch_point e z = along i u).
  { intros q i u Hq Hi Hu. assert (B : exists c d, along i u = (c, d) /\ (c = 0 \/ c = 1) /\ (d = 0 \/ d = 1)).
    { destruct i as [|[|[|i]]]; cbn [along]; eexists _, _; (split; [reflexivity|]); destruct Hu as [-> | ->]; split; lra. }
    destruct B as [c [d [Ea [Hc Hd]]]]. destruct (Side c Hc) as [X [z [HX [Hz Ez]]]]. destruct (Side d Hd) as [Y [z' [HY [Hz' Ez']]]]. destruct (Cell q X Y Hq HX HY) as [e [I [C Pe]]].
    exists e, (z, z'). split; [exact I|]. split; [exact Pe|]. split; [split; cbn; assumption|]. rewrite (Pp e X Y _ C), Ea. cbn [fst snd]. rewrite Ez, Ez'. reflexivity. }
  assert (All : forall a b, clos_refl_sym_trans nat (neighbours verts) a b -> (a < P)%nat -> (b < P)%nat -> forall e e', In e els -> In e' els -> n_patch e = a -> n_patch e' = b -> forall s s', value p S v e s = value p S v e' s').
  { assert (Bd : forall a b, clos_refl_sym_trans nat (neighbours verts) a b -> a = b \/ ((a < P)%nat /\ (b < P)%nat)).
    { intros a b Rb. induction Rb as [a b N| |a b _ IH|a b c _ IH1 _ IH2]; [|left; reflexivity|destruct IH as [->|[A1 A2]]; auto|destruct IH1 as [->|[A1 A2]]; [exact IH2|]; destruct IH2 as [<-|[B1 B2]]; auto].
      right. destruct N as [N1 [N2 _]]. rewrite VL in N1, N2. auto. }
    intros a b Rb. induction Rb as [a b N| |a b _ IH|a b c R1 IH1 R2 IH2]; intros La Lb e e' I I' Pe Pe' s s'.
    - destruct N as [_ [_ [i [j [Hi [Hj Op]]]]]]. destruct (Corner a i 0 La Hi (or_introl eq_refl)) as [e1 [z1 [I1 [P1 [U1 E1]]]]]. destruct (Corner b j 1 Lb Hj (or_intror eq_refl)) as [e2 [z2 [I2 [P2 [U2 E2]]]]].
      rewrite (Patch e e1 I I1 ltac:(congruence) s s), (Patch e' e2 I' I2 ltac:(congruence) s' s). apply (Meet e1 e2 z1 z2 I1 I2 U1 U2). right. exists i, j. rewrite P1, P2, E1, E2.
      split; [exact Hi|]. split; [exact Hj|]. split; [exact Op|]. exists 0. split; [lra|]. split; [reflexivity|]. f_equal. ring.
    - apply Patch; congruence.
    - symmetry. apply (IH Lb La e' e); assumption.
    - destruct (Bd _ _ R2) as [->|[B1 B2]]; [apply IH1; assumption|]. destruct (Cell b 0%nat 0%nat B1 ltac:(lia) ltac:(lia)) as [e1 [I1 [C1 P1]]]. rewrite (IH1 La B1 e e1 I I1 Pe P1 s s). apply IH2; assumption. }
  assert (HP : (0 < P)%nat) by (destruct Hm as [Hc _]; destruct corners; [congruence|simpl; lia]).
  destruct (Cell 0%nat 0%nat 0%nat HP ltac:(lia) ltac:(lia)) as [e0 [I0 [_ P0]]]. exists (value p S v e0 (0, 0)). intros e s I.
  pose proof (mesh_cells close corners M t els Hm e I) as [_ Pe]. apply (All (n_patch e) 0%nat); [apply Con; rewrite VL; assumption|exact Pe|exact HP|exact I|exact I0|reflexivity|exact P0].
Qed.
(** On a surface in one piece the Laplace-Beltrami operator of a continuous space of degree at most 4 vanishes at the constants only. *)
Theorem C86_beltrami_kernel : forall p rep S X ss r v, (1 <= rep <= p)%nat -> (p <= 4)%nat -> ansatz_continuous ws junk j1 j2 solve p M P rep t els = Some S ->
  ss_p ss = p -> ss_M ss = M -> resolves p r -> (forall e s, In e els -> p_kappa (surf_point X e s 1) <> 0) -> one_piece verts ->
  (dotp (as_cols S) v (times (as_cols S) (beltrami ss X (tensor_rule r) S) v) = 0 <-> exists a, forall q, (q < as_cols S)%nat -> v q = a).
Proof.
  intros p rep S X ss r v Hr Hp ES Ep EM Hres Hk Con. assert (SS : PropConstants.scalar_space corners M t els ws junk j1 j2 solve p rep S) by (left; split; assumption).
  split.
  - intros Z. destruct (flat_constant p rep S v Hr ltac:(lia) ES Con (element_flat p S X ss r v Ep EM Hres Hk Z)) as [a Ha]. exists (a / 2 ^ M).
    destruct (C61_evaluator_exists close corners M t els Hm X ss 1 (as_cols S) (as_T S) v) as [E HE]. destruct (C61_evaluator_exists close corners M t els Hm X ss 1 (as_cols S) (as_T S) (fun _ => a / 2 ^ M)) as [E' HE'].
    apply (C86_scalar close corners M t els Hm ws junk j1 j2 solve Hw Hs HM HO p rep S X ss v (fun _ => a / 2 ^ M) E E' Hp SS Ep HE HE'). intros e I. exists INR.
    split; [intros i j Hi Hj Ne F; apply INR_eq in F; lia|]. intros k l Hk1 Hl1. exists (surf_point X e (INR k, INR l) 1). split; [reflexivity|].
    rewrite (C61_scalar close corners M t els Hm X ss _ _ _ E e _ HE I), Ep, (elements_count close corners M t els Hm ws Hw), (Ha e _ I).
    rewrite (C83_constant close corners M t els Hm ws junk j1 j2 solve Hw Hs HM HO p rep S X ss _ E' e _ Hp SS Ep HE' I). f_equal. field. apply pow_nonzero. lra.
  - intros [a Ha]. unfold dotp. apply rsum_zero. intros i Hi. apply Rmult_eq_0_compat_l. unfold times.
    rewrite (rsum_ext _ (fun j => beltrami ss X (tensor_rule r) S i j * a)) by (intros j Hj; rewrite (Ha j Hj); reflexivity).
    rewrite rsum_scal_r. rewrite (proj1 (C83_beltrami_rows close corners M t els Hm ws junk j1 j2 solve Hw Hs HM HO p rep S ss X _ i Hp SS Ep EM Hk Hi)). ring.
Qed.
(** A linear system with the Laplace-Beltrami operator has a solution if and only if the right-hand side has the sum zero; two solutions
    differ by a constant. *)
Theorem C86_beltrami_solvable : forall p rep S X ss r b, (1 <= rep <= p)%nat -> (p <= 4)%nat -> ansatz_continuous ws junk j1 j2 solve p M P rep t els = Some S ->
  ss_p ss = p -> ss_M ss = M -> resolves p r -> (forall e s, In e els -> p_kappa (surf_point X e s 1) <> 0) -> one_piece verts ->
  ((exists u, forall i, (i < as_cols S)%nat -> times (as_cols S) (beltrami ss X (tensor_rule r) S) u i = b i) <-> rsum b (as_cols S) = 0) /\
  forall u u', (forall i, (i < as_cols S)%nat -> times (as_cols S) (beltrami ss X (tensor_rule r) S) u i = b i) -> (forall i, (i < as_cols S)%nat -> times (as_cols S) (beltrami ss X (tensor_rule r) S) u' i = b i) ->
    exists a, forall i, (i < as_cols S)%nat -> u' i = u i + a.
Proof.
  intros p rep S X ss r b Hr Hp ES Ep EM Hres Hk Con. assert (SS : PropConstants.scalar_space corners M t els ws junk j1 j2 solve p rep S) by (left; split; assumption).
  pose proof (fun v => C86_beltrami_kernel p rep S X ss r v Hr Hp ES Ep EM Hres Hk Con) as Ker. set (N := as_cols S) in *. set (A := beltrami ss X (tensor_rule r) S) in *.
  assert (Sum : forall u, rsum (times N A u) N = 0).
  { intros u. unfold times. rewrite rsum_swap. apply rsum_zero. intros j Hj. rewrite rsum_scal_r.
    pose proof (proj2 (C83_beltrami_rows close corners M t els Hm ws junk j1 j2 solve Hw Hs HM HO p rep S ss X (tensor_rule r) j Hp SS Ep EM Hk Hj)) as Co. fold A N in Co. rewrite Co. ring. }
  assert (Lin : forall u u' i, times N A (fun j => u j - u' j) i = times N A u i - times N A u' i).
  { intros u u' i. unfold times. rewrite <- rsum_minus. apply rsum_ext. intros; ring. }
  split; [split|].
  - intros [u Hu]. rewrite <- (Sum u). apply rsum_ext. intros i Hi. symmetry. apply Hu. exact Hi.
  - intros Zb. destruct (square_solvable N (fun i j => A i j + 1)) with (b := b) as [u Hu].
    + intros v Hv. assert (E : forall i, (i < N)%nat -> times N A v i = - rsum v N).
      { intros i Hi. specialize (Hv i Hi). rewrite (rsum_ext _ (fun j => A i j * v j + v j)) in Hv by (intros; ring). rewrite rsum_plus in Hv. unfold times. lra. }
      assert (Q : dotp N v (times N A v) = - (rsum v N * rsum v N)).
      { unfold dotp. rewrite (rsum_ext _ (fun i => v i * (- rsum v N))) by (intros i Hi; rewrite E by exact Hi; reflexivity). rewrite rsum_scal_r. ring. }
      destruct (C62_beltrami_symmetric_positive close corners M t els Hm ss X (tensor_rule r) N (as_T S) v v EM Hk) as [_ Pos]. cbv zeta in Pos. fold A in Pos.
      destruct (tensor_points ws Hw p r Hres) as [Pw _]. specialize (Pos ltac:(intros q Hq; left; apply Pw; exact Hq)).
      assert (Z : rsum v N = 0) by nra. destruct (proj1 (Ker v) ltac:(rewrite Q, Z; ring)) as [a Ha].
      intros j Hj. rewrite (Ha j Hj). rewrite (rsum_ext _ (fun _ => a) N) in Z by (intros; apply Ha; assumption). rewrite rsum_const in Z.
      apply Rmult_integral in Z. assert (0 < INR N) by (apply lt_0_INR; lia). destruct Z; lra.
    + exists u. assert (E : forall i, (i < N)%nat -> times N A u i + rsum u N = b i).
      { intros i Hi. rewrite <- (Hu i Hi). unfold times. rewrite <- rsum_plus. apply rsum_ext. intros; ring. }
      assert (Zu : INR N * rsum u N = 0).
      { rewrite <- rsum_const. pose proof (Sum u) as Su. assert (T : rsum (fun i => times N A u i + rsum u N) N = 0) by (rewrite <- Zb; apply rsum_ext; exact E). rewrite rsum_plus, Su in T. lra. }
      intros i Hi. assert (0 < INR N) by (apply lt_0_INR; lia). specialize (E i Hi). apply Rmult_integral in Zu. destruct Zu; lra.
  - intros u u' Hu Hu'. destruct (proj1 (Ker (fun j => u' j - u j))) as [a Ha].
    + unfold dotp. apply rsum_zero. intros i Hi. rewrite Lin, Hu, Hu' by exact Hi. ring.
    + exists a. intros i Hi. specialize (Ha i Hi). cbv beta in Ha. lra.
Qed.
End Mesh.

(** The faces of the cube with quadratic functions and the four point rule meet the hypotheses: 56 basis functions. *)
Lemma cube_one_piece : one_piece cube.
Proof.
  assert (D : forall a b i j, (a < 6)%nat -> (b < 6)%nat -> (i < 4)%nat -> (j < 4)%nat -> opposed cube a i b j -> clos_refl_sym_trans nat (neighbours cube) a b).
  { intros a b i j Ha Hb Hi Hj Op. apply rst_step. split; [exact Ha|]. split; [exact Hb|]. exists i, j. auto. }
  assert (Z : forall a, (a < 6)%nat -> clos_refl_sym_trans nat (neighbours cube) a 0%nat).
  { intros a Ha. destruct a as [|[|[|[|[|[|a]]]]]]; [apply rst_refl| | | | | |lia].
    - apply (D 1 0 0 0)%nat; try lia. split; reflexivity.
    - apply (D 2 0 0 1)%nat; try lia. split; reflexivity.
    - apply (D 3 0 0 2)%nat; try lia. split; reflexivity.
    - apply (D 4 0 0 3)%nat; try lia. split; reflexivity.
    - apply (rst_trans _ _ _ 1%nat); [apply (D 5 1 0 2)%nat; try lia; split; reflexivity|apply (D 1 0 0 0)%nat; try lia; split; reflexivity]. }
  intros a b Ha Hb. apply (rst_trans _ _ _ 0%nat); [apply Z; exact Ha|apply rst_sym; apply Z; exact Hb].
Qed.
Example C86_example : exists t els solve S, uniform_mesh Nat.eqb cube 1 t els /\ good_solve solve /\ mesh_ok (fst (patch_vertices Nat.eqb [] cube)) /\ oriented (fst (patch_vertices Nat.eqb [] cube)) /\ one_piece (fst (patch_vertices Nat.eqb [] cube)) /\
  ansatz_continuous (repeat 0 20) (fun _ _ => 0) (fun _ => 0) (fun _ => 0) solve 2 1 6 1 t els = Some S /\ as_cols S = 56%nat /\
  (exists r, gauss_rule 4 = Some r /\ resolves 2 r) /\
  exists X : surface, forall e s, In e els -> p_kappa (surf_point X e s 1) <> 0.
Proof.
  destruct C64_example as [t [els [solve [S [U [Hs [HM [HO [ES [_ Ec]]]]]]]]]]. exists t, els, solve, S. repeat (split; [assumption|]). split; [rewrite cube_verts; exact cube_one_piece|]. split; [exact ES|]. split; [exact Ec|]. split.
  - destruct (C37_tables 4 ltac:(lia)) as [x [w [E _]]]. exists (x, w). split; [exact E|]. apply (C86_rules 2 4); [lia|exact E].
  - exists (fun _ st => ((fst st, snd st, 0), (1, 0, 0), (0, 1, 0))). intros e s _. unfold p_kappa, surf_point, p_n, vnorm, vdot, vcross, p_dx, p_dy, vx, vy, vz. cbn [fst snd].
    match goal with |- sqrt ?z <> 0 => replace z with 1 by ring end. rewrite sqrt_1. lra.
Qed.

(* BEGIN ASSUMPTIONS *)
Print Assumptions C86_beltrami_kernel.
Print Assumptions C86_beltrami_solvable.
