(** Divergence-conforming identifications (C24). *)
From Coq Require Import List Arith Bool ZArith Lia Permutation Relations.
From Verif Require Import ModelBase ModelTree ModelGlue SpecTree SpecMesh SpecGlue ProofConf ProofGlueMat ProofGlueId ProofGlueEdge.
Import ListNotations.
Local Open Scope nat_scope.

Lemma nodup_map_in : forall {A B} (f : A -> B) l, (forall a b, In a l -> In b l -> f a = f b -> a = b) -> NoDup l -> NoDup (map f l).
Proof.
  intros A B f l H N. induction N as [|a l Ha N IH]; cbn [map]; constructor.
  - intros Hin. apply in_map_iff in Hin. destruct Hin as [b [E Hb]]. apply Ha. rewrite <- (H b a); [assumption|right; assumption|left; reflexivity|assumption].
  - apply IH. intros x y Hx Hy. apply H; right; assumption.
Qed.

Lemma coef_flux : forall i j v, i < 4 -> j < 4 -> ((out_flux i + v * out_flux j = 0)%Z <-> v = glue_coef i j).
Proof. intros i j v Hi Hj. four Hi; four Hj; cbn [out_flux]; match goal with |- context [glue_coef ?a ?b] => let x := eval vm_compute in (glue_coef a b) in change (glue_coef a b) with x end; lia. Qed.

Section Div.
Variables S L P : nat.
Hypothesis HS : 1 <= S.
Hypothesis HL : L = S + 1.
Let c := S * L.

Definition ddof (p i k : nat) : nat :=
  edge_dof i (if in_first_comp i then L else S) (if in_first_comp i then S else L) (p * c + (if in_first_comp i then 0 else c * P)) k.

Lemma comp_cases : forall i, i < 4 -> (in_first_comp i = true /\ (i = 1 \/ i = 3)) \/ (in_first_comp i = false /\ (i = 0 \/ i = 2)).
Proof. intros i Hi. four Hi; simpl; auto. Qed.
Lemma ddofs_spec : forall p i, i < 4 ->
  edge_dofs i (if in_first_comp i then L else S) (if in_first_comp i then S else L) (p * c + (if in_first_comp i then 0 else c * P)) =
  Some (map (ddof p i) (seq 0 S)).
Proof.
  intros p i Hi. rewrite edge_dofs_spec; [|assumption| |].
  - do 3 f_equal. clear - Hi. four Hi; reflexivity.
  - intros H. destruct (comp_cases i Hi) as [[E [?|?]]|[E _]]; [lia|lia|]. rewrite E. lia.
  - intros H. destruct (comp_cases i Hi) as [[E _]|[E [?|?]]]; [|lia|lia]. rewrite E. lia.
Qed.

Lemma ddof_flux : forall p i k, i < 4 -> k < S -> exists X Y, flux_point S L i (ccw i S k) X Y /\
  ddof p i k = vec_dof S L P (normal_comp i) p X Y.
Proof.
  intros p i k Hi Hk. unfold ddof, edge_dof. exists (fst (edge_point i (if in_first_comp i then L else S) (if in_first_comp i then S else L) k)),
    (snd (edge_point i (if in_first_comp i then L else S) (if in_first_comp i then S else L) k)).
  unfold flux_point, vec_dof, grid_dof. four Hi; cbn [in_first_comp Nat.eqb orb edge_point fst snd ccw normal_comp]; fold c; (split; [lia|nia]).
Qed.
Lemma flux_fun : forall i s X Y X' Y', flux_point S L i s X Y -> flux_point S L i s X' Y' -> X = X' /\ Y = Y'.
Proof. intros [|[|[|i]]] s X Y X' Y'; unfold flux_point; lia. Qed.

(** position inside the block of patch p and component *)
Lemma ddof_block : forall p i k, i < 4 -> k < S -> exists r, r < c /\ ddof p i k = (if in_first_comp i then 0 else c * P) + p * c + r /\
  r = (if in_first_comp i then L else S) * snd (edge_point i (if in_first_comp i then L else S) (if in_first_comp i then S else L) k)
      + fst (edge_point i (if in_first_comp i then L else S) (if in_first_comp i then S else L) k).
Proof.
  intros p i k Hi Hk. eexists. split; [|split; [|reflexivity]].
  - assert (Hc : c = S * L) by reflexivity.
    four Hi; cbn [in_first_comp Nat.eqb orb edge_point fst snd]; nia.
  - unfold ddof, edge_dof, grid_dof. lia.
Qed.
Lemma ddof_range : forall p i k, p < P -> i < 4 -> k < S -> ddof p i k < 2 * P * c.
Proof.
  intros p i k Hp Hi Hk. destruct (ddof_block p i k Hi Hk) as [r [Hr [-> _]]]. destruct (in_first_comp i); nia.
Qed.
Lemma ddof_inj : forall p i k p' i' k', p < P -> i < 4 -> k < S -> p' < P -> i' < 4 -> k' < S ->
  ddof p i k = ddof p' i' k' -> p = p' /\ i = i' /\ k = k'.
Proof.
  intros p i k p' i' k' Hp Hi Hk Hp' Hi' Hk' E.
  destruct (ddof_block p i k Hi Hk) as [r [Hr [E1 R1]]]. destruct (ddof_block p' i' k' Hi' Hk') as [r' [Hr' [E2 R2]]].
  rewrite E1, E2 in E. clear E1 E2.
  assert (Comp : in_first_comp i = in_first_comp i').
  { destruct (in_first_comp i), (in_first_comp i'); try reflexivity; exfalso; nia. }
  rewrite Comp in E. assert (Hpp : p = p') by nia. assert (Hrr : r = r') by nia. subst p'. split; [reflexivity|]. rewrite <- Hrr in R2. clear Hrr.
  rewrite R1 in R2. clear R1 E Hr'.
  four Hi; four Hi'; cbn [in_first_comp Nat.eqb orb edge_point fst snd] in *; try discriminate Comp; try (exfalso; destruct (lt_eq_lt_dec k' k) as [[?|?]|?]; nia); (split; [reflexivity|nia]).
Qed.

(** ** groups of an edge *)
Definition dgroup (p q i j k : nat) : group :=
  ([Nat.min (ddof p i k) (ddof q j (partner i j S k)); Nat.max (ddof p i k) (ddof q j (partner i j S k))], glue_coef i j).
Definition dgroups (e : interface) : list group :=
  match e with
  | (p, Some q, i, Some j) => map (dgroup p q i j) (seq 0 S)
  | _ => []
  end.

Lemma div_edge_ok : forall e out, edges_ok P [e] -> div_edge S L P e out = Some (out ++ dgroups e).
Proof.
  intros [[[p q] i] j] out Ok. destruct (Ok p q i j (or_introl eq_refl)) as [Hp [Hi [Hq Hj]]].
  unfold div_edge. fold c. rewrite ddofs_spec by assumption. cbn [bind].
  destruct q as [q|]; [destruct j as [j|]|]; [|cbn [dgroups]; rewrite app_nil_r; reflexivity|cbn [dgroups]; rewrite app_nil_r; reflexivity].
  destruct (Hq q eq_refl) as [Hpq HqP]. specialize (Hj j eq_refl). rewrite (proj2 (Nat.leb_le p q)) by lia. cbn [assert bind].
  rewrite ddofs_spec by assumption. cbn [bind]. rewrite !map_length, Nat.eqb_refl. cbn [assert bind]. rewrite seq_length.
  unfold edge_pairs.
  destruct (for_opt_inv (fun k o => o = out ++ map (dgroup p q i j) (seq 0 k)) S
    (fun k s => x <- get (map (ddof p i) (seq 0 S)) k ;;
       y <- get (map (ddof q j) (seq 0 S)) (if reverse_parametrized i j then S - 1 - k else k) ;;
       _ <- assert (negb (x =? y)) ;; Some (s ++ [([Nat.min x y; Nat.max x y], glue_coef i j)])) out) as [o [E1 E2]].
  - cbn [seq map]. rewrite app_nil_r. reflexivity.
  - intros k o Hk ->. fold (partner i j S k). pose proof (partner_lt i j S k Hk) as Hpk.
    rewrite !get_map_seq by assumption. cbn [bind].
    rewrite (proj2 (Nat.eqb_neq (ddof p i k) (ddof q j (partner i j S k)))).
    + cbn [negb assert bind]. eexists. split; [reflexivity|]. rewrite seq_snoc, map_app, app_assoc. reflexivity.
    + intros E. apply ddof_inj in E; auto; lia.
  - etransitivity; [exact E1|]. rewrite E2. reflexivity.
Qed.
Lemma div_fold : forall edges out, edges_ok P edges -> fold_opt (div_edge S L P) edges out = Some (out ++ flat_map dgroups edges).
Proof.
  induction edges as [|e edges IH]; intros out Ok; cbn [fold_opt flat_map]; [rewrite app_nil_r; reflexivity|].
  rewrite div_edge_ok; [|intros p q i j [E|[]]; apply Ok; left; assumption]. cbn [bind].
  rewrite IH; [rewrite app_assoc; reflexivity|]. intros p q i j H. apply Ok. right. assumption.
Qed.

(** ** every dof at most once *)
Definition slot_dofs (sl : nat * nat) : list nat := map (ddof (fst sl) (snd sl)) (seq 0 S).

Lemma partner_perm : forall i j, Permutation (map (partner i j S) (seq 0 S)) (seq 0 S).
Proof.
  intros i j. apply NoDup_Permutation.
  - apply nodup_map_in; [|apply seq_NoDup]. intros a b Ha Hb. apply in_seq in Ha, Hb. unfold partner. destruct (reverse_parametrized i j); lia.
  - apply seq_NoDup.
  - intros x. rewrite in_map_iff, in_seq. split.
    + intros [k [<- Hk]]. apply in_seq in Hk. pose proof (partner_lt i j S k). lia.
    + intros Hx. exists (partner i j S x). split; [|apply in_seq; pose proof (partner_lt i j S x); lia]. unfold partner. destruct (reverse_parametrized i j); lia.
Qed.
Lemma perm_pairs : forall (f g : nat -> nat) l,
  Permutation (concat (map (fun k => [Nat.min (f k) (g k); Nat.max (f k) (g k)]) l)) (map f l ++ map g l).
Proof.
  intros f g l. induction l as [|k l IH]; [constructor|]. cbn [map concat app].
  transitivity (f k :: g k :: map f l ++ map g l).
  - destruct (le_lt_dec (f k) (g k)).
    + rewrite Nat.min_l, Nat.max_r by lia. do 2 constructor. assumption.
    + rewrite Nat.min_r, Nat.max_l by lia. etransitivity; [apply perm_swap|]. do 2 constructor. assumption.
  - constructor. apply Permutation_middle.
Qed.
Lemma edge_perm : forall e, Permutation (concat (map fst (dgroups e))) (flat_map slot_dofs (sides e)).
Proof.
  intros [[[p [q|]] i] [j|]]; cbn [dgroups sides flat_map map concat]; try constructor.
  rewrite map_map, app_nil_r. unfold dgroup. cbn [fst].
  etransitivity; [apply (perm_pairs (ddof p i) (fun k => ddof q j (partner i j S k)))|].
  apply Permutation_app_head. unfold slot_dofs. cbn [fst snd]. rewrite <- (map_map (partner i j S) (ddof q j)).
  apply Permutation_map. apply partner_perm.
Qed.
Lemma all_perm : forall edges, Permutation (concat (map fst (flat_map dgroups edges))) (flat_map slot_dofs (flat_map sides edges)).
Proof.
  induction edges as [|e edges IH]; [constructor|]. cbn [flat_map]. rewrite map_app, concat_app, flat_map_app.
  apply Permutation_app; [apply edge_perm|assumption].
Qed.
Lemma sides_ok : forall edges sl, edges_ok P edges -> In sl (flat_map sides edges) -> fst sl < P /\ snd sl < 4.
Proof.
  intros edges [a b] Ok H. apply in_flat_map in H. destruct H as [[[[p [q|]] i] [j|]] [He H]]; try (destruct H).
  - injection H as <- <-. destruct (Ok _ _ _ _ He) as [Hp [Hi _]]. auto.
  - destruct H as [H|[]]. injection H as <- <-. destruct (Ok _ _ _ _ He) as [Hp [Hi [Hq Hj]]]. cbn [fst snd]. destruct (Hq q eq_refl). auto.
Qed.

Lemma div_groups_ok : forall edges, edges_ok P edges -> NoDup (flat_map sides edges) -> groups_ok (2 * P * c) (flat_map dgroups edges).
Proof.
  intros edges Ok Nd.
  assert (Form : forall g, In g (flat_map dgroups edges) -> exists x y v, g = ([Nat.min x y; Nat.max x y], v)).
  { intros g Hg. apply in_flat_map in Hg. destruct Hg as [[[[p [q|]] i] [j|]] [He Hg]]; cbn [dgroups] in Hg; try (destruct Hg; fail).
    apply in_map_iff in Hg. destruct Hg as [k [<- _]]. unfold dgroup. eauto. }
  split.
  - intros g Hg. destruct (Form g Hg) as [x [y [v ->]]]. simpl. lia.
  - intros g d Hg Hd. assert (Hin : In d (concat (map fst (flat_map dgroups edges)))) by (apply in_concat; exists (fst g); split; [apply in_map; assumption|assumption]).
    apply (Permutation_in _ (all_perm edges)) in Hin. apply in_flat_map in Hin. destruct Hin as [sl [Hs Hd']].
    apply in_map_iff in Hd'. destruct Hd' as [k [<- Hk]]. apply in_seq in Hk. destruct (sides_ok edges sl Ok Hs). apply ddof_range; auto. lia.
  - apply (Permutation_NoDup (Permutation_sym (all_perm edges))). apply nodup_flat_map; [assumption| |].
    + intros sl Hs. destruct (sides_ok edges sl Ok Hs) as [H1 H2]. apply nodup_map_in; [|apply seq_NoDup].
      intros a b Ha Hb E. apply in_seq in Ha, Hb. apply ddof_inj in E; auto; lia.
    + intros a b x Ha Hb Hxa Hxb. destruct (sides_ok edges a Ok Ha) as [A1 A2], (sides_ok edges b Ok Hb) as [B1 B2].
      apply in_map_iff in Hxa, Hxb. destruct Hxa as [k [Ek Hk]], Hxb as [k' [Ek' Hk']]. apply in_seq in Hk, Hk'.
      assert (E : ddof (fst a) (snd a) k = ddof (fst b) (snd b) k') by congruence.
      apply ddof_inj in E; auto; try lia. destruct a, b. cbn [fst snd] in *. destruct E as [-> [-> _]]. reflexivity.
  - intros g d Hg Hd. destruct (Form g Hg) as [x [y [v ->]]]. cbn [fst hd] in *. destruct Hd as [<-|[<-|[]]]; lia.
Qed.

(** ** which pairs *)
Lemma div_pairs : forall edges x y v, edges_ok P edges ->
  flux_ident S L P edges x y v <-> exists p q i j k, In (p, Some q, i, Some j) edges /\ k < S /\
    x = ddof p i k /\ y = ddof q j (partner i j S k) /\ v = glue_coef i j.
Proof.
  intros edges x y v Ok. split.
  - intros (p & q & i & j & s & s' & X & Y & X' & Y' & He & F1 & F2 & Hs & -> & -> & Hv).
    destruct (Ok _ _ _ _ He) as [Hp [Hi [Hq Hj]]]. specialize (Hj j eq_refl). apply coef_flux in Hv; auto.
    destruct (ccw_inv i S s HS) as [k [Hk Ek]]; [destruct F1; lia|].
    exists p, q, i, j, k. split; [assumption|]. split; [assumption|].
    pose proof (partner_lt i j S k Hk) as Hpk. pose proof (ccw_partner i j S k Hi Hj Hk) as Hc.
    destruct (ddof_flux p i k Hi Hk) as [X1 [Y1 [G1 E1]]]. destruct (ddof_flux q j _ Hj Hpk) as [X2 [Y2 [G2 E2]]].
    rewrite Ek in G1. replace (ccw j S (partner i j S k)) with s' in G2 by lia.
    destruct (flux_fun _ _ _ _ _ _ F1 G1) as [<- <-]. destruct (flux_fun _ _ _ _ _ _ F2 G2) as [<- <-]. auto.
  - intros (p & q & i & j & k & He & Hk & -> & -> & ->).
    destruct (Ok _ _ _ _ He) as [Hp [Hi [Hq Hj]]]. specialize (Hj j eq_refl).
    pose proof (partner_lt i j S k Hk) as Hpk. pose proof (ccw_partner i j S k Hi Hj Hk) as Hc.
    destruct (ddof_flux p i k Hi Hk) as [X1 [Y1 [G1 E1]]]. destruct (ddof_flux q j _ Hj Hpk) as [X2 [Y2 [G2 E2]]].
    exists p, q, i, j, (ccw i S k), (ccw j S (partner i j S k)), X1, Y1, X2, Y2. repeat (split; [assumption|]). apply coef_flux; auto.
Qed.
Lemma div_group_iff : forall edges g, edges_ok P edges ->
  In g (flat_map dgroups edges) <-> exists x y v, flux_ident S L P edges x y v /\ g = ([Nat.min x y; Nat.max x y], v).
Proof.
  intros edges g Ok. rewrite in_flat_map. split.
  - intros [[[[p [q|]] i] [j|]] [He Hg]]; cbn [dgroups] in Hg; try (destruct Hg; fail).
    apply in_map_iff in Hg. destruct Hg as [k [<- Hk]]. apply in_seq in Hk.
    exists (ddof p i k), (ddof q j (partner i j S k)), (glue_coef i j). split; [|reflexivity].
    apply div_pairs; [assumption|]. exists p, q, i, j, k. repeat (split; [assumption || lia|]). auto.
  - intros [x [y [v [F ->]]]]. apply div_pairs in F; [|assumption]. destruct F as (p & q & i & j & k & He & Hk & -> & -> & ->).
    exists (p, Some q, i, Some j). split; [assumption|]. cbn [dgroups]. apply in_map_iff. exists k. split; [reflexivity|apply in_seq; lia].
Qed.
End Div.
