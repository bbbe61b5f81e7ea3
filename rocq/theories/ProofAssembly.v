From Coq Require Import List Arith Bool Lia Reals Lra QArith Qreals Permutation.
From Verif Require Import ModelBase ModelBernstein RSum ModelTree ModelPar ModelAssembly ProofPar.
Import ListNotations.
Local Close Scope Q_scope.
Local Open Scope nat_scope.

Lemma for_loop_add : forall {S} n (body : nat -> S -> S) (val : S -> R) c s,
  (forall i s, i < n -> val (body i s) = (val s + c i)%R) -> val (for_loop n body s) = (val s + rsum c n)%R.
Proof.
  intros S n body val c s H. induction n as [|n IH]; simpl; [lra|]. rewrite H by lia. rewrite IH by (intros; apply H; lia). lra.
Qed.
Lemma updm_same : forall c i j v, updm c i j v i j = v.
Proof. intros. unfold updm. rewrite !Nat.eqb_refl. reflexivity. Qed.
Lemma updm_other : forall c i j v k l, (k, l) <> (i, j) -> updm c i j v k l = c k l.
Proof.
  intros c i j v k l H. unfold updm. destruct (Nat.eqb_spec k i), (Nat.eqb_spec l j); try reflexivity. subst. congruence.
Qed.
Lemma potential_body_val : forall f xi w npts odim el acc i o, i < npts -> o < odim ->
  potential_body f xi w npts odim el acc i o =
  (acc i o + rsum (fun j => f el (nth j xi (0, 0)) (Q2R (get_h el) * Q2R (get_h el) * nth j w 0) i o) (length w))%R.
Proof.
  intros f xi w npts odim el acc i o Hi Ho. unfold potential_body.
  apply (for_loop_add _ _ (fun a : mat => a i o)). intros j a _.
  rewrite (for_loop_add _ _ (fun a : mat => a i o)
    (fun i' => if (i' =? i) then f el (nth j xi (0, 0)) (Q2R (get_h el) * Q2R (get_h el) * nth j w 0) i o else 0)%R).
  - rewrite (rsum_single _ _ i Hi); [rewrite Nat.eqb_refl; reflexivity|]. intros i' _ Ne. apply Nat.eqb_neq in Ne. rewrite Ne. reflexivity.
  - intros i' b _. rewrite (for_loop_add _ _ (fun a : mat => a i o)
      (fun o' => if (i' =? i) && (o' =? o) then f el (nth j xi (0, 0)) (Q2R (get_h el) * Q2R (get_h el) * nth j w 0) i o else 0)%R).
    + destruct (Nat.eqb_spec i' i) as [->|Ne].
      * rewrite (rsum_single _ _ o Ho); [rewrite Nat.eqb_refl; reflexivity|]. intros o' _ Ne. apply Nat.eqb_neq in Ne. rewrite Ne. reflexivity.
      * rewrite rsum_zero by reflexivity. reflexivity.
    + intros o' c _. destruct (Nat.eqb_spec i' i) as [->|Ne]; [destruct (Nat.eqb_spec o' o) as [->|Ne]|].
      * rewrite updm_same. reflexivity.
      * rewrite updm_other by congruence. simpl. lra.
      * rewrite updm_other by congruence. simpl. lra.
Qed.

(** ** assembly *)
Lemma perform_other : forall ws m r c, ~ In (r, c) (map fst ws) -> perform ws m r c = m r c.
Proof.
  unfold perform. induction ws as [|[[r' c'] v] ws IH]; intros m r c H; [reflexivity|]. simpl in *.
  rewrite IH by tauto. rewrite updm_other; [reflexivity|]. intros E. apply H. left. congruence.
Qed.
Lemma perform_in : forall ws m r c v, NoDup (map fst ws) -> In (r, c, v) ws -> perform ws m r c = v.
Proof.
  unfold perform. induction ws as [|[[r' c'] v'] ws IH]; intros m r c v D H; [destruct H|]. simpl in D. inversion D; subst.
  destruct H as [E|H]; simpl.
  - injection E as -> -> ->. fold (perform ws (updm m r c v)). rewrite perform_other by assumption. apply updm_same.
  - apply IH; assumption.
Qed.
Lemma in_task : forall vd k N id1 id2 V w, In w (task_writes vd k N id1 id2 V) <->
  exists i j a b, i < vd /\ j < vd /\ a < k /\ b < k /\
    w = (k * (i * N + id1) + a, k * (j * N + id2) + b, V (i * k + a) (j * k + b)).
Proof.
  intros. unfold task_writes. rewrite in_flat_map. split.
  - intros [i [Hi H]]. apply in_flat_map in H. destruct H as [j [Hj H]]. apply in_flat_map in H. destruct H as [a [Ha H]].
    apply in_map_iff in H. destruct H as [b [E Hb]]. apply in_seq in Hi, Hj, Ha, Hb. exists i, j, a, b. repeat split; try lia. auto.
  - intros [i [j [a [b [Hi [Hj [Ha [Hb ->]]]]]]]]. exists i. split; [apply in_seq; lia|]. apply in_flat_map. exists j. split; [apply in_seq; lia|].
    apply in_flat_map. exists a. split; [apply in_seq; lia|]. apply in_map_iff. exists b. split; [reflexivity|apply in_seq; lia].
Qed.
Lemma in_tasks : forall vd k N form els w, In w (concat (assembly_tasks vd k N form els)) <->
  exists e1 e2, In e1 els /\ In e2 els /\ In w (task_writes vd k N (n_id e1) (n_id e2) (form e1 e2)).
Proof.
  intros. rewrite in_concat. unfold assembly_tasks. split.
  - intros [t [Ht Hw]]. apply in_flat_map in Ht. destruct Ht as [e1 [H1 Ht]]. apply in_map_iff in Ht. destruct Ht as [e2 [<- H2]]. eauto.
  - intros [e1 [e2 [H1 [H2 Hw]]]]. eexists. split; [|exact Hw]. apply in_flat_map. exists e1. split; [assumption|]. apply in_map_iff. eauto.
Qed.
Lemma addr_unique : forall k N i i' q q' a a', a < k -> a' < k -> q < N -> q' < N ->
  k * (i * N + q) + a = k * (i' * N + q') + a' -> i = i' /\ q = q' /\ a = a'.
Proof.
  intros k N i i' q q' a a' Ha Ha' Hq Hq' E.
  assert (E1 : i * N + q = i' * N + q').
  { rewrite (Nat.mul_comm k), (Nat.mul_comm k (i' * N + q')) in E.
    apply (f_equal (fun z => z / k)) in E. rewrite !Nat.div_add_l, !Nat.div_small, !Nat.add_0_r in E by lia. exact E. }
  rewrite E1 in E. split; [|split; [|lia]].
  - apply (f_equal (fun z => z / N)) in E1. rewrite !Nat.div_add_l, !Nat.div_small, !Nat.add_0_r in E1 by lia. exact E1.
  - apply (f_equal (fun z => z mod N)) in E1. rewrite !(Nat.add_comm (_ * N)), !Nat.mod_add, !Nat.mod_small in E1 by lia. exact E1.
Qed.

Lemma flat_map_const : forall {X Y} (g : X -> list Y) n l, (forall x, In x l -> length (g x) = n) -> length (flat_map g l) = length l * n.
Proof.
  intros X Y g n l H. induction l as [|x l IH]; [reflexivity|]. simpl. rewrite app_length, IH by (intros; apply H; right; assumption).
  rewrite H by (left; reflexivity). lia.
Qed.
Lemma task_length : forall vd k N id1 id2 V, length (task_writes vd k N id1 id2 V) = vd * (vd * (k * k)).
Proof.
  intros. unfold task_writes. rewrite (flat_map_const _ (vd * (k * k))), seq_length; [reflexivity|]. intros i _.
  rewrite (flat_map_const _ (k * k)), seq_length; [reflexivity|]. intros j _.
  rewrite (flat_map_const _ k), seq_length; [reflexivity|]. intros a _. rewrite map_length, seq_length. reflexivity.
Qed.
Lemma tasks_length : forall vd k N form els,
  length (concat (assembly_tasks vd k N form els)) = length els * (length els * (vd * (vd * (k * k)))).
Proof.
  intros. unfold assembly_tasks. set (n := vd * (vd * (k * k))).
  assert (G : forall ts : list (list write), (forall t, In t ts -> length t = n) -> length (concat ts) = length ts * n).
  { induction ts as [|t ts IH]; intros H; [reflexivity|]. simpl. rewrite app_length, IH by (intros; apply H; right; assumption).
    rewrite H by (left; reflexivity). lia. }
  rewrite G.
  - rewrite (flat_map_const _ (length els)) by (intros; apply map_length). lia.
  - intros t Ht. apply in_flat_map in Ht. destruct Ht as [e1 [_ Ht]]. apply in_map_iff in Ht. destruct Ht as [e2 [<- _]]. apply task_length.
Qed.

Lemma NoDup_app_intro : forall {X} (x y : list X), NoDup x -> NoDup y -> (forall b, In b x -> ~ In b y) -> NoDup (x ++ y).
Proof.
  intros X x y Hx Hy H. induction Hx as [|a x Ha Hx IH]; [assumption|]. simpl. constructor.
  - intros K. apply in_app_or in K. destruct K as [K|K]; [contradiction|]. apply (H a); [left; reflexivity|assumption].
  - apply IH. intros b Hb. apply H. right; assumption.
Qed.
Lemma prod_nodup : forall (l0 l1 : list nat), NoDup l0 -> NoDup l1 -> NoDup (list_prod l0 l1).
Proof.
  intros l0 l1 D0 D1. induction l0 as [|x l0 IH]; [constructor|].
  inversion D0; subst. simpl. apply NoDup_app_intro.
  - apply FinFun.Injective_map_NoDup; [intros y z E; congruence|assumption].
  - auto.
  - intros y Hy Hy'. apply in_map_iff in Hy. destruct Hy as [z [<- _]]. apply in_prod_iff in Hy'. tauto.
Qed.
Section Assembly.
Variables (vd k N : nat) (form : node -> node -> mat) (els : list node).
Hypothesis HN : length els = N.
Hypothesis Hids : forall q, q < N -> exists e, In e els /\ n_id e = q.
Let dim := vd * k * N.
Lemma row_decomp : forall r, r < dim -> exists i q a, i < vd /\ q < N /\ a < k /\ r = k * (i * N + q) + a.
Proof.
  intros r Hr. unfold dim in Hr. assert (Hk : 0 < k) by (destruct k; [lia|lia]). assert (HN0 : 0 < N) by (destruct N; [lia|lia]).
  exists (r / k / N), ((r / k) mod N), (r mod k).
  pose proof (Nat.div_mod r k ltac:(lia)) as D1. pose proof (Nat.div_mod (r / k) N ltac:(lia)) as D2.
  pose proof (Nat.mod_upper_bound r k ltac:(lia)). pose proof (Nat.mod_upper_bound (r / k) N ltac:(lia)).
  split; [|split; [assumption|split; [assumption|]]].
  - apply Nat.div_lt_upper_bound; [lia|]. apply Nat.div_lt_upper_bound; [lia|]. lia.
  - rewrite (Nat.mul_comm (r / k / N)), <- D2. exact D1.
Qed.
Lemma cover : forall r c, r < dim -> c < dim -> In (r, c) (map fst (concat (assembly_tasks vd k N form els))).
Proof.
  intros r c Hr Hc. destruct (row_decomp r Hr) as [i [q [a [Hi [Hq [Ha ->]]]]]]. destruct (row_decomp c Hc) as [j [q' [b [Hj [Hq' [Hb ->]]]]]].
  destruct (Hids q Hq) as [e1 [I1 E1]]. destruct (Hids q' Hq') as [e2 [I2 E2]].
  apply in_map_iff. exists (k * (i * N + q) + a, k * (j * N + q') + b, form e1 e2 (i * k + a) (j * k + b)). split; [reflexivity|].
  apply in_tasks. exists e1, e2. split; [assumption|]. split; [assumption|]. apply in_task. exists i, j, a, b. rewrite E1, E2. auto 10.
Qed.
Lemma addresses_perm : Permutation (list_prod (seq 0 dim) (seq 0 dim)) (map fst (concat (assembly_tasks vd k N form els))).
Proof.
  apply NoDup_Permutation_bis.
  - apply prod_nodup; apply seq_NoDup.
  - rewrite map_length, tasks_length, prod_length, !seq_length, HN. unfold dim. nia.
  - intros [r c] H. apply in_prod_iff in H. rewrite !in_seq in H. apply cover; lia.
Qed.
Lemma addresses_nodup : NoDup (map fst (concat (assembly_tasks vd k N form els))).
Proof. eapply Permutation_NoDup; [apply addresses_perm|]. apply prod_nodup; apply seq_NoDup. Qed.
Lemma addresses_range : forall r c, In (r, c) (map fst (concat (assembly_tasks vd k N form els))) <-> r < dim /\ c < dim.
Proof.
  intros r c. split; intros H.
  - apply (Permutation_in _ (Permutation_sym addresses_perm)) in H. apply in_prod_iff in H. rewrite !in_seq in H. lia.
  - apply cover; tauto.
Qed.
Lemma assembled_entry : forall m, assembled vd k N form els m -> forall i j e1 e2 a b, i < vd -> j < vd -> In e1 els -> In e2 els ->
  a < k -> b < k -> m (k * (i * N + n_id e1) + a) (k * (j * N + n_id e2) + b) = form e1 e2 (i * k + a) (j * k + b).
Proof.
  intros m [m0 [ws [It ->]]] i j e1 e2 a b Hi Hj H1 H2 Ha Hb. apply interleave_perm in It.
  apply perform_in.
  - eapply Permutation_NoDup; [apply Permutation_map; exact It|]. apply addresses_nodup.
  - eapply Permutation_in; [exact It|]. apply in_tasks. exists e1, e2. split; [assumption|]. split; [assumption|]. apply in_task. exists i, j, a, b. auto 10.
Qed.
End Assembly.
