(** Counting the classes of identified degrees of freedom. *)
From Coq Require Import List Arith Bool Lia ZArith Permutation Relations.
From Verif Require Import ModelBase ModelTree ModelGlue SpecTree SpecMesh SpecGlue SpecDofs ProofGlueMat ProofGlueEdge ProofGlueMesh.
Import ListNotations.
Local Open Scope nat_scope.

(** ** lists *)
Lemma nodup_prod : forall {A B} (l : list A) (l' : list B), NoDup l -> NoDup l' -> NoDup (list_prod l l').
Proof.
  intros A B l l' H H'. induction H as [|a l Ha H IH]; cbn [list_prod]; [constructor|].
  assert (App : forall u v : list (A * B), NoDup u -> NoDup v -> (forall x, In x u -> ~ In x v) -> NoDup (u ++ v)).
  { induction u as [|x u IHu]; intros v Nu Nv D; simpl; [assumption|]. apply NoDup_cons_iff in Nu. destruct Nu as [N1 N2]. constructor.
    - rewrite in_app_iff. intros [?|?]; [contradiction|]. apply (D x); [left; reflexivity|assumption].
    - apply IHu; auto. intros y Hy. apply D. right. assumption. }
  apply App; [|exact IH|].
  - clear IH. induction H' as [|b l' Hb H' IH']; cbn [map]; constructor; [|exact IH']. intros I. apply in_map_iff in I. destruct I as [z [E I]]. injection E as ->. contradiction.
  - intros [x y] I I2. apply in_map_iff in I. destruct I as [z [E I]]. injection E as -> ->. apply in_prod_iff in I2. destruct I2. contradiction.
Qed.
Lemma nodup_app : forall {A} (u v : list A), NoDup u -> NoDup v -> (forall x, In x u -> ~ In x v) -> NoDup (u ++ v).
Proof.
  intros A. induction u as [|x u IHu]; intros v Nu Nv D; simpl; [assumption|]. apply NoDup_cons_iff in Nu. destruct Nu as [N1 N2]. constructor.
  - rewrite in_app_iff. intros [?|?]; [contradiction|]. apply (D x); [left; reflexivity|assumption].
  - apply IHu; auto. intros y Hy. apply D. right. assumption.
Qed.
Lemma nodup_map_in : forall {A B} (f : A -> B) l, NoDup l -> (forall x y, In x l -> In y l -> f x = f y -> x = y) -> NoDup (map f l).
Proof.
  intros A B f l H. induction H as [|a l Ha H IH]; intros Inj; cbn [map]; constructor.
  - intros I. apply in_map_iff in I. destruct I as [z [E I]]. apply Ha. rewrite <- (Inj z a); [exact I|right; exact I|left; reflexivity|exact E].
  - apply IH. intros. apply Inj; [right; assumption|right; assumption|assumption].
Qed.
Lemma same_length : forall {A} (l l' : list A), NoDup l -> NoDup l' -> (forall x, In x l <-> In x l') -> length l = length l'.
Proof. intros A l l' H H' I. apply Permutation_length. apply NoDup_Permutation; assumption. Qed.
Lemma filter_split : forall {A} (f : A -> bool) l, length (filter f l) + length (filter (fun x => negb (f x)) l) = length l.
Proof. intros A f l. induction l as [|a l IH]; [reflexivity|]. cbn [filter]. destruct (f a); cbn [negb length]; lia. Qed.

(** the columns of a glue matrix correspond to the classes, described by a list of keys *)
Lemma count_columns : forall {K} pre post (trips : list triplet) (key : nat -> K) (keys : list K),
  Permutation (map (fun t => fst (fst t)) trips) (seq 0 pre) -> (forall c, c < post <-> exists r v, In (r, c, v) trips) ->
  (forall r c v r' c' v', In (r, c, v) trips -> In (r', c', v') trips -> (c = c' <-> key r = key r')) ->
  NoDup keys -> (forall k, In k keys <-> exists r, r < pre /\ key r = k) -> post = length keys.
Proof.
  intros K pre post trips key keys Hr Hc Hs Nk Ik.
  set (f := fun c => match find (fun t : triplet => snd (fst t) =? c) trips with Some t => key (fst (fst t)) | None => key 0 end).
  assert (F : forall c, c < post -> exists r v, In (r, c, v) trips /\ f c = key r).
  { intros c H. destruct (proj1 (Hc c) H) as [r [v I]]. unfold f. destruct (find (fun t : triplet => snd (fst t) =? c) trips) as [[[r' c'] v']|] eqn:E.
    - apply find_some in E. destruct E as [I' Q]. cbn [fst snd] in *. apply Nat.eqb_eq in Q. subst c'. eauto.
    - pose proof (find_none _ _ E _ I) as Q. cbn [fst snd] in Q. rewrite Nat.eqb_refl in Q. discriminate. }
  assert (In_r : forall r, r < pre <-> exists c v, In (r, c, v) trips).
  { intros r. split.
    - intros H. assert (I : In r (seq 0 pre)) by (apply in_seq; lia). apply (Permutation_in _ (Permutation_sym Hr)) in I. apply in_map_iff in I. destruct I as [[[r' c] v] [E I]]. cbn [fst] in E. subst. eauto.
    - intros [c [v I]]. assert (Q : In r (map (fun t : triplet => fst (fst t)) trips)) by (apply in_map_iff; exists (r, c, v); auto). apply (Permutation_in _ Hr) in Q. apply in_seq in Q. lia. }
  rewrite <- (same_length (map f (seq 0 post)) keys).
  - rewrite map_length, seq_length. reflexivity.
  - apply nodup_map_in; [apply seq_NoDup|]. intros c c' I I' E. apply in_seq in I. apply in_seq in I'.
    destruct (F c ltac:(lia)) as [r [v [I1 E1]]]. destruct (F c' ltac:(lia)) as [r' [v' [I2 E2]]]. apply (proj2 (Hs _ _ _ _ _ _ I1 I2)). congruence.
  - exact Nk.
  - intros k. rewrite Ik. split.
    + intros I. apply in_map_iff in I. destruct I as [c [E I]]. apply in_seq in I. destruct (F c ltac:(lia)) as [r [v [I1 E1]]]. exists r. split; [apply In_r; eauto|congruence].
    + intros [r [H E]]. apply In_r in H. destruct H as [c [v I]]. assert (Lc : c < post) by (apply Hc; eauto). destruct (F c Lc) as [r' [v' [I1 E1]]].
      apply in_map_iff. exists c. split; [|apply in_seq; lia]. rewrite E1, <- E. apply (Hs _ _ _ _ _ _ I1 I). reflexivity.
Qed.

(** ** where a degree of freedom sits: inside, on a side (position s), at a corner *)
Inductive loc := LI | LS (i s : nat) | LC (k : nat).
Definition cls (E X Y : nat) : loc :=
  if X =? 0 then (if Y =? 0 then LC 0 else if Y =? E then LC 3 else LS 3 (E - Y))
  else if X =? E then (if Y =? 0 then LC 1 else if Y =? E then LC 2 else LS 1 Y)
  else if Y =? 0 then LS 0 X else if Y =? E then LS 2 (E - X) else LI.
Lemma lt_4 : forall i, i < 4 -> i = 0 \/ i = 1 \/ i = 2 \/ i = 3. Proof. lia. Qed.
Lemma cls_edge : forall E i s X Y, 1 <= E -> i < 4 -> on_edge E i s X Y -> cls E X Y = if s =? 0 then LC i else if s =? E then LC ((i + 1) mod 4) else LS i s.
Proof.
  intros E i s X Y HE Hi [Hs O]. apply lt_4 in Hi. unfold cls. destruct Hi as [ -> | [ -> | [ -> | -> ] ] ]; cbn [Nat.add Nat.modulo Nat.divmod fst snd Nat.sub] in *; destruct O as [O1 O2];
    destruct (Nat.eqb_spec X 0), (Nat.eqb_spec Y 0), (Nat.eqb_spec X E), (Nat.eqb_spec Y E), (Nat.eqb_spec s 0), (Nat.eqb_spec s E); try lia; try reflexivity; f_equal; lia.
Qed.
Lemma cls_side : forall E X Y i s, 1 <= E -> X <= E -> Y <= E -> cls E X Y = LS i s -> i < 4 /\ 0 < s < E /\ on_edge E i s X Y.
Proof.
  intros E X Y i s HE HX HY. unfold cls, on_edge. destruct (Nat.eqb_spec X 0), (Nat.eqb_spec Y 0), (Nat.eqb_spec X E), (Nat.eqb_spec Y E); intros Q; try discriminate; injection Q as <- <-; cbn; lia.
Qed.
Lemma cls_corner : forall E X Y k, 1 <= E -> X <= E -> Y <= E -> cls E X Y = LC k -> k < 4 /\ on_edge E k 0 X Y.
Proof.
  intros E X Y k HE HX HY. unfold cls, on_edge. destruct (Nat.eqb_spec X 0), (Nat.eqb_spec Y 0), (Nat.eqb_spec X E), (Nat.eqb_spec Y E); intros Q; try discriminate; injection Q as <-; cbn; lia.
Qed.
Lemma cls_inner : forall E X Y, 1 <= E -> X <= E -> Y <= E -> (cls E X Y = LI <-> 0 < X < E /\ 0 < Y < E).
Proof.
  intros E X Y HE HX HY. unfold cls. destruct (Nat.eqb_spec X 0), (Nat.eqb_spec Y 0), (Nat.eqb_spec X E), (Nat.eqb_spec Y E); split; intros Q; try discriminate; try lia; reflexivity.
Qed.
Lemma on_edge_ex : forall E i s, s <= E -> exists X Y, X <= E /\ Y <= E /\ on_edge E i s X Y.
Proof. intros E i s H. unfold on_edge. destruct i as [|[|[|i]]]; [exists s, 0|exists E, s|exists (E - s), E|exists 0, (E - s)]; lia. Qed.
(** the end of a side is the beginning of the next one *)
Lemma on_edge_next : forall E i X Y, 1 <= E -> i < 4 -> on_edge E i E X Y <-> on_edge E ((i + 1) mod 4) 0 X Y.
Proof. intros E i X Y HE Hi. apply lt_4 in Hi. unfold on_edge. destruct Hi as [ -> | [ -> | [ -> | -> ] ] ]; cbn; lia. Qed.

(** ** the mesh *)
Section Mesh.
Variables (verts : list (list nat)) (D : nat) (edges : list interface) (shared : list (nat * nat * (nat * nat))) (vs : list nat).
Hypothesis HM : mesh_ok verts.
Hypothesis HD : 2 <= D.
Notation P := (length verts).
Notation E := (D - 1).
Hypothesis Iff : forall a b i j, In (a, Some b, i, Some j) edges <-> a < b /\ b < P /\ i < 4 /\ j < 4 /\ opposed verts a i b j.
Hypothesis Sh : shared_sides verts shared.
Hypothesis Vs : all_vertices verts vs.
Lemma opposed_flip : forall a i b j, opposed verts a i b j -> opposed verts b j a i.
Proof. intros a i b j [H1 H2]. split; symmetry; assumption. Qed.
Lemma opposed_irrefl : forall a i j, a < P -> i < 4 -> j < 4 -> ~ opposed verts a i a j.
Proof.
  intros a i j Ha Hi Hj [H1 H2]. assert (I : In (nth a verts []) verts) by (apply nth_In; exact Ha). pose proof (mo_nodup verts HM _ I) as Nd. pose proof (mo_len verts HM _ I) as Ln.
  unfold pvert in *. assert (m1 : (i + 1) mod 4 < 4) by (apply Nat.mod_upper_bound; lia). assert (m2 : (j + 1) mod 4 < 4) by (apply Nat.mod_upper_bound; lia).
  pose proof (proj1 (NoDup_nth _ 0) Nd i ((j + 1) mod 4) ltac:(lia) ltac:(lia) H1) as Q1. pose proof (proj1 (NoDup_nth _ 0) Nd ((i + 1) mod 4) j ltac:(lia) ltac:(lia) H2) as Q2.
  apply lt_4 in Hi. apply lt_4 in Hj. destruct Hi as [ -> | [ -> | [ -> | -> ] ] ], Hj as [ -> | [ -> | [ -> | -> ] ] ]; vm_compute in Q1, Q2; first [discriminate Q1|discriminate Q2].
Qed.
(** at most one partner *)
Lemma partner_unique : forall a i b j c k, a < P -> b < P -> c < P -> i < 4 -> j < 4 -> k < 4 -> opposed verts a i b j -> opposed verts a i c k -> (b, j) = (c, k).
Proof.
  intros a i b j c k Ha Hb Hc Hi Hj Hk O1 O2.
  destruct (mo_two verts HM a i b j c k Ha Hb Hc Hi Hj Hk (or_intror O1) (or_intror O2)) as [Q|[Q|Q]]; [| |exact Q]; injection Q as -> ->; exfalso; first [exact (opposed_irrefl _ _ _ Hb Hj Hj O1)|exact (opposed_irrefl _ _ _ Hc Hk Hk O2)].
Qed.
Definition shared_with (q i : nat) : option (nat * nat) :=
  match find (fun e : nat * nat * (nat * nat) => (fst (snd e) =? q) && (snd (snd e) =? i)) shared with Some e => Some (fst e) | None => None end.
Lemma shared_some : forall q i a k, shared_with q i = Some (a, k) -> a < q /\ q < P /\ k < 4 /\ i < 4 /\ opposed verts a k q i.
Proof.
  intros q i a k H. unfold shared_with in H. destruct find as [[[a' k'] [q' i']]|] eqn:F; [|discriminate]. apply find_some in F. destruct F as [I Q]. cbn [fst snd] in *. injection H as -> ->.
  apply andb_prop in Q. destruct Q as [Q1 Q2]. apply Nat.eqb_eq in Q1, Q2. subst. apply Sh in I. exact I.
Qed.
Lemma shared_none : forall q i a k, shared_with q i = None -> a < q -> q < P -> k < 4 -> i < 4 -> ~ opposed verts a k q i.
Proof.
  intros q i a k H Ha Hq Hk Hi O. assert (I : In (a, k, (q, i)) shared) by (apply Sh; auto). unfold shared_with in H. destruct find as [e|] eqn:F; [discriminate|].
  pose proof (find_none _ _ F _ I) as Q. cbn [fst snd] in Q. rewrite !Nat.eqb_refl in Q. discriminate.
Qed.
(** the part of the surface a degree of freedom belongs to *)
Inductive entity := Inner (q X Y : nat) | Side (q i s : nat) | Vert (v : nat).
Definition ent (q X Y : nat) : entity :=
  match cls E X Y with
  | LI => Inner q X Y
  | LC k => Vert (pvert verts q k)
  | LS i s => match shared_with q i with Some (a, k) => Side a k (E - s) | None => Side q i s end
  end.
Definition gd (q X Y : nat) : nat := grid_dof D (q * (D * D)) X Y.
Definition key (d : nat) : entity := ent (d / (D * D)) (d mod D) (d mod (D * D) / D).
Lemma key_gd : forall q X Y, X < D -> Y < D -> key (gd q X Y) = ent q X Y.
Proof.
  intros q X Y HX HY. unfold key, gd, grid_dof. assert (L : D * Y + X < D * D) by (assert (D * (Y + 1) <= D * D) by (apply Nat.mul_le_mono_l; lia); lia).
  replace (q * (D * D) + D * Y + X) with (D * Y + X + q * (D * D)) by lia. rewrite Nat.div_add, Nat.mod_add by lia. rewrite (Nat.div_small _ _ L), (Nat.mod_small _ _ L).
  f_equal; [|rewrite (Nat.mul_comm D), Nat.div_add_l by lia; rewrite (Nat.div_small X D HX); lia].
  replace (D * Y + X + q * (D * D)) with (X + (Y + q * D) * D) by ring. rewrite Nat.mod_add by lia. apply Nat.mod_small. exact HX.
Qed.
Lemma gd_of : forall d, d < P * (D * D) -> exists q X Y, q < P /\ X < D /\ Y < D /\ d = gd q X Y.
Proof.
  intros d Hd. exists (d / (D * D)), (d mod D), (d mod (D * D) / D). split; [apply Nat.div_lt_upper_bound; lia|]. split; [apply Nat.mod_upper_bound; lia|].
  assert (L : d mod (D * D) < D * D) by (apply Nat.mod_upper_bound; lia). split; [apply Nat.div_lt_upper_bound; lia|]. unfold gd, grid_dof.
  rewrite (Nat.div_mod d (D * D)) at 1 by lia. rewrite (Nat.div_mod (d mod (D * D)) D) at 1 by lia.
  replace (d mod (D * D) mod D) with (d mod D); [lia|]. rewrite (Nat.div_mod d (D * D)) at 1 by lia. replace (D * D * (d / (D * D)) + d mod (D * D)) with (d mod (D * D) + D * (d / (D * D)) * D) by ring. apply Nat.mod_add. lia.
Qed.
Lemma gd_lt : forall q X Y, q < P -> X < D -> Y < D -> gd q X Y < P * (D * D).
Proof.
  intros q X Y Hq HX HY. unfold gd, grid_dof. assert (D * (Y + 1) <= D * D) by (apply Nat.mul_le_mono_l; lia). assert ((q + 1) * (D * D) <= P * (D * D)) by (apply Nat.mul_le_mono_r; lia). lia.
Qed.
Lemma on_edge_lt : forall i s X Y, on_edge E i s X Y -> X < D /\ Y < D.
Proof. intros i s X Y [H O]. destruct i as [|[|[|i]]]; lia. Qed.

(** identified degrees of freedom belong to the same part *)
Lemma step_key : forall x y, edge_ident D edges x y -> key x = key y.
Proof.
  intros x y [a [b [i [j [s [s' [X [Y [X' [Y' [I [O [O' [Es [ -> -> ]]]]]]]]]]]]]]]. destruct (on_edge_lt _ _ _ _ O) as [L1 L2]. destruct (on_edge_lt _ _ _ _ O') as [L3 L4].
  fold (gd a X Y). fold (gd b X' Y'). rewrite !key_gd by assumption. apply Iff in I. destruct I as [Hab [Hb [Hi [Hj Op]]]]. unfold ent.
  rewrite (cls_edge E i s X Y) by (try assumption; lia). rewrite (cls_edge E j s' X' Y') by (try assumption; lia).
  destruct (Nat.eqb_spec s 0) as [S0|S0].
  - destruct (Nat.eqb_spec s' 0); [lia|]. destruct (Nat.eqb_spec s' E); [|lia]. f_equal. apply Op.
  - destruct (Nat.eqb_spec s E) as [SE|SE].
    + destruct (Nat.eqb_spec s' 0); [|lia]. f_equal. apply Op.
    + destruct (Nat.eqb_spec s' 0); [lia|]. destruct (Nat.eqb_spec s' E); [lia|].
      destruct (shared_with a i) as [[c k]|] eqn:Q.
      * apply shared_some in Q. destruct Q as [Hc [_ [Hk [_ O2]]]]. apply opposed_flip in O2.
        pose proof (partner_unique a i b j c k ltac:(lia) Hb ltac:(lia) Hi Hj Hk Op O2) as F. injection F as -> ->. lia.
      * destruct (shared_with b j) as [[c k]|] eqn:Q'.
        -- apply shared_some in Q'. destruct Q' as [Hc [_ [Hk [_ O2]]]]. apply opposed_flip in O2.
           pose proof (partner_unique b j a i c k Hb ltac:(lia) ltac:(lia) Hj Hi Hk (opposed_flip _ _ _ _ Op) O2) as F. injection F as -> ->. f_equal. lia.
        -- exfalso. apply (shared_none b j a i Q'); assumption.
Qed.
Lemma identified_key : forall x y, identified D edges x y -> key x = key y.
Proof. intros x y H. induction H; [apply step_key; assumption|reflexivity|congruence|congruence]. Qed.

(** conversely *)
Lemma side_canonical : forall q i s X Y, q < P -> i < 4 -> 0 < s < E -> on_edge E i s X Y ->
  exists a k s' X' Y', ent q X Y = Side a k s' /\ on_edge E k s' X' Y' /\ k < 4 /\ a < P /\ identified D edges (gd q X Y) (gd a X' Y').
Proof.
  intros q i s X Y Hq Hi Hs O. unfold ent. rewrite (cls_edge E i s X Y) by (try assumption; lia). destruct (Nat.eqb_spec s 0); [lia|]. destruct (Nat.eqb_spec s E); [lia|].
  destruct (shared_with q i) as [[a k]|] eqn:Q.
  - apply shared_some in Q. destruct Q as [Ha [_ [Hk [_ O2]]]]. destruct (on_edge_ex E k (E - s) ltac:(lia)) as [X' [Y' [_ [_ O']]]]. exists a, k, (E - s), X', Y'. split; [reflexivity|]. split; [exact O'|]. split; [exact Hk|]. split; [lia|].
    apply rst_sym, rst_step. exists a, q, k, i, (E - s), s, X', Y', X, Y. split; [apply Iff; auto|]. split; [exact O'|]. split; [exact O|]. split; [lia|]. split; reflexivity.
  - exists q, i, s, X, Y. split; [reflexivity|]. split; [exact O|]. split; [exact Hi|]. split; [exact Hq|]. apply rst_refl.
Qed.
Lemma corner_identified : forall x y, clos_refl_sym_trans _ (corner_step verts) x y -> forall X Y X' Y', snd x < 4 -> snd y < 4 ->
  on_edge E (snd x) 0 X Y -> on_edge E (snd y) 0 X' Y' -> identified D edges (gd (fst x) X Y) (gd (fst y) X' Y').
Proof.
  intros x y H. apply clos_rst_rst1n in H. induction H as [x|x y z Hxy Hyz IH]; intros X Y X' Y' H1 H2 O O'.
  - destruct (on_edge_fun E (snd x) 0 X Y X' Y' H1 O O') as [-> ->]. apply rst_refl.
  - assert (One : forall x y, corner_step verts x y -> snd x < 4 /\ snd y < 4 /\ forall X Y X' Y', on_edge E (snd x) 0 X Y -> on_edge E (snd y) 0 X' Y' -> identified D edges (gd (fst x) X Y) (gd (fst y) X' Y')).
    { clear -HM HD Iff. intros [a k] [b l] [i [j [Ha [Hb [Hi [Hj [Op Cs]]]]]]]. cbn [fst snd] in *.
      assert (m1 : (i + 1) mod 4 < 4) by (apply Nat.mod_upper_bound; lia). assert (m2 : (j + 1) mod 4 < 4) by (apply Nat.mod_upper_bound; lia). split; [lia|]. split; [lia|].
      intros X Y X' Y' O O'.
      assert (Ed : exists s s', s + s' = E /\ on_edge E i s X Y /\ on_edge E j s' X' Y').
      { destruct Cs as [[-> ->]|[-> ->]]; [exists 0, E|exists E, 0]; (split; [lia|]); (split; [first [exact O|apply on_edge_next; [lia|exact Hi|exact O]]|first [exact O'|apply on_edge_next; [lia|exact Hj|exact O']]]). }
      destruct Ed as [s [s' [Es [O1 O2]]]]. destruct (lt_eq_lt_dec a b) as [[L|L]|L].
      - apply rst_step. exists a, b, i, j, s, s', X, Y, X', Y'. split; [apply Iff; auto|]. repeat (split; [assumption|]). split; reflexivity.
      - exfalso. subst b. exact (opposed_irrefl a i j Ha Hi Hj Op).
      - apply rst_sym, rst_step. exists b, a, j, i, s', s, X', Y', X, Y. split; [apply Iff; repeat (split; [assumption|]); apply opposed_flip; exact Op|]. repeat (split; [assumption|]). split; [lia|]. split; reflexivity. }
    assert (Hy : snd y < 4) by (destruct Hxy as [Q|Q]; apply One in Q; tauto).
    destruct (on_edge_ex E (snd y) 0 ltac:(lia)) as [X1 [Y1 [_ [_ O1]]]]. eapply rst_trans; [|apply (IH X1 Y1 X' Y' Hy H2 O1 O')].
    destruct Hxy as [Q|Q]; [apply (One _ _ Q); assumption|]. apply rst_sym. apply (One _ _ Q); assumption.
Qed.
Lemma key_identified : fans_connected verts -> forall x y, x < P * (D * D) -> y < P * (D * D) -> key x = key y -> identified D edges x y.
Proof.
  intros Fan x y Hx Hy K. destruct (gd_of x Hx) as [q [X [Y [Hq [HX [HY ->]]]]]]. destruct (gd_of y Hy) as [q' [X' [Y' [Hq' [HX' [HY' ->]]]]]]. rewrite !key_gd in K by assumption.
  pose proof K as K0. unfold ent in K. destruct (cls E X Y) as [|i s|k] eqn:C, (cls E X' Y') as [|i' s'|k'] eqn:C'; try (destruct (shared_with q i) as [[? ?]|]); try (destruct (shared_with q' i') as [[? ?]|]); try discriminate K.
  - injection K as -> -> ->. apply rst_refl.
  - apply cls_side in C; try lia. apply cls_side in C'; try lia. destruct C as [Hi [Hs O]], C' as [Hi' [Hs' O']].
    destruct (side_canonical q i s X Y Hq Hi Hs O) as [a [k [u [U [V [E1 [O1 [Hk [_ I1]]]]]]]]]. destruct (side_canonical q' i' s' X' Y' Hq' Hi' Hs' O') as [a' [k' [u' [U' [V' [E2 [O2 [_ [_ I2]]]]]]]]].
    assert (Q : Side a k u = Side a' k' u') by congruence. injection Q as <- <- <-. destruct (on_edge_fun E k u U V U' V' Hk O1 O2) as [<- <-]. eapply rst_trans; [exact I1|apply rst_sym; exact I2].
  - apply cls_side in C; try lia. apply cls_side in C'; try lia. destruct C as [Hi [Hs O]], C' as [Hi' [Hs' O']].
    destruct (side_canonical q i s X Y Hq Hi Hs O) as [a [k [u [U [V [E1 [O1 [Hk [_ I1]]]]]]]]]. destruct (side_canonical q' i' s' X' Y' Hq' Hi' Hs' O') as [a' [k' [u' [U' [V' [E2 [O2 [_ [_ I2]]]]]]]]].
    assert (Q : Side a k u = Side a' k' u') by congruence. injection Q as <- <- <-. destruct (on_edge_fun E k u U V U' V' Hk O1 O2) as [<- <-]. eapply rst_trans; [exact I1|apply rst_sym; exact I2].
  - apply cls_side in C; try lia. apply cls_side in C'; try lia. destruct C as [Hi [Hs O]], C' as [Hi' [Hs' O']].
    destruct (side_canonical q i s X Y Hq Hi Hs O) as [a [k [u [U [V [E1 [O1 [Hk [_ I1]]]]]]]]]. destruct (side_canonical q' i' s' X' Y' Hq' Hi' Hs' O') as [a' [k' [u' [U' [V' [E2 [O2 [_ [_ I2]]]]]]]]].
    assert (Q : Side a k u = Side a' k' u') by congruence. injection Q as <- <- <-. destruct (on_edge_fun E k u U V U' V' Hk O1 O2) as [<- <-]. eapply rst_trans; [exact I1|apply rst_sym; exact I2].
  - apply cls_side in C; try lia. apply cls_side in C'; try lia. destruct C as [Hi [Hs O]], C' as [Hi' [Hs' O']].
    destruct (side_canonical q i s X Y Hq Hi Hs O) as [a [k [u [U [V [E1 [O1 [Hk [_ I1]]]]]]]]]. destruct (side_canonical q' i' s' X' Y' Hq' Hi' Hs' O') as [a' [k' [u' [U' [V' [E2 [O2 [_ [_ I2]]]]]]]]].
    assert (Q : Side a k u = Side a' k' u') by congruence. injection Q as <- <- <-. destruct (on_edge_fun E k u U V U' V' Hk O1 O2) as [<- <-]. eapply rst_trans; [exact I1|apply rst_sym; exact I2].
  - apply cls_corner in C; try lia. apply cls_corner in C'; try lia. destruct C as [Hk O], C' as [Hk' O']. injection K as K. pose proof (Fan q k q' k' Hq Hq' Hk Hk' K) as F.
    apply (corner_identified (q, k) (q', k') F X Y X' Y'); assumption.
Qed.

(** ** the list of the parts *)
Definition masters : list (nat * nat) := filter (fun z => match shared_with (fst z) (snd z) with None => true | Some _ => false end) (list_prod (seq 0 P) (seq 0 4)).
Definition keys : list entity :=
  map (fun z => Inner (fst z) (fst (snd z)) (snd (snd z))) (list_prod (seq 0 P) (list_prod (seq 1 (E - 1)) (seq 1 (E - 1)))) ++
  map (fun z => Side (fst (fst z)) (snd (fst z)) (snd z)) (list_prod masters (seq 1 (E - 1))) ++ map Vert vs.
Lemma masters_count : length masters + length shared = 4 * P.
Proof.
  unfold masters. set (all := list_prod (seq 0 P) (seq 0 4)). assert (La : length all = 4 * P) by (unfold all; rewrite prod_length, !seq_length; lia).
  assert (Na : NoDup all) by (apply nodup_prod; apply seq_NoDup). set (f := fun z : nat * nat => match shared_with (fst z) (snd z) with None => true | Some _ => false end).
  rewrite <- La, <- (filter_split f all). f_equal. rewrite <- (map_length snd shared). apply same_length.
  - apply nodup_map_in; [apply Sh|]. intros [[a i] [b j]] [[a' i'] [b' j']] I I' Q. cbn [snd] in Q. injection Q as -> ->. apply Sh in I. apply Sh in I'.
    destruct I as [H1 [H2 [H3 [H4 H5]]]], I' as [H1' [H2' [H3' [H4' H5']]]]. f_equal. apply (partner_unique b' j' a i a' i'); try assumption; try lia; apply opposed_flip; assumption.
  - apply NoDup_filter. exact Na.
  - intros [b j]. rewrite filter_In. unfold all. rewrite in_prod_iff, !in_seq. unfold f. cbn [fst snd]. split.
    + intros I. apply in_map_iff in I. destruct I as [[[a i] [b' j']] [Q I]]. cbn [snd] in Q. injection Q as -> ->. apply Sh in I. destruct I as [H1 [H2 [H3 [H4 H5]]]]. split; [lia|].
      destruct (shared_with b j) as [[? ?]|] eqn:F; [reflexivity|]. exfalso. apply (shared_none b j a i F); assumption.
    + intros [H F]. destruct (shared_with b j) as [[a i]|] eqn:Q; [|discriminate]. apply shared_some in Q. apply in_map_iff. exists (a, i, (b, j)). split; [reflexivity|]. apply Sh. destruct Q as [? [? [? [? ?]]]]. auto.
Qed.
Lemma keys_length : length keys + length shared * (D - 2) = P * ((D - 2) * (D - 2)) + 4 * P * (D - 2) + length vs.
Proof.
  unfold keys. rewrite !app_length, !map_length, !prod_length, !seq_length. replace (E - 1) with (D - 2) by lia. pose proof masters_count as Q.
  assert (R : length masters * (D - 2) + length shared * (D - 2) = 4 * P * (D - 2)) by (rewrite <- Nat.mul_add_distr_r, Q; reflexivity). lia.
Qed.
Lemma keys_nodup : NoDup keys.
Proof.
  assert (Nm : NoDup masters) by (apply NoDup_filter, nodup_prod; apply seq_NoDup).
  unfold keys. apply nodup_app; [|apply nodup_app|].
  - apply nodup_map_in; [repeat apply nodup_prod; apply seq_NoDup|]. intros [q [X Y]] [q' [X' Y']] _ _ Q. cbn [fst snd] in Q. congruence.
  - apply nodup_map_in; [apply nodup_prod; [exact Nm|apply seq_NoDup]|]. intros [[q i] s] [[q' i'] s'] _ _ Q. cbn [fst snd] in Q. congruence.
  - apply nodup_map_in; [apply Vs|]. intros; congruence.
  - intros x I I'. apply in_map_iff in I. destruct I as [z [<- _]]. apply in_map_iff in I'. destruct I' as [z' [Q _]]. discriminate.
  - intros x I I'. apply in_map_iff in I. destruct I as [z [<- _]]. apply in_app_iff in I'. destruct I' as [I'|I']; apply in_map_iff in I'; destruct I' as [z' [Q _]]; discriminate.
Qed.
Lemma keys_all : forall k, In k keys <-> exists d, d < P * (D * D) /\ key d = k.
Proof.
  intros k. unfold keys. rewrite !in_app_iff, !in_map_iff. split.
  - intros [[[q [X Y]] [<- I]]|[[[[q i] s] [<- I]]|[v [<- I]]]]; cbn [fst snd] in *.
    + apply in_prod_iff in I. destruct I as [I1 I2]. apply in_prod_iff in I2. destruct I2 as [I2 I3]. apply in_seq in I1, I2, I3. exists (gd q X Y). split; [apply gd_lt; lia|]. rewrite key_gd by lia.
      unfold ent. rewrite (proj2 (cls_inner E X Y ltac:(lia) ltac:(lia) ltac:(lia))) by lia. reflexivity.
    + apply in_prod_iff in I. destruct I as [I1 I2]. apply in_seq in I2. unfold masters in I1. apply filter_In in I1. destruct I1 as [I1 F]. apply in_prod_iff in I1. destruct I1 as [I1 I3]. apply in_seq in I1, I3. cbn [fst snd] in F.
      destruct (on_edge_ex E i s ltac:(lia)) as [X [Y [LX [LY O]]]]. exists (gd q X Y). split; [apply gd_lt; lia|]. rewrite key_gd by lia. unfold ent. rewrite (cls_edge E i s X Y) by (try assumption; lia).
      destruct (Nat.eqb_spec s 0); [lia|]. destruct (Nat.eqb_spec s E); [lia|]. destruct (shared_with q i) as [[? ?]|]; [discriminate|reflexivity].
    + apply Vs in I. destruct I as [c [Ic Iv]]. pose proof (mo_len verts HM c Ic) as L4. apply (In_nth _ _ []) in Ic. destruct Ic as [q [Hq Eq]]. apply (In_nth _ _ 0) in Iv. destruct Iv as [m [Hmm Em]].
      destruct (on_edge_ex E m 0 ltac:(lia)) as [X [Y [LX [LY O]]]]. exists (gd q X Y). split; [apply gd_lt; lia|]. rewrite key_gd by lia. unfold ent. rewrite (cls_edge E m 0 X Y) by (try assumption; lia).
      cbn [Nat.eqb]. unfold pvert. rewrite Eq, Em. reflexivity.
  - intros [d [Hd <-]]. destruct (gd_of d Hd) as [q [X [Y [Hq [HX [HY ->]]]]]]. rewrite key_gd by assumption. unfold ent. destruct (cls E X Y) as [|i s|m] eqn:C.
    + left. exists (q, (X, Y)). split; [reflexivity|]. apply cls_inner in C; try lia. rewrite !in_prod_iff, !in_seq. lia.
    + right. left. apply cls_side in C; try lia. destruct C as [Hi [Hs O]]. destruct (shared_with q i) as [[a m]|] eqn:F.
      * exists (a, m, E - s). split; [reflexivity|]. apply in_prod_iff. split; [|apply in_seq; lia]. apply shared_some in F. destruct F as [Ha [_ [Hk [_ Op]]]].
        apply filter_In. split; [apply in_prod_iff; rewrite !in_seq; lia|]. cbn [fst snd]. destruct (shared_with a m) as [[c l]|] eqn:G; [|reflexivity]. exfalso.
        apply shared_some in G. destruct G as [Hc [_ [Hl [_ O2]]]]. pose proof (partner_unique a m q i c l ltac:(lia) Hq ltac:(lia) Hk Hi Hl Op (opposed_flip _ _ _ _ O2)) as Q. injection Q as -> ->. lia.
      * exists (q, i, s). split; [reflexivity|]. apply in_prod_iff. split; [|apply in_seq; lia]. apply filter_In. split; [apply in_prod_iff; rewrite !in_seq; lia|]. cbn [fst snd]. rewrite F. reflexivity.
    + right. right. apply cls_corner in C; try lia. destruct C as [Hk O]. exists (pvert verts q m). split; [reflexivity|]. apply Vs. exists (nth q verts []). assert (I : In (nth q verts []) verts) by (apply nth_In; exact Hq).
      split; [exact I|]. apply nth_In. rewrite (mo_len verts HM _ I). exact Hk.
Qed.
End Mesh.
