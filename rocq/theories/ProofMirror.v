(** Lemmas about mirror images. *)
From Coq Require Import Reals Lra Lia Arith Bool List ZArith QArith Qreals FunctionalExtensionality.
From Coquelicot Require Import Complex.
From Verif Require Import RSum ModelBase ModelBernstein ModelTree ModelBall ModelBlock ModelH2 ModelH2Init ModelQuad ModelDuffy ModelAssembly ModelOperators ModelForms ModelPipeline SpecMotion SpecOperators ProofMotion ProofNearFar ProofOperators PropOperators PropNearFar SpecMirror.
From Verif Require Import ProofScale.
Import ListNotations.
Local Close Scope Q_scope.
Local Open Scope R_scope.

Section Mirror.
Variable m : motion.
Hypothesis HR : reflection m.

(** the rotation with the opposite axes *)
Definition opposite : motion := mkMotion (vscal (-1) (m_x m)) (vscal (-1) (m_y m)) (vscal (-1) (m_z m)) (m_o m).
Lemma opposite_rotation : rotation opposite.
Proof.
  destruct HR as [A [B [C D]]]. unfold rotation, opposite. cbn [m_x m_y m_z]. rewrite D. clear D. destruct (m_x m) as [[a b] c], (m_y m) as [[d e] f]. unfold vdot, vcross, vscal, vx, vy, vz in *. cbn [fst snd] in *.
  split; [rewrite <- A; ring|]. split; [rewrite <- B; ring|]. split; [rewrite <- C; ring|]. f_equal; [f_equal|]; ring.
Qed.
Lemma turn_opposite : forall v, turn m v = vscal (-1) (turn opposite v).
Proof. intros v. apply vec_eq; unfold turn, opposite, vadd, vscal, vx, vy, vz; cbn [m_x m_y m_z fst snd]; ring. Qed.
Lemma mirror_dot : forall a b, vdot (turn m a) (turn m b) = vdot a b.
Proof. intros. rewrite !turn_opposite, scal_dot, (turn_dot opposite opposite_rotation). ring. Qed.
Lemma mirror_cross : forall a b, vcross (turn m a) (turn m b) = vscal (-1) (turn m (vcross a b)).
Proof.
  intros. rewrite !turn_opposite, <- (turn_cross opposite opposite_rotation). apply vec_eq; unfold vcross, vscal, vx, vy, vz; cbn [fst snd]; ring.
Qed.
Lemma mirror_norm : forall a, vnorm (turn m a) = vnorm a.
Proof. intros. unfold vnorm. rewrite mirror_dot. reflexivity. Qed.
Lemma minus_norm : forall a, vnorm (vscal (-1) a) = vnorm a.
Proof. intros. unfold vnorm. rewrite scal_dot. f_equal. ring. Qed.
Lemma mirror_normalized : forall a, vnormalized (vscal (-1) (turn m a)) = vscal (-1) (turn m (vnormalized a)).
Proof.
  intros a. unfold vnormalized. rewrite scal_dot, minus_norm, mirror_dot, mirror_norm. replace (-1 * -1 * vdot a a) with (vdot a a) by ring. destruct (Rlt_dec 0 (vdot a a)); [|reflexivity].
  apply vec_eq; unfold turn, vadd, vscal, vx, vy, vz; cbn [fst snd]; unfold Rdiv; ring.
Qed.
Lemma mirror_dist : forall a b, vnorm (vsub (move m a) (move m b)) = vnorm (vsub a b).
Proof. intros. rewrite (move_sub m). apply mirror_norm. Qed.

(** ** mesh *)
Lemma mirror_close : forall a b, close_points (move m a) (move m b) = close_points a b.
Proof. intros. unfold close_points. rewrite mirror_dist. reflexivity. Qed.
Lemma mirror_corners : forall X P, corners_of (moved m X) P = map (map (move m)) (corners_of X P).
Proof. intros. unfold corners_of. rewrite map_map. apply map_ext. intros p. rewrite map_map. reflexivity. Qed.
Lemma mirror_tree : forall X P M, init_tree close_points (corners_of (moved m X) P) M = init_tree close_points (corners_of X P) M.
Proof.
  intros. rewrite mirror_corners. apply (init_tree_map close_points close_points (move m) (fun _ => True)); [intros; apply mirror_close|]. apply Forall_forall. intros l _. apply Forall_forall. auto.
Qed.
(** points *)
Lemma set_map : forall {A B : Type} (f : A -> B) l k x, set (map f l) k (f x) = option_map (map f) (set l k x).
Proof. intros A B f l. induction l as [|a l IH]; intros [|k] x; try reflexivity. cbn [map set]. rewrite IH. destruct (set l k x); reflexivity. Qed.
Lemma mirror_write_element : forall X n pts, write_element (fun p x y => fst (fst (moved m X p (x, y)))) n (map (option_map (move m)) pts) =
  option_map (map (option_map (move m))) (write_element (fun p x y => fst (fst (X p (x, y)))) n pts).
Proof.
  intros X n pts. unfold write_element. cbv zeta.
  assert (V : forall k z l, write_vertex n k (move m z) (map (option_map (move m)) l) = option_map (map (option_map (move m))) (write_vertex n k z l)).
  { intros k z l. unfold write_vertex. destruct (get (n_verts n) k); [|reflexivity]. cbn [bind]. apply (set_map (option_map (move m)) l n0 (Some z)). }
  unfold moved. cbn [fst snd]. do 3 (rewrite V; match goal with |- bind (option_map _ ?z) _ = _ => destruct z; [|reflexivity] end; cbn [bind option_map]). apply V.
Qed.
Lemma mirror_point_list : forall X t, point_list (fun p x y => fst (fst (moved m X p (x, y)))) t = option_map (map (option_map (move m))) (point_list (fun p x y => fst (fst (X p (x, y)))) t).
Proof.
  intros X t. unfold point_list. destruct (traverse t) as [l|]; [|reflexivity]. cbn [bind].
  assert (G : forall l pts, write_elements (fun p x y => fst (fst (moved m X p (x, y)))) (t_store t) l (map (option_map (move m)) pts) = option_map (map (option_map (move m))) (write_elements (fun p x y => fst (fst (X p (x, y)))) (t_store t) l pts)).
  { clear l. induction l as [|a l IH]; intros pts; [reflexivity|]. cbn [write_elements]. destruct (t_store t a) as [n|]; [|reflexivity]. cbn [bind]. rewrite mirror_write_element.
    destruct (write_element _ n pts) as [pts'|]; [|reflexivity]. cbn [bind option_map]. apply IH. }
  rewrite <- G. f_equal. generalize (t_points t). intros k. induction k as [|k IH]; [reflexivity|]. cbn [repeat map option_map]. rewrite <- IH. reflexivity.
Qed.
(** balls *)
Lemma mirror_enclosing : forall x y, enclosing_ball (moved_ball m x) (moved_ball m y) = option_map (moved_ball m) (enclosing_ball x y).
Proof.
  intros [m1 r1] [m2 r2]. unfold enclosing_ball, moved_ball. cbn [fst snd]. rewrite mirror_dist.
  destruct (Rle_dec _ r1); [reflexivity|]. destruct (Rle_dec _ r2); [reflexivity|]. destruct (Req_EM_T _ 0) as [Z|Z]; [reflexivity|]. cbn [option_map fst snd]. rewrite (move_sub m). f_equal. f_equal.
  set (c := (r1 - r2) / vnorm (vsub m1 m2)). clearbody c. unfold move. apply vec_eq; unfold turn, vadd, vsub, vscal, vx, vy, vz; cbn [fst snd]; field.
Qed.
Lemma mirror_ball4 : forall a b c d, ball4 (moved_ball m a) (moved_ball m b) (moved_ball m c) (moved_ball m d) = option_map (moved_ball m) (ball4 a b c d).
Proof.
  intros. unfold ball4. rewrite !mirror_enclosing. destruct (enclosing_ball a c) as [p|]; [|reflexivity]. destruct (enclosing_ball b d) as [q|]; [|reflexivity]. cbn [bind option_map]. apply mirror_enclosing.
Qed.
Lemma mirror_bset : forall b a x, bset (moved_balls m b) a (moved_ball m x) = moved_balls m (bset b a x).
Proof. intros. apply functional_extensionality. intros c. unfold bset, moved_balls. destruct (addr_eqb c a); reflexivity. Qed.
Lemma mirror_col : forall P v, col (map (option_map (move m)) P) v = option_map (move m) (col P v).
Proof. intros. unfold col, get. rewrite nth_error_map. destruct (nth_error P v); reflexivity. Qed.
Lemma mirror_enclose_rec : forall f t P a b, enclose_rec f t (map (option_map (move m)) P) a (moved_balls m b) = option_map (moved_balls m) (enclose_rec f t P a b).
Proof.
  induction f as [|f IH]; intros t P a b; [reflexivity|]. cbn [enclose_rec]. destruct (t_store t a) as [n|]; [|reflexivity]. cbn [bind]. destruct (n_ref n).
  - do 4 (rewrite IH; match goal with |- bind (option_map _ ?z) _ = _ => destruct z; [|reflexivity] end; cbn [bind option_map]).
    unfold moved_balls at 1 2 3 4. destruct (b3 (0%nat :: a)) as [x0|]; [|reflexivity]. destruct (b3 (1%nat :: a)) as [x1|]; [|reflexivity]. destruct (b3 (2%nat :: a)) as [x2|]; [|reflexivity]. destruct (b3 (3%nat :: a)) as [x3|]; [|reflexivity].
    cbn [bind option_map]. rewrite mirror_ball4. destruct (ball4 x0 x1 x2 x3) as [x|]; [|reflexivity]. cbn [bind option_map]. rewrite mirror_bset. reflexivity.
  - destruct (get (n_verts n) 0) as [v0|]; [|reflexivity]. destruct (get (n_verts n) 1) as [v1|]; [|reflexivity]. destruct (get (n_verts n) 2) as [v2|]; [|reflexivity]. destruct (get (n_verts n) 3) as [v3|]; [|reflexivity].
    cbn [bind]. rewrite !mirror_col. destruct (col P v0) as [p0|]; [|reflexivity]. destruct (col P v1) as [p1|]; [|reflexivity]. destruct (col P v2) as [p2|]; [|reflexivity]. destruct (col P v3) as [p3|]; [|reflexivity].
    cbn [bind option_map]. pose proof (mirror_ball4 (p0, 0) (p1, 0) (p2, 0) (p3, 0)) as B. unfold moved_ball at 1 2 3 4 in B. cbn [fst snd] in B. rewrite B. clear B.
    destruct (ball4 (p0, 0) (p1, 0) (p2, 0) (p3, 0)) as [x|]; [|reflexivity]. cbn [bind option_map]. rewrite mirror_bset. reflexivity.
Qed.
Lemma mirror_enclosings : forall t P, enclosings t (map (option_map (move m)) P) = option_map (moved_balls m) (enclosings t P).
Proof.
  intros t P. unfold enclosings. generalize (t_patches t). intros k. induction k as [|k IH]; [reflexivity|]. cbn [for_opt]. rewrite IH.
  match goal with |- bind (option_map _ ?z) _ = _ => destruct z as [b|]; [|reflexivity] end. cbn [bind option_map]. apply mirror_enclose_rec.
Qed.
Lemma mirror_elements : forall t b l, map_opt (element_of t (moved_balls m b)) l = option_map (map (moved_element m)) (map_opt (element_of t b) l).
Proof.
  intros t b l. induction l as [|a l IH]; [reflexivity|]. cbn [map_opt]. unfold element_of at 1 3. destruct (t_store t a) as [n|]; [|reflexivity]. cbn [bind]. unfold moved_balls at 1. destruct (b a) as [x|]; [|reflexivity]. cbn [bind option_map]. rewrite IH.
  destruct (map_opt (element_of t b) l); reflexivity.
Qed.
Lemma mirror_init_mesh : forall X P M, init_mesh (moved m X) P M = option_map (moved_mesh m) (init_mesh X P M).
Proof.
  intros X P M. unfold init_mesh. rewrite mirror_tree. destruct (init_tree _ _ M) as [t|]; [|reflexivity]. cbn [bind]. rewrite mirror_point_list. destruct (point_list _ t) as [pts|]; [|reflexivity]. cbn [bind option_map].
  rewrite mirror_enclosings. destruct (enclosings t pts) as [b|]; [|reflexivity]. cbn [bind option_map]. destruct (traverse t) as [l|]; [|reflexivity]. cbn [bind]. rewrite mirror_elements. destruct (map_opt _ l); reflexivity.
Qed.
Lemma mirror_near : forall b eta a c, near_of (mid_of (moved_balls m b)) (rad_of (moved_balls m b)) eta a c = near_of (mid_of b) (rad_of b) eta a c.
Proof.
  intros. unfold near_of, rad_of, mid_of, moved_balls. destruct (b a) as [[xa ra]|]; cbn [option_map]; [|reflexivity]. destruct (b c) as [[xc rc]|]; cbn [option_map]; [|reflexivity]. unfold moved_ball. cbn [fst snd].
  assert (N : forall x y, norm3 x y = vnorm (vsub x y)) by (intros [[x1 x2] x3] [[y1 y2] y3]; unfold norm3, vnorm, vdot, vsub, vx, vy, vz; reflexivity). rewrite !N, mirror_dist. reflexivity.
Qed.

(** ** integrands *)
Lemma mirror_surf : forall X e s w, surf_point (moved m X) e s w = moved_point m (surf_point X e s w).
Proof. reflexivity. Qed.
Lemma mirror_n : forall p, p_n (moved_point m p) = vscal (-1) (turn m (p_n p)).
Proof. intros. apply mirror_cross. Qed.
Lemma mirror_kappa : forall p, p_kappa (moved_point m p) = p_kappa p.
Proof. intros. unfold p_kappa. rewrite mirror_n, minus_norm. apply mirror_norm. Qed.
Lemma mirror_kernel : forall x y, laplace_kernel (move m x) (move m y) = laplace_kernel x y.
Proof. intros. unfold laplace_kernel. rewrite mirror_dist. reflexivity. Qed.
Lemma mirror_dl_kernel : forall x y v, laplace_dl_kernel (move m x) (move m y) (turn m v) = laplace_dl_kernel x y v.
Proof. intros. unfold laplace_dl_kernel. cbv zeta. rewrite (move_sub m), mirror_norm, mirror_dot. reflexivity. Qed.
Lemma mirror_adl_kernel : forall x y v, laplace_adl_kernel (move m x) (turn m v) (move m y) = laplace_adl_kernel x v y.
Proof. intros. unfold laplace_adl_kernel. cbv zeta. rewrite (move_sub m), mirror_norm, <- (turn_scal m), mirror_dot. reflexivity. Qed.
Lemma mirror_h_kernel : forall k x y, helmholtz_kernel k (move m x) (move m y) = helmholtz_kernel k x y.
Proof. intros. unfold helmholtz_kernel. cbv zeta. rewrite mirror_dist. reflexivity. Qed.
Lemma mirror_hdl_kernel : forall k x y v, helmholtz_dl_kernel k (move m x) (move m y) (turn m v) = helmholtz_dl_kernel k x y v.
Proof. intros. unfold helmholtz_dl_kernel. cbv zeta. rewrite (move_sub m), mirror_norm, mirror_dot. reflexivity. Qed.
Lemma mirror_hadl_kernel : forall k x y v, helmholtz_adl_kernel k (move m x) (turn m v) (move m y) = helmholtz_adl_kernel k x v y.
Proof. intros. unfold helmholtz_adl_kernel. cbv zeta. rewrite (move_sub m), mirror_norm, <- (turn_scal m), mirror_dot. reflexivity. Qed.
Lemma mirror_curl : forall ss p i, surface_curl ss (moved_point m p) i = turn m (surface_curl ss p i).
Proof. intros. unfold surface_curl. rewrite mirror_kappa. cbn [p_s p_dx p_dy moved_point]. rewrite <- !(turn_scal m), <- (turn_add m), <- (turn_scal m). reflexivity. Qed.
Lemma mirror_curls : forall ss w p q, addScaledSurfaceCurlInteraction ss w (moved_point m p) (moved_point m q) = addScaledSurfaceCurlInteraction ss w p q.
Proof.
  intros. apply functional_extensionality. intros I. unfold addScaledSurfaceCurlInteraction. cbv zeta. f_equal. apply functional_extensionality. intros j. apply functional_extensionality. intros I2. f_equal.
  apply functional_extensionality. intros i. apply functional_extensionality. intros I3. rewrite !mirror_curl, mirror_dot. reflexivity.
Qed.
Lemma mirror_curl_fun : forall ss p q, (fun w : R => addScaledSurfaceCurlInteraction ss w (moved_point m p) (moved_point m q)) = (fun w => addScaledSurfaceCurlInteraction ss w p q).
Proof. intros. apply functional_extensionality. intros w. apply mirror_curls. Qed.
Lemma mirror_vectors : forall ss w s t a b c d, addScaledVectorBasisInteraction ss w s t (turn m a) (turn m b) (turn m c) (turn m d) = addScaledVectorBasisInteraction ss w s t a b c d.
Proof. intros. unfold addScaledVectorBasisInteraction. rewrite !mirror_dot. reflexivity. Qed.
Lemma mirror_vector_fun : forall ss s t a b c d, (fun w : R => addScaledVectorBasisInteraction ss w s t (turn m a) (turn m b) (turn m c) (turn m d)) = (fun w => addScaledVectorBasisInteraction ss w s t a b c d).
Proof. intros. apply functional_extensionality. intros w. apply mirror_vectors. Qed.
(** two negated normals *)
Lemma mirror_normals : forall p q, vdot (p_n (moved_point m p)) (p_n (moved_point m q)) = vdot (p_n p) (p_n q).
Proof. intros. rewrite !mirror_n, scal_dot, mirror_dot. ring. Qed.
Lemma mirror_same : forall k op, In (op, 1) (mirror_operators k) ->
  (forall ss p q, op_integrand op ss (moved_point m p) (moved_point m q) = op_integrand op ss p q) /\ (forall p q, op_fmm op (moved_point m p) (moved_point m q) = op_fmm op p q).
Proof.
  intros k op H. unfold mirror_operators, mirror_complex in H. cbn [app flat_map In fst snd] in H.
  assert (D : forall (o : operator mat), (o, -1) <> (op, 1)) by (intros o E; injection E; lra).
  repeat (destruct H as [H|H]; [first [exfalso; exact (D _ H)|injection H as <-]|]); [..|destruct H].
  all: split; intros.
  all: cbn [op_integrand op_fmm laplace_sl laplace_hs part_of helmholtz_sl helmholtz_hs maxwell_sl].
  all: unfold laplace_sl_integrand, laplace_hs_integrand, laplace_sl_fmm, laplace_hs_fmm,
         helmholtz_sl_integrand, helmholtz_hs_integrand, helmholtz_sl_fmm, helmholtz_hs_fmm, maxwell_sl_integrand, maxwell_sl_fmm.
  all: cbv zeta; rewrite ?mirror_kappa, ?mirror_normals; cbn [p_f p_s p_w p_dx p_dy moved_point].
  all: rewrite ?mirror_kernel, ?mirror_h_kernel, ?mirror_dot, ?mirror_vectors.
  all: try reflexivity.
  all: change (mkSP (p_s p) (p_w p) (move m (p_f p)) (turn m (p_dx p)) (turn m (p_dy p))) with (moved_point m p); change (mkSP (p_s q) (p_w q) (move m (p_f q)) (turn m (p_dx q)) (turn m (p_dy q))) with (moved_point m q).
  all: first [apply mirror_curls|rewrite (mirror_curl_fun ss p q); reflexivity|rewrite mirror_vector_fun; reflexivity].
Qed.
Lemma minus_C : forall z, (RtoC (-1) * z = - z)%C.
Proof. intros [a b]. unfold Cmult, Copp, RtoC. cbn [fst snd]. f_equal; ring. Qed.
Lemma mirror_other : forall k op, In (op, -1) (mirror_operators k) -> op_vd op = 1%nat /\
  (forall ss p q a b, (a < ss_n2 ss)%nat -> (b < ss_n2 ss)%nat -> op_integrand op ss (moved_point m p) (moved_point m q) no_matrix a b = - op_integrand op ss p q no_matrix a b) /\
  (forall p q i j, op_fmm op (moved_point m p) (moved_point m q) i j = - op_fmm op p q i j).
Proof.
  intros k op H. unfold mirror_operators, mirror_complex in H. cbn [app flat_map In fst snd] in H.
  assert (D : forall (o : operator mat), (o, 1) <> (op, -1)) by (intros o E; injection E; lra).
  repeat (destruct H as [H|H]; [first [exfalso; exact (D _ H)|injection H as <-]|]); [..|destruct H].
  all: split; [reflexivity|].
  all: split; intros.
  all: cbn [op_integrand op_fmm laplace_dl laplace_adl part_of helmholtz_dl helmholtz_adl].
  all: unfold laplace_dl_integrand, laplace_adl_integrand, laplace_dl_fmm, laplace_adl_fmm, helmholtz_dl_integrand, helmholtz_adl_integrand, helmholtz_dl_fmm, helmholtz_adl_fmm.
  all: cbv zeta; rewrite ?mirror_kappa, ?mirror_n, ?mirror_normalized, ?dl_scal, ?adl_scal, ?hdl_scal, ?hadl_scal; cbn [p_f p_s p_w p_dx p_dy moved_point].
  all: rewrite ?mirror_dl_kernel, ?mirror_adl_kernel, ?mirror_hdl_kernel, ?mirror_hadl_kernel, ?minus_C.
  all: try change zero_cmatrix with no_cmatrix; rewrite ?interaction_value, ?cinteraction by assumption; unfold no_matrix, no_cmatrix.
  all: try ring.
  all: match goal with |- context [helmholtz_dl_kernel ?k ?x ?y ?v] => destruct (helmholtz_dl_kernel k x y v) as [z1 z2] | |- context [helmholtz_adl_kernel ?k ?x ?y ?v] => destruct (helmholtz_adl_kernel k x y v) as [z1 z2] end.
  all: unfold Cmult, Cplus, Copp, RtoC; cbn [fst snd]; ring.
Qed.
Lemma mirror_signs : forall k op s, In (op, s) (mirror_operators k) -> (s = 1 \/ s = -1) /\ In op (library_operators k).
Proof.
  intros k op s H. unfold mirror_operators, mirror_complex, library_operators in *. cbn [app flat_map In fst snd] in *.
  repeat (destruct H as [H|H]; [injection H as <- <-; split; [auto|auto 20]|]). destruct H.
Qed.
Lemma mirror_kern : forall k op s ss X (e1 e2 : element) x y a b, In (op, s) (mirror_operators k) -> (a < op_vd op * ss_n2 ss)%nat -> (b < op_vd op * ss_n2 ss)%nat ->
  op_kern op ss (moved m X) (moved_element m e1) x (moved_element m e2) y a b = s * op_kern op ss X e1 x e2 y a b.
Proof.
  intros k op s ss X e1 e2 x y a b H Ha Hb. unfold op_kern. cbn [moved_element e_node]. rewrite !mirror_surf. destruct (proj1 (mirror_signs k op s H)) as [ -> | -> ].
  - rewrite (proj1 (mirror_same k op H)). ring.
  - destruct (mirror_other k op H) as [V [HI _]]. rewrite V, Nat.mul_1_l in Ha, Hb. change zero_matrix with no_matrix. rewrite HI by assumption. ring.
Qed.
Lemma mirror_fmm : forall k op s p q i j, In (op, s) (mirror_operators k) -> op_fmm op (moved_point m p) (moved_point m q) i j = s * op_fmm op p q i j.
Proof.
  intros k op s p q i j H. destruct (proj1 (mirror_signs k op s H)) as [ -> | -> ].
  - rewrite (proj2 (mirror_same k op H)). ring.
  - rewrite (proj2 (proj2 (mirror_other k op H))). ring.
Qed.

(** ** forms of pairs of elements *)
Lemma mirror_compare : forall e1 e2, compare_elements (moved_element m e1) (moved_element m e2) = compare_elements e1 e2.
Proof. intros. unfold compare_elements, element_distance. cbn [moved_element e_mid e_rad e_addr]. rewrite mirror_dist. reflexivity. Qed.
Section Entry.
Variables (K K' : kern) (c : R) (a b : nat).
Hypothesis HK : forall e1 s e2 t, K' (moved_element m e1) s (moved_element m e2) t a b = c * K e1 s e2 t a b.
Definition mirror_rel (z' z : mat) : Prop := z' a b = c * z a b.
Lemma mirror_loop : forall n (f g : nat -> mat -> mat) s s', (forall i z z', mirror_rel z z' -> mirror_rel (f i z) (g i z')) -> mirror_rel s s' -> mirror_rel (for_loop n f s) (for_loop n g s').
Proof. intros n f g s s' E E0. induction n as [|n IH]; cbn [for_loop]; auto. Qed.
Lemma mirror_zero : mirror_rel zero_mat zero_mat.
Proof. unfold mirror_rel, zero_mat. ring. Qed.
Lemma mirror_evaluate : forall p q z' z, mirror_rel z' z -> mirror_rel (evaluate_integrand K' (moved_sp m p) (moved_sp m q) z') (evaluate_integrand K p q z).
Proof. intros p q z' z E. unfold mirror_rel, evaluate_integrand, moved_sp, sp_elem, sp_xi, sp_w in *. cbn [fst snd]. rewrite E, HK. ring. Qed.
Lemma mirror_map2 : forall e s w, map2surface (moved_element m e) s w = moved_sp m (map2surface e s w).
Proof. reflexivity. Qed.
Lemma mirror_form : forall p order GS e1 e2 f1 f2, 
  match evaluate_bilinear_form K' p order GS (moved_element m e1) (moved_element m e2) (map (moved_sp m) f1) (map (moved_sp m) f2), evaluate_bilinear_form K p order GS e1 e2 f1 f2 with
  | Some z', Some z => z' a b = c * z a b | None, None => True | _, _ => False end.
Proof.
  intros. unfold evaluate_bilinear_form. rewrite mirror_compare. destruct (compare_elements e1 e2) as [[[r1 r2] cs] d]. change (e_level (moved_element m e1)) with (e_level e1). cbn [fst snd].
  set (nf := if (farfield_degree p order <=? _)%Z then _ else _). destruct (nf <? max_quadrature_degree)%Z; [|exact I]. set (Q := GS nf).
  assert (NI : forall f e i, nth i (map (moved_sp m) f) (no_point (moved_element m e)) = moved_sp m (nth i f (no_point e))) by (intros f e i; change (no_point (moved_element m e)) with (moved_sp m (no_point e)); apply map_nth).
  destruct cs as [|[|[|[|[|cs]]]]]; try exact I; [destruct (nf =? _)%Z| | |].
  - unfold integrate0. apply mirror_loop; [|exact mirror_zero]. intros i z z' Ez. apply mirror_loop; [|exact Ez]. intros j y y' Ey. rewrite !NI. apply mirror_evaluate, Ey.
  - unfold integrate1. cbv zeta. apply mirror_loop; [|exact mirror_zero]. intros i z z' Ez. apply mirror_loop; [|exact Ez]. intros j y y' Ey. rewrite !mirror_map2. apply mirror_evaluate, Ey.
  - unfold integrate2. cbv zeta. apply mirror_loop; [|exact mirror_zero]. intros i z z' Ez. apply mirror_loop; [|exact Ez]. intros j y y' Ey. apply mirror_loop; [|exact Ey]. intros k x x' Ex. rewrite !mirror_map2. do 2 apply mirror_evaluate. exact Ex.
  - unfold integrate3. cbv zeta. apply mirror_loop; [|exact mirror_zero]. intros i z z' Ez. apply mirror_loop; [|exact Ez]. intros j y y' Ey. rewrite !mirror_map2. do 6 apply mirror_evaluate. exact Ey.
  - unfold integrate4. cbv zeta. apply mirror_loop; [|exact mirror_zero]. intros i z z' Ez. apply mirror_loop; [|exact Ez]. intros j y y' Ey. rewrite !mirror_map2. do 4 apply mirror_evaluate. exact Ey.
Qed.
End Entry.
Lemma mirror_op_form : forall k op s ss X order GS els e1 e2 a b, In (op, s) (mirror_operators k) -> (a < op_vd op * ss_n2 ss)%nat -> (b < op_vd op * ss_n2 ss)%nat ->
  op_form op ss (moved m X) order GS (map (moved_element m) els) e1 e2 a b = s * op_form op ss X order GS els e1 e2 a b.
Proof.
  intros k op s ss X order GS els e1 e2 a b Hop Ha Hb. unfold op_form. cbv zeta. rewrite (moved_ffield m). destruct (compute_ffield_qnodes _ els) as [ff|]; [|cbn; unfold zero_mat; ring]. cbn [bind option_map].
  unfold get. rewrite !nth_error_map. destruct (nth_error els (n_id e1)) as [E1|]; [|cbn; unfold zero_mat; ring]. destruct (nth_error els (n_id e2)) as [E2|]; [|cbn; unfold zero_mat; ring].
  destruct (nth_error ff (n_id e1)) as [f1|]; [|cbn; unfold zero_mat; ring]. destruct (nth_error ff (n_id e2)) as [f2|]; [|cbn; unfold zero_mat; ring].
  cbn [bind option_map]. destruct f1 as [f1|]; [|cbn; unfold zero_mat; ring]. destruct f2 as [f2|]; [|cbn; unfold zero_mat; ring]. cbn [bind option_map].
  pose proof (mirror_form (op_kern op ss X) (op_kern op ss (moved m X)) s a b (fun c1 x c2 y => mirror_kern k op s ss X c1 c2 x y a b Hop Ha Hb)) as MF.
  match goal with |- context [evaluate_bilinear_form _ ?p order GS _ _ _ _] => specialize (MF p order GS E1 E2 f1 f2) end.
  destruct (evaluate_bilinear_form _ _ _ _ (moved_element m E1) _ _ _) as [z'|], (evaluate_bilinear_form _ _ _ _ E1 _ _ _) as [z|]; try contradiction; [exact MF|unfold zero_mat; ring].
Qed.
End Mirror.
