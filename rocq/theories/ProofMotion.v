(** Lemmas about rotations and translations. *)
From Coq Require Import Reals Lra Lia Arith Bool List ZArith QArith Qreals FunctionalExtensionality.
From Coquelicot Require Import Complex.
From Verif Require Import RSum ModelBase ModelBernstein ModelTree ModelBall ModelBlock ModelH2 ModelH2Init ModelQuad ModelDuffy ModelAssembly ModelOperators ModelForms ModelPipeline SpecMotion.
Import ListNotations.
Local Close Scope Q_scope.
Local Open Scope R_scope.

Section Motion.
Variable m : motion.
Hypothesis HR : rotation m.

Lemma vec_eq : forall a b : vec3, vx a = vx b -> vy a = vy b -> vz a = vz b -> a = b.
Proof. intros [[a1 a2] a3] [[b1 b2] b3]. unfold vx, vy, vz. cbn [fst snd]. intros -> -> ->. reflexivity. Qed.
Lemma turn_add : forall a b, turn m (vadd a b) = vadd (turn m a) (turn m b).
Proof. intros. apply vec_eq; unfold turn, vadd, vscal, vx, vy, vz; cbn [fst snd]; ring. Qed.
Lemma turn_scal : forall c a, turn m (vscal c a) = vscal c (turn m a).
Proof. intros. apply vec_eq; unfold turn, vadd, vscal, vx, vy, vz; cbn [fst snd]; ring. Qed.
Lemma turn_sub : forall a b, turn m (vsub a b) = vsub (turn m a) (turn m b).
Proof. intros. apply vec_eq; unfold turn, vadd, vsub, vscal, vx, vy, vz; cbn [fst snd]; ring. Qed.
Lemma move_sub : forall a b, vsub (move m a) (move m b) = turn m (vsub a b).
Proof. intros. rewrite turn_sub. apply vec_eq; unfold move, vadd, vsub, vx, vy, vz; cbn [fst snd]; ring. Qed.
Lemma frame : vdot (m_z m) (m_z m) = 1 /\ vdot (m_x m) (m_z m) = 0 /\ vdot (m_y m) (m_z m) = 0 /\ vcross (m_y m) (m_z m) = m_x m /\ vcross (m_z m) (m_x m) = m_y m.
Proof.
  destruct HR as [A [B [C D]]]. rewrite D. clear D. destruct (m_x m) as [[a b] c], (m_y m) as [[d e] f]. unfold vdot, vcross, vx, vy, vz in *. cbn [fst snd] in *.
  split; [replace 1 with ((a * a + b * b + c * c) * (d * d + e * e + f * f) - (a * d + b * e + c * f) * (a * d + b * e + c * f)) by (rewrite A, B, C; ring); ring|].
  split; [ring|]. split; [ring|]. split.
  - f_equal; [f_equal|].
    + transitivity (a * (d * d + e * e + f * f) - d * (a * d + b * e + c * f)); [ring|rewrite B, C; ring].
    + transitivity (b * (d * d + e * e + f * f) - e * (a * d + b * e + c * f)); [ring|rewrite B, C; ring].
    + transitivity (c * (d * d + e * e + f * f) - f * (a * d + b * e + c * f)); [ring|rewrite B, C; ring].
  - f_equal; [f_equal|].
    + transitivity (d * (a * a + b * b + c * c) - a * (a * d + b * e + c * f)); [ring|rewrite A, C; ring].
    + transitivity (e * (a * a + b * b + c * c) - b * (a * d + b * e + c * f)); [ring|rewrite A, C; ring].
    + transitivity (f * (a * a + b * b + c * c) - c * (a * d + b * e + c * f)); [ring|rewrite A, C; ring].
Qed.
Lemma turn_dot : forall a b, vdot (turn m a) (turn m b) = vdot a b.
Proof.
  intros a b. destruct frame as [F1 [F2 [F3 _]]]. destruct HR as [A [B [C _]]].
  transitivity (vx a * vx b * vdot (m_x m) (m_x m) + vy a * vy b * vdot (m_y m) (m_y m) + vz a * vz b * vdot (m_z m) (m_z m)
    + (vx a * vy b + vy a * vx b) * vdot (m_x m) (m_y m) + (vx a * vz b + vz a * vx b) * vdot (m_x m) (m_z m) + (vy a * vz b + vz a * vy b) * vdot (m_y m) (m_z m)).
  - unfold turn, vdot, vadd, vscal, vx, vy, vz. cbn [fst snd]. ring.
  - rewrite F1, F2, F3, A, B, C. unfold vdot. ring.
Qed.
Lemma turn_cross : forall a b, vcross (turn m a) (turn m b) = turn m (vcross a b).
Proof.
  intros a b. destruct frame as [_ [_ [_ [F1 F2]]]]. destruct HR as [_ [_ [_ D]]].
  transitivity (vadd (vadd (vscal (vx (vcross a b)) (vcross (m_y m) (m_z m))) (vscal (vy (vcross a b)) (vcross (m_z m) (m_x m)))) (vscal (vz (vcross a b)) (vcross (m_x m) (m_y m)))).
  - apply vec_eq; unfold turn, vcross, vadd, vscal, vx, vy, vz; cbn [fst snd]; ring.
  - rewrite F1, F2, <- D. reflexivity.
Qed.
Lemma turn_norm : forall a, vnorm (turn m a) = vnorm a.
Proof. intros. unfold vnorm. rewrite turn_dot. reflexivity. Qed.
Lemma turn_normalized : forall a, vnormalized (turn m a) = turn m (vnormalized a).
Proof.
  intros a. unfold vnormalized. rewrite turn_dot, turn_norm. destruct (Rlt_dec 0 (vdot a a)); [|reflexivity].
  apply vec_eq; unfold turn, vadd, vscal, vx, vy, vz; cbn [fst snd]; unfold Rdiv; ring.
Qed.
Lemma move_dist : forall a b, vnorm (vsub (move m a) (move m b)) = vnorm (vsub a b).
Proof. intros. rewrite move_sub. apply turn_norm. Qed.

(** ** integrands *)
Definition moved_point (p : spoint) : spoint := mkSP (p_s p) (p_w p) (move m (p_f p)) (turn m (p_dx p)) (turn m (p_dy p)).
Lemma moved_surf : forall X e s w, surf_point (moved m X) e s w = moved_point (surf_point X e s w).
Proof. reflexivity. Qed.
Lemma moved_n : forall p, p_n (moved_point p) = turn m (p_n p).
Proof. intros. apply turn_cross. Qed.
Lemma moved_kappa : forall p, p_kappa (moved_point p) = p_kappa p.
Proof. intros. unfold p_kappa. rewrite moved_n. apply turn_norm. Qed.
Lemma moved_kernel : forall x y, laplace_kernel (move m x) (move m y) = laplace_kernel x y.
Proof. intros. unfold laplace_kernel. rewrite move_dist. reflexivity. Qed.
Lemma moved_dl_kernel : forall x y v, laplace_dl_kernel (move m x) (move m y) (turn m v) = laplace_dl_kernel x y v.
Proof. intros. unfold laplace_dl_kernel. cbv zeta. rewrite move_sub, turn_norm, turn_dot. reflexivity. Qed.
Lemma moved_adl_kernel : forall x y v, laplace_adl_kernel (move m x) (turn m v) (move m y) = laplace_adl_kernel x v y.
Proof. intros. unfold laplace_adl_kernel. cbv zeta. rewrite move_sub, turn_norm, <- turn_scal, turn_dot. reflexivity. Qed.
Lemma moved_h_kernel : forall k x y, helmholtz_kernel k (move m x) (move m y) = helmholtz_kernel k x y.
Proof. intros. unfold helmholtz_kernel. cbv zeta. rewrite move_dist. reflexivity. Qed.
Lemma moved_hdl_kernel : forall k x y v, helmholtz_dl_kernel k (move m x) (move m y) (turn m v) = helmholtz_dl_kernel k x y v.
Proof. intros. unfold helmholtz_dl_kernel. cbv zeta. rewrite move_sub, turn_norm, turn_dot. reflexivity. Qed.
Lemma moved_hadl_kernel : forall k x y v, helmholtz_adl_kernel k (move m x) (turn m v) (move m y) = helmholtz_adl_kernel k x v y.
Proof. intros. unfold helmholtz_adl_kernel. cbv zeta. rewrite move_sub, turn_norm, <- turn_scal, turn_dot. reflexivity. Qed.
Lemma moved_curl : forall ss p i, surface_curl ss (moved_point p) i = turn m (surface_curl ss p i).
Proof. intros. unfold surface_curl. rewrite moved_kappa. cbn [p_s p_dx p_dy moved_point]. rewrite <- !turn_scal, <- turn_add, <- turn_scal. reflexivity. Qed.
Lemma moved_curls : forall ss w p q, addScaledSurfaceCurlInteraction ss w (moved_point p) (moved_point q) = addScaledSurfaceCurlInteraction ss w p q.
Proof.
  intros. apply functional_extensionality. intros I. unfold addScaledSurfaceCurlInteraction. cbv zeta. f_equal. apply functional_extensionality. intros j. apply functional_extensionality. intros I2. f_equal.
  apply functional_extensionality. intros i. apply functional_extensionality. intros I3. rewrite !moved_curl, turn_dot. reflexivity.
Qed.
Lemma moved_curl_fun : forall ss p q, (fun w : R => addScaledSurfaceCurlInteraction ss w (moved_point p) (moved_point q)) = (fun w => addScaledSurfaceCurlInteraction ss w p q).
Proof. intros. apply functional_extensionality. intros w. apply moved_curls. Qed.
Lemma moved_vectors : forall ss w s t a b c d, addScaledVectorBasisInteraction ss w s t (turn m a) (turn m b) (turn m c) (turn m d) = addScaledVectorBasisInteraction ss w s t a b c d.
Proof. intros. unfold addScaledVectorBasisInteraction. rewrite !turn_dot. reflexivity. Qed.
Lemma moved_vector_fun : forall ss s t a b c d, (fun w : R => addScaledVectorBasisInteraction ss w s t (turn m a) (turn m b) (turn m c) (turn m d)) = (fun w => addScaledVectorBasisInteraction ss w s t a b c d).
Proof. intros. apply functional_extensionality. intros w. apply moved_vectors. Qed.
Lemma moved_operator : forall k op, In op (library_operators k) ->
  (forall ss p q, op_integrand op ss (moved_point p) (moved_point q) = op_integrand op ss p q) /\ (forall p q, op_fmm op (moved_point p) (moved_point q) = op_fmm op p q).
Proof.
  intros k op H. unfold library_operators in H. cbn [app flat_map In] in H.
  repeat (destruct H as [<-|H]); [| | | | | | | | | | | | | |destruct H].
  all: split; intros.
  all: cbn [op_integrand op_fmm laplace_sl laplace_dl laplace_adl laplace_hs part_of helmholtz_sl helmholtz_dl helmholtz_adl helmholtz_hs maxwell_sl].
  all: unfold laplace_sl_integrand, laplace_dl_integrand, laplace_adl_integrand, laplace_hs_integrand, laplace_sl_fmm, laplace_dl_fmm, laplace_adl_fmm, laplace_hs_fmm,
         helmholtz_sl_integrand, helmholtz_dl_integrand, helmholtz_adl_integrand, helmholtz_hs_integrand, helmholtz_sl_fmm, helmholtz_dl_fmm, helmholtz_adl_fmm, helmholtz_hs_fmm, maxwell_sl_integrand, maxwell_sl_fmm.
  all: cbv zeta; rewrite ?moved_kappa, ?moved_n, ?turn_normalized; cbn [p_f p_s p_w p_dx p_dy moved_point].
  all: rewrite ?moved_kernel, ?moved_dl_kernel, ?moved_adl_kernel, ?moved_h_kernel, ?moved_hdl_kernel, ?moved_hadl_kernel, ?turn_dot, ?moved_vectors.
  all: try reflexivity.
  all: change (mkSP (p_s p) (p_w p) (move m (p_f p)) (turn m (p_dx p)) (turn m (p_dy p))) with (moved_point p); change (mkSP (p_s q) (p_w q) (move m (p_f q)) (turn m (p_dx q)) (turn m (p_dy q))) with (moved_point q).
  all: first [apply moved_curls|rewrite (moved_curl_fun ss p q); reflexivity|rewrite moved_vector_fun; reflexivity].
Qed.

(** ** mesh *)
Lemma find_map : forall {A B : Type} (close : A -> A -> bool) (close' : B -> B -> bool) (f : A -> B) v l,
  (forall a, In a l -> close' (f a) (f v) = close a v) -> find_pt close' (f v) (map f l) = find_pt close v l.
Proof.
  intros A B close close' f v l. induction l as [|a l IH]; intros Ha; [reflexivity|]. cbn [map find_pt]. rewrite Ha by (left; reflexivity). rewrite IH by (intros; apply Ha; right; assumption). reflexivity.
Qed.
Lemma add_pts_map : forall {A B : Type} (close : A -> A -> bool) (close' : B -> B -> bool) (f : A -> B) (D : A -> Prop), (forall a b, D a -> D b -> close' (f a) (f b) = close a b) ->
  forall vs pts, Forall D pts -> Forall D vs -> add_pts close' (map f pts) (map f vs) = (fst (add_pts close pts vs), map f (snd (add_pts close pts vs))) /\ Forall D (snd (add_pts close pts vs)).
Proof.
  intros A B close close' f D Hf. induction vs as [|v vs IH]; intros pts Hp Hv; [split; [reflexivity|exact Hp]|]. inversion Hv as [|? ? Dv Dvs]; subst. cbn [map add_pts]. unfold add_pt.
  rewrite (find_map close close' f v pts) by (intros a Ia; apply Hf; [exact (proj1 (Forall_forall _ _) Hp a Ia)|exact Dv]). rewrite map_length.
  set (pts1 := if (find_pt close v pts <? length pts)%nat then pts else pts ++ [v]). assert (Hp1 : Forall D pts1) by (unfold pts1; destruct (_ <? _)%nat; [exact Hp|apply Forall_app; split; [exact Hp|constructor; [exact Dv|constructor]]]).
  destruct (IH pts1 Hp1 Dvs) as [E F]. replace (map f pts ++ [f v]) with (map f (pts ++ [v])) by apply map_app. unfold pts1 in E, F.
  destruct (find_pt close v pts <? length pts)%nat; rewrite E; destruct (add_pts close _ vs) as [ks pts2]; split; try reflexivity; exact F.
Qed.
Lemma patch_vertices_map : forall {A B : Type} (close : A -> A -> bool) (close' : B -> B -> bool) (f : A -> B) (D : A -> Prop), (forall a b, D a -> D b -> close' (f a) (f b) = close a b) ->
  forall cs pts, Forall D pts -> Forall (Forall D) cs -> patch_vertices close' (map f pts) (map (map f) cs) = (fst (patch_vertices close pts cs), map f (snd (patch_vertices close pts cs))).
Proof.
  intros A B close close' f D Hf. induction cs as [|c cs IH]; intros pts Hp Hc; [reflexivity|]. inversion Hc as [|? ? Dc Dcs]; subst. cbn [map patch_vertices].
  destruct (add_pts_map close close' f D Hf c pts Hp Dc) as [E F]. rewrite E. destruct (add_pts close pts c) as [ks pts1]. cbn [fst snd] in *. rewrite (IH pts1 F Dcs). destruct (patch_vertices close pts1 cs) as [kss pts2]. reflexivity.
Qed.
Lemma init_tree_map : forall {A B : Type} (close : A -> A -> bool) (close' : B -> B -> bool) (f : A -> B) (D : A -> Prop) cs M, (forall a b, D a -> D b -> close' (f a) (f b) = close a b) -> Forall (Forall D) cs ->
  init_tree close' (map (map f) cs) M = init_tree close cs M.
Proof.
  intros A B close close' f D cs M Hf Hc. unfold init_tree. pose proof (patch_vertices_map close close' f D Hf cs [] ltac:(constructor) Hc) as E. cbn [map] in E. rewrite E.
  destruct (patch_vertices close [] cs) as [v pts]. cbn [fst snd]. rewrite map_length. reflexivity.
Qed.
Lemma moved_close : forall a b, close_points (move m a) (move m b) = close_points a b.
Proof. intros. unfold close_points. rewrite move_dist. reflexivity. Qed.
Lemma moved_corners : forall X P, corners_of (moved m X) P = map (map (move m)) (corners_of X P).
Proof. intros. unfold corners_of. rewrite map_map. apply map_ext. intros p. rewrite map_map. reflexivity. Qed.
Lemma moved_tree : forall X P M, init_tree close_points (corners_of (moved m X) P) M = init_tree close_points (corners_of X P) M.
Proof.
  intros. rewrite moved_corners. apply (init_tree_map close_points close_points (move m) (fun _ => True)); [intros; apply moved_close|]. apply Forall_forall. intros l _. apply Forall_forall. auto.
Qed.
(** points *)
Lemma set_map : forall {A B : Type} (f : A -> B) l k x, set (map f l) k (f x) = option_map (map f) (set l k x).
Proof. intros A B f l. induction l as [|a l IH]; intros [|k] x; try reflexivity. cbn [map set]. rewrite IH. destruct (set l k x); reflexivity. Qed.
Lemma moved_write_element : forall X n pts, write_element (fun p x y => fst (fst (moved m X p (x, y)))) n (map (option_map (move m)) pts) =
  option_map (map (option_map (move m))) (write_element (fun p x y => fst (fst (X p (x, y)))) n pts).
Proof.
  intros X n pts. unfold write_element. cbv zeta.
  assert (V : forall k z l, write_vertex n k (move m z) (map (option_map (move m)) l) = option_map (map (option_map (move m))) (write_vertex n k z l)).
  { intros k z l. unfold write_vertex. destruct (get (n_verts n) k); [|reflexivity]. cbn [bind]. apply (set_map (option_map (move m)) l n0 (Some z)). }
  unfold moved. cbn [fst snd]. do 3 (rewrite V; match goal with |- bind (option_map _ ?z) _ = _ => destruct z; [|reflexivity] end; cbn [bind option_map]). apply V.
Qed.
Lemma moved_point_list : forall X t, point_list (fun p x y => fst (fst (moved m X p (x, y)))) t = option_map (map (option_map (move m))) (point_list (fun p x y => fst (fst (X p (x, y)))) t).
Proof.
  intros X t. unfold point_list. destruct (traverse t) as [l|]; [|reflexivity]. cbn [bind].
  assert (G : forall l pts, write_elements (fun p x y => fst (fst (moved m X p (x, y)))) (t_store t) l (map (option_map (move m)) pts) = option_map (map (option_map (move m))) (write_elements (fun p x y => fst (fst (X p (x, y)))) (t_store t) l pts)).
  { clear l. induction l as [|a l IH]; intros pts; [reflexivity|]. cbn [write_elements]. destruct (t_store t a) as [n|]; [|reflexivity]. cbn [bind]. rewrite moved_write_element.
    destruct (write_element _ n pts) as [pts'|]; [|reflexivity]. cbn [bind option_map]. apply IH. }
  rewrite <- G. f_equal. generalize (t_points t). intros k. induction k as [|k IH]; [reflexivity|]. cbn [repeat map option_map]. rewrite <- IH. reflexivity.
Qed.
(** balls *)
Lemma moved_enclosing : forall x y, enclosing_ball (moved_ball m x) (moved_ball m y) = option_map (moved_ball m) (enclosing_ball x y).
Proof.
  intros [m1 r1] [m2 r2]. unfold enclosing_ball, moved_ball. cbn [fst snd]. rewrite move_dist.
  destruct (Rle_dec _ r1); [reflexivity|]. destruct (Rle_dec _ r2); [reflexivity|]. destruct (Req_EM_T _ 0) as [Z|Z]; [reflexivity|]. cbn [option_map fst snd]. rewrite move_sub. f_equal. f_equal.
  set (c := (r1 - r2) / vnorm (vsub m1 m2)). clearbody c. unfold move. apply vec_eq; unfold turn, vadd, vsub, vscal, vx, vy, vz; cbn [fst snd]; field.
Qed.
Lemma moved_ball4 : forall a b c d, ball4 (moved_ball m a) (moved_ball m b) (moved_ball m c) (moved_ball m d) = option_map (moved_ball m) (ball4 a b c d).
Proof.
  intros. unfold ball4. rewrite !moved_enclosing. destruct (enclosing_ball a c) as [p|]; [|reflexivity]. destruct (enclosing_ball b d) as [q|]; [|reflexivity]. cbn [bind option_map]. apply moved_enclosing.
Qed.
Lemma moved_bset : forall b a x, bset (moved_balls m b) a (moved_ball m x) = moved_balls m (bset b a x).
Proof. intros. apply functional_extensionality. intros c. unfold bset, moved_balls. destruct (addr_eqb c a); reflexivity. Qed.
Lemma moved_col : forall P v, col (map (option_map (move m)) P) v = option_map (move m) (col P v).
Proof. intros. unfold col, get. rewrite nth_error_map. destruct (nth_error P v); reflexivity. Qed.
Lemma moved_enclose_rec : forall f t P a b, enclose_rec f t (map (option_map (move m)) P) a (moved_balls m b) = option_map (moved_balls m) (enclose_rec f t P a b).
Proof.
  induction f as [|f IH]; intros t P a b; [reflexivity|]. cbn [enclose_rec]. destruct (t_store t a) as [n|]; [|reflexivity]. cbn [bind]. destruct (n_ref n).
  - do 4 (rewrite IH; match goal with |- bind (option_map _ ?z) _ = _ => destruct z; [|reflexivity] end; cbn [bind option_map]).
    unfold moved_balls at 1 2 3 4. destruct (b3 (0%nat :: a)) as [x0|]; [|reflexivity]. destruct (b3 (1%nat :: a)) as [x1|]; [|reflexivity]. destruct (b3 (2%nat :: a)) as [x2|]; [|reflexivity]. destruct (b3 (3%nat :: a)) as [x3|]; [|reflexivity].
    cbn [bind option_map]. rewrite moved_ball4. destruct (ball4 x0 x1 x2 x3) as [x|]; [|reflexivity]. cbn [bind option_map]. rewrite moved_bset. reflexivity.
  - destruct (get (n_verts n) 0) as [v0|]; [|reflexivity]. destruct (get (n_verts n) 1) as [v1|]; [|reflexivity]. destruct (get (n_verts n) 2) as [v2|]; [|reflexivity]. destruct (get (n_verts n) 3) as [v3|]; [|reflexivity].
    cbn [bind]. rewrite !moved_col. destruct (col P v0) as [p0|]; [|reflexivity]. destruct (col P v1) as [p1|]; [|reflexivity]. destruct (col P v2) as [p2|]; [|reflexivity]. destruct (col P v3) as [p3|]; [|reflexivity].
    cbn [bind option_map]. pose proof (moved_ball4 (p0, 0) (p1, 0) (p2, 0) (p3, 0)) as B. unfold moved_ball at 1 2 3 4 in B. cbn [fst snd] in B. rewrite B. clear B.
    destruct (ball4 (p0, 0) (p1, 0) (p2, 0) (p3, 0)) as [x|]; [|reflexivity]. cbn [bind option_map]. rewrite moved_bset. reflexivity.
Qed.
Lemma moved_enclosings : forall t P, enclosings t (map (option_map (move m)) P) = option_map (moved_balls m) (enclosings t P).
Proof.
  intros t P. unfold enclosings. generalize (t_patches t). intros k. induction k as [|k IH]; [reflexivity|]. cbn [for_opt]. rewrite IH.
  match goal with |- bind (option_map _ ?z) _ = _ => destruct z as [b|]; [|reflexivity] end. cbn [bind option_map]. apply moved_enclose_rec.
Qed.
Lemma moved_elements : forall t b l, map_opt (element_of t (moved_balls m b)) l = option_map (map (moved_element m)) (map_opt (element_of t b) l).
Proof.
  intros t b l. induction l as [|a l IH]; [reflexivity|]. cbn [map_opt]. unfold element_of at 1 3. destruct (t_store t a) as [n|]; [|reflexivity]. cbn [bind]. unfold moved_balls at 1. destruct (b a) as [x|]; [|reflexivity]. cbn [bind option_map]. rewrite IH.
  destruct (map_opt (element_of t b) l); reflexivity.
Qed.
Lemma moved_init_mesh : forall X P M, init_mesh (moved m X) P M = option_map (moved_mesh m) (init_mesh X P M).
Proof.
  intros X P M. unfold init_mesh. rewrite moved_tree. destruct (init_tree _ _ M) as [t|]; [|reflexivity]. cbn [bind]. rewrite moved_point_list. destruct (point_list _ t) as [pts|]; [|reflexivity]. cbn [bind option_map].
  rewrite moved_enclosings. destruct (enclosings t pts) as [b|]; [|reflexivity]. cbn [bind option_map]. destruct (traverse t) as [l|]; [|reflexivity]. cbn [bind]. rewrite moved_elements. destruct (map_opt _ l); reflexivity.
Qed.
Lemma moved_near : forall b eta a c, near_of (mid_of (moved_balls m b)) (rad_of (moved_balls m b)) eta a c = near_of (mid_of b) (rad_of b) eta a c.
Proof.
  intros. unfold near_of, rad_of, mid_of, moved_balls. destruct (b a) as [[xa ra]|]; cbn [option_map]; [|reflexivity]. destruct (b c) as [[xc rc]|]; cbn [option_map]; [|reflexivity]. unfold moved_ball. cbn [fst snd].
  assert (N : forall x y, norm3 x y = vnorm (vsub x y)) by (intros [[x1 x2] x3] [[y1 y2] y3]; unfold norm3, vnorm, vdot, vsub, vx, vy, vz; reflexivity). rewrite !N, move_dist. reflexivity.
Qed.

(** ** forms of pairs of elements *)
Definition moved_sp (q : surface_point) : surface_point := (moved_element m (sp_elem q), sp_xi q, sp_w q).
Lemma moved_compare : forall e1 e2, compare_elements (moved_element m e1) (moved_element m e2) = compare_elements e1 e2.
Proof. intros. unfold compare_elements, element_distance. cbn [moved_element e_mid e_rad e_addr]. rewrite move_dist. reflexivity. Qed.
Section Kernel.
Variables K K' : kern.
Hypothesis HK : forall e1 s e2 u, K' (moved_element m e1) s (moved_element m e2) u = K e1 s e2 u.
Lemma moved_evaluate : forall p q I, evaluate_integrand K' (moved_sp p) (moved_sp q) I = evaluate_integrand K p q I.
Proof. intros. unfold evaluate_integrand, moved_sp, sp_elem, sp_xi, sp_w. cbn [fst snd]. rewrite HK. reflexivity. Qed.
Lemma loop_ext : forall {A : Type} n (f g : nat -> A -> A) s, (forall i z, f i z = g i z) -> for_loop n f s = for_loop n g s.
Proof. intros A n f g s E. replace g with f; [reflexivity|]. apply functional_extensionality. intros i. apply functional_extensionality. intros z. apply E. Qed.
Lemma moved_map2 : forall e s w, map2surface (moved_element m e) s w = moved_sp (map2surface e s w).
Proof. reflexivity. Qed.
Lemma moved_form : forall p order GS e1 e2 f1 f2, evaluate_bilinear_form K' p order GS (moved_element m e1) (moved_element m e2) (map moved_sp f1) (map moved_sp f2) = evaluate_bilinear_form K p order GS e1 e2 f1 f2.
Proof.
  intros. unfold evaluate_bilinear_form. rewrite moved_compare. destruct (compare_elements e1 e2) as [[[r1 r2] c] d]. change (e_level (moved_element m e1)) with (e_level e1). cbn [fst snd].
  set (nf := if (farfield_degree p order <=? _)%Z then _ else _). destruct (nf <? max_quadrature_degree)%Z; [|reflexivity]. set (Q := GS nf).
  assert (NI : forall f e i, nth i (map moved_sp f) (no_point (moved_element m e)) = moved_sp (nth i f (no_point e))) by (intros f e i; change (no_point (moved_element m e)) with (moved_sp (no_point e)); apply map_nth).
  destruct c as [|[|[|[|[|c]]]]]; try reflexivity; [destruct (nf =? _)%Z| | |]; f_equal.
  - unfold integrate0. apply loop_ext. intros i z. apply loop_ext. intros j z'. rewrite !NI. apply moved_evaluate.
  - unfold integrate1. cbv zeta. apply loop_ext. intros i z. apply loop_ext. intros j z'. rewrite !moved_map2. apply moved_evaluate.
  - unfold integrate2. cbv zeta. apply loop_ext. intros i z. apply loop_ext. intros j z'. apply loop_ext. intros k z2. rewrite !moved_map2, !moved_evaluate. reflexivity.
  - unfold integrate3. cbv zeta. apply loop_ext. intros i z. apply loop_ext. intros j z'. rewrite !moved_map2, !moved_evaluate. reflexivity.
  - unfold integrate4. cbv zeta. apply loop_ext. intros i z. apply loop_ext. intros j z'. rewrite !moved_map2, !moved_evaluate. reflexivity.
Qed.
End Kernel.
Lemma moved_ffield : forall Q els, compute_ffield_qnodes Q (map (moved_element m) els) = option_map (map (option_map (map moved_sp))) (compute_ffield_qnodes Q els).
Proof.
  intros Q els. unfold compute_ffield_qnodes, get. rewrite nth_error_map. destruct (nth_error els 0) as [e0|]; [|reflexivity]. cbn [bind option_map]. change (e_h (moved_element m e0)) with (e_h e0). generalize (e_h e0). intros h.
  assert (G : forall l acc, ffield_loop h Q (map (moved_element m) l) (map (option_map (map moved_sp)) acc) = option_map (map (option_map (map moved_sp))) (ffield_loop h Q l acc)).
  { induction l as [|e l IH]; intros acc; [reflexivity|]. cbn [map ffield_loop]. change (n_id (e_node (moved_element m e))) with (n_id (e_node e)).
    assert (Ff : ffield_points h (moved_element m e) Q = map moved_sp (ffield_points h e Q)) by (unfold ffield_points; rewrite map_map; reflexivity). rewrite Ff.
    replace (map (option_map (map moved_sp)) acc ++ [None]) with (map (option_map (map moved_sp)) (acc ++ [None])) by (rewrite map_app; reflexivity).
    destruct (length (fst Q) =? 0)%nat; cbn [bind]; [apply IH|]. rewrite (set_map (option_map (map moved_sp)) _ (n_id (e_node e)) (Some (ffield_points h e Q))).
    destruct (set _ _ _) as [acc2|]; [|reflexivity]. cbn [bind option_map]. apply IH. }
  apply (G els []).
Qed.
Lemma moved_op_form : forall k op ss X order GS els e1 e2, In op (library_operators k) ->
  op_form op ss (moved m X) order GS (map (moved_element m) els) e1 e2 = op_form op ss X order GS els e1 e2.
Proof.
  intros k op ss X order GS els e1 e2 Hop. destruct (moved_operator k op Hop) as [OI _]. unfold op_form. cbv zeta. rewrite moved_ffield. destruct (compute_ffield_qnodes _ els) as [ff|]; [|reflexivity]. cbn [bind option_map].
  unfold get. rewrite !nth_error_map. destruct (nth_error els (n_id e1)) as [E1|]; [|reflexivity]. destruct (nth_error els (n_id e2)) as [E2|]; [|reflexivity]. destruct (nth_error ff (n_id e1)) as [f1|]; [|reflexivity]. destruct (nth_error ff (n_id e2)) as [f2|]; [|reflexivity].
  cbn [bind option_map]. destruct f1 as [f1|]; [|reflexivity]. destruct f2 as [f2|]; [|reflexivity]. cbn [bind option_map].
  rewrite (moved_form (op_kern op ss X) (op_kern op ss (moved m X))); [reflexivity|].
  intros a s b u. apply functional_extensionality. intros i. apply functional_extensionality. intros j. unfold op_kern. rewrite !moved_surf, OI. reflexivity.
Qed.
End Motion.
