(** Changing the unit of length: geometries, meshes and operators. *)
From Coq Require Import Reals List ZArith.
From Coquelicot Require Import Complex.
From Verif Require Import ModelBase ModelBernstein ModelBall ModelAssembly ModelQuad ModelOperators ModelDuffy ModelPipeline.
Import ListNotations.
Local Open Scope R_scope.

(** the geometry enlarged by the factor l *)
Definition scaled (l : R) (X : surface) : surface := fun p st => let v := X p st in (vscal l (fst (fst v)), vscal l (snd (fst v)), vscal l (snd v)).
(** the enlarged mesh: the same tree *)
Definition scaled_ball (l : R) (x : vec3 * R) : vec3 * R := (vscal l (fst x), l * snd x).
Definition scaled_balls (l : R) (b : balls) : balls := fun a => option_map (scaled_ball l) (b a).
Definition scaled_element (l : R) (e : element) : element := {| e_addr := e_addr e; e_node := e_node e; e_mid := vscal l (e_mid e); e_rad := l * e_rad e |}.
Definition scaled_mesh (l : R) (g : mesh) : mesh :=
  mkMesh (g_tree g) (map (option_map (vscal l)) (g_points g)) (scaled_balls l (g_balls g)) (map (scaled_element l) (g_elements g)).
(** the same corners are identified, although the tolerance is absolute *)
Definition same_corners (l : R) (X : surface) (P : nat) : Prop :=
  forall a b, In a (concat (corners_of X P)) -> In b (concat (corners_of X P)) -> close_points (vscal l a) (vscal l b) = close_points a b.
(** op' for the enlarged geometry, op for the geometry, and the exponent of the factor between the entries of their matrices: the wave
    number changes to the unit of length *)
Definition scaled_complex (l : R) (k : Complex.C) : list (operator cmat * operator cmat * nat) :=
  let k' := (RtoC l * k)%C in
  [(helmholtz_sl k, helmholtz_sl k', 3%nat); (helmholtz_dl k, helmholtz_dl k', 2%nat); (helmholtz_adl k, helmholtz_adl k', 2%nat);
   (helmholtz_hs k, helmholtz_hs k', 1%nat); (maxwell_sl k, maxwell_sl k', 1%nat)].
Definition scaled_real : list (operator mat * operator mat * nat) :=
  [(laplace_sl, laplace_sl, 3%nat); (laplace_dl, laplace_dl, 2%nat); (laplace_adl, laplace_adl, 2%nat); (laplace_hs, laplace_hs, 1%nat)].
Definition scaled_operators (l : R) (k : Complex.C) : list (operator mat * operator mat * nat) :=
  scaled_real ++ flat_map (fun x => [(part_of fst (fst (fst x)), part_of fst (snd (fst x)), snd x); (part_of snd (fst (fst x)), part_of snd (snd (fst x)), snd x)]) (scaled_complex l k).
(** for every pair of elements, both degrees of quadrature (that for the distance and that for the enlarged distance) are in range and the
    rules for them are the same: true, for instance, if all degrees have the same rule *)
Definition same_quadrature (l : R) (g : mesh) (M : nat) (p order : Z) (rules : Z -> list R * list R) : Prop :=
  forall E1 E2, In E1 (g_elements g) -> In E2 (g_elements g) ->
  let deg d := Z.max (nearfield_degree p order d M) (farfield_degree p order) in let d := snd (compare_elements E1 E2) in
  (deg d < 50)%Z /\ (deg (l * d)%R < 50)%Z /\ rules (deg (l * d)%R) = rules (deg d).
