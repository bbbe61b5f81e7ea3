(** Rotations and translations of space, of geometries and of meshes. *)
From Coq Require Import Reals List.
From Verif Require Import ModelBall ModelOperators ModelDuffy ModelPipeline.
Import ListNotations.
Local Open Scope R_scope.

(** the images of the unit vectors and of the origin *)
Record motion := mkMotion { m_x : vec3; m_y : vec3; m_z : vec3; m_o : vec3 }.
(** a right-handed orthonormal system *)
Definition rotation (m : motion) : Prop :=
  vdot (m_x m) (m_x m) = 1 /\ vdot (m_y m) (m_y m) = 1 /\ vdot (m_x m) (m_y m) = 0 /\ m_z m = vcross (m_x m) (m_y m).
(** the image of a direction and of a point *)
Definition turn (m : motion) (v : vec3) : vec3 := vadd (vadd (vscal (vx v) (m_x m)) (vscal (vy v) (m_y m))) (vscal (vz v) (m_z m)).
Definition move (m : motion) (v : vec3) : vec3 := vadd (turn m v) (m_o m).
(** the moved geometry *)
Definition moved (m : motion) (X : surface) : surface := fun p st => let v := X p st in (move m (fst (fst v)), turn m (snd (fst v)), turn m (snd v)).
(** the moved mesh: the same tree *)
Definition moved_ball (m : motion) (x : vec3 * R) : vec3 * R := (move m (fst x), snd x).
Definition moved_balls (m : motion) (b : balls) : balls := fun a => option_map (moved_ball m) (b a).
Definition moved_element (m : motion) (e : element) : element := {| e_addr := e_addr e; e_node := e_node e; e_mid := move m (e_mid e); e_rad := e_rad e |}.
Definition moved_mesh (m : motion) (g : mesh) : mesh :=
  mkMesh (g_tree g) (map (option_map (move m)) (g_points g)) (moved_balls m (g_balls g)) (map (moved_element m) (g_elements g)).
(** a quarter turn about the third axis and a shift *)
Definition quarter : motion := mkMotion (0, 1, 0) (-1, 0, 0) (0, 0, 1) (1, 2, 3).
