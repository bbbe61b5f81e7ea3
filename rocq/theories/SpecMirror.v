(** Mirror images of geometries: motions that exchange right and left. *)
From Coq Require Import Reals List.
From Coquelicot Require Import Complex.
From Verif Require Import ModelBase ModelBernstein ModelBall ModelAssembly ModelDuffy ModelOperators ModelPipeline SpecMotion.
Import ListNotations.
Local Open Scope R_scope.

(** a left-handed orthonormal system *)
Definition reflection (m : motion) : Prop :=
  vdot (m_x m) (m_x m) = 1 /\ vdot (m_y m) (m_y m) = 1 /\ vdot (m_x m) (m_y m) = 0 /\ m_z m = vscal (-1) (vcross (m_x m) (m_y m)).
(** an operator and the factor of its entries: the normal of the mirror image points to the other side *)
Definition mirror_complex (k : Complex.C) : list (operator cmat * R) :=
  [(helmholtz_sl k, 1); (helmholtz_dl k, -1); (helmholtz_adl k, -1); (helmholtz_hs k, 1); (maxwell_sl k, 1)].
Definition mirror_operators (k : Complex.C) : list (operator mat * R) :=
  [(laplace_sl, 1); (laplace_dl, -1); (laplace_adl, -1); (laplace_hs, 1)] ++ flat_map (fun x => [(part_of fst (fst x), snd x); (part_of snd (fst x), snd x)]) (mirror_complex k).
(** the mirror image in the plane of the first two axes, shifted *)
Definition looking_glass : motion := mkMotion (1, 0, 0) (0, 1, 0) (0, 0, -1) (1, 2, 3).
