(** What geometries and ansatz spaces should be: independent values. *)
From Coq Require Import List Arith.
From Verif Require Import ModelBase ModelReinit.
Import ListNotations.
Local Open Scope nat_scope.

Section Spec.
Context {PV Mesh Mat : Type}.
Variables (mesh_of : PV -> nat -> Mesh) (matrix_of : Mesh -> nat -> nat -> Mat).
(** a geometry is the list of its patches, with a note whether a space was initialised with it since; an ansatz space is given by
    the geometry, level, degree and knot repetition of its last initialisation *)
Inductive gvalue := Geo (v : PV) (used : bool) | NoGeo.
Inductive svalue := Space (v : PV) (level degree repetition : nat) | NoSpace.
Definition values := (list gvalue * list svalue)%type.
(** the patches of a geometry may be changed as long as no space was initialised with it *)
Definition means (w : values) (o : op (PV := PV)) : option values :=
  let (gs, ss) := w in
  match o with
  | GNew v => Some (gs ++ [Geo v false], ss)
  | GCopy y => g <- nth_error gs y ;; match g with Geo v _ => Some (gs ++ [Geo v false], ss) | NoGeo => None end
  | GMove y => g <- nth_error gs y ;; match g with Geo v u => l <- set gs y NoGeo ;; Some (l ++ [Geo v u], ss) | NoGeo => None end
  | GAssign x y => g <- nth_error gs y ;; match g with Geo v _ => l <- set gs x (Geo v false) ;; Some (l, ss) | NoGeo => None end
  | GMoveAssign x y => g <- nth_error gs y ;; match g with Geo v u => l <- set gs y NoGeo ;; l' <- set l x (Geo v u) ;; Some (l', ss) | NoGeo => None end
  | GInit x v => l <- set gs x (Geo v false) ;; Some (l, ss)
  | GChange x v => g <- nth_error gs x ;; match g with Geo _ false => l <- set gs x (Geo v false) ;; Some (l, ss) | _ => None end
  | SDefault => Some (gs, ss ++ [NoSpace])
  | SInit s g level degree repetition => h <- nth_error gs g ;;
      match h with Geo v _ => l <- set gs g (Geo v true) ;; k <- set ss s (Space v level degree repetition) ;; Some (l, k) | NoGeo => None end
  | SCopy y => s <- nth_error ss y ;; Some (gs, ss ++ [s])
  | SAssign x y => s <- nth_error ss y ;; k <- set ss x s ;; Some (gs, k)
  end.
Fixpoint meanings_from (w : values) (os : list op) : option values := match os with [] => Some w | o :: r => w1 <- means w o ;; meanings_from w1 r end.
Definition meanings (os : list op) : option values := meanings_from ([], []) os.
(** a space shows what a newly constructed one with the same arguments would show *)
Definition space_of (v : PV) (level degree repetition : nat) : Mesh * PV * nat * nat * Mat :=
  (mesh_of v level, v, degree, repetition, matrix_of (mesh_of v level) degree repetition).
End Spec.
