(** Model of repeated initialisation and of the sharing between geometries, meshes and ansatz spaces:
    Bembel/src/Geometry/Geometry.hpp, ClusterTree/ClusterTree.hpp, ClusterTree/ElementTree.hpp 105-161 (called on a tree that has
    been initialised before), AnsatzSpace/SuperSpace.hpp 45-143, AnsatzSpace/AnsatzSpace.hpp 34-104. *)
From Coq Require Import List Arith Bool QArith.
From Verif Require Import ModelBase ModelTree.
Import ListNotations.
Local Close Scope Q_scope.
Local Open Scope nat_scope.

(** ** init_ElementTree on a tree that has been initialised before, ElementTree.hpp 105-161, for the same number of patches
    (root.sons_.resize does nothing then).  The fields written in 121-139 and 146-153 are replaced, llc_ and sons_ of the patches
    and all nodes below them stay *)
Definition again_node (old : node) (P i : nat) (vs : list nat) : node :=
  mkNode i 0 i (n_llc old) vs [None; None; None; None]
    (if i =? 0 then None else Some [i - 1]) (if i =? P - 1 then None else Some [i + 1]) (n_ref old).
Definition again_store (old : store) (verts : list (list nat)) : store :=
  fun a => match a with
           | [p] => match nth_error verts p, old [p] with
                    | Some vs, Some n => Some (again_node n (length verts) p vs)
                    | _, _ => None
                    end
           | _ => old a
           end.
Definition init_again {Pt} (close : Pt -> Pt -> bool) (t : tree) (corners : list (list Pt)) (max_level : nat) : option tree :=
  let (verts, pts) := patch_vertices close [] corners in
  let P := length verts in
  _ <- assert (P =? t_patches t) ;;
  s <- update_topology (again_store (t_store t) verts) (map (fun p => [p]) (seq 0 P)) ;;
  refine_times max_level (mkTree s (if P =? 0 then None else Some [0]) (if P =? 0 then None else Some [P - 1]) P max_level (length pts) P).

(** ** programs with variables of type Geometry and AnsatzSpace *)
Section Machine.
(** PV: patch vectors; Mesh: what a newly constructed ClusterTree holds after init_ClusterTree (element tree and points);
    Mat: transformation matrices, which depend on the mesh (projector and glue matrix) *)
Context {PV Mesh Mat : Type}.
Variables (mesh_of : PV -> nat -> Mesh) (matrix_of : Mesh -> nat -> nat -> Mat).

(** Geometry: the shared pointer geometry_ *)
Definition geometry := option nat.
(** AnsatzSpace: mesh_ and polynomial_degree of the super space, knot_repetition_, transformation_matrix_.  None: default constructed *)
Record space := mkSpace { s_mesh : nat; s_degree : nat; s_repetition : nat; s_matrix : Mat }.
(** patch vectors and cluster trees (with the pointer geometry_ of their element tree) in memory *)
Record memory := mkMemory { vectors : list PV; meshes : list (Mesh * nat); geos : list geometry; spaces : list (option space) }.
Definition start : memory := mkMemory [] [] [] [].

Definition deref_vector (m : memory) (g : geometry) : option PV := p <- g ;; nth_error (vectors m) p.
(** make_shared<PatchVector>() and *geometry_ = v *)
Definition new_vector (m : memory) (v : PV) : geometry * memory :=
  (Some (length (vectors m)), mkMemory (vectors m ++ [v]) (meshes m) (geos m) (spaces m)).
Definition set_geo (m : memory) (x : nat) (g : geometry) : option memory :=
  l <- set (geos m) x g ;; Some (mkMemory (vectors m) (meshes m) l (spaces m)).
Definition declare_geo (m : memory) (g : geometry) : memory := mkMemory (vectors m) (meshes m) (geos m ++ [g]) (spaces m).

Inductive op :=
| GNew (v : PV)                      (* Geometry x(v), or Geometry x(filename) where the file contains v *)
| GCopy (y : nat)                    (* Geometry x(y) *)
| GMove (y : nat)                    (* Geometry x(std::move(y)) *)
| GAssign (x y : nat)                (* x = y *)
| GMoveAssign (x y : nat)            (* x = std::move(y) *)
| GInit (x : nat) (v : PV)           (* x.init_Geometry(filename) *)
| GChange (x : nat) (v : PV)         (* x.get_geometry() = v, or changes of its patches *)
| SDefault                           (* AnsatzSpace s *)
| SInit (s g level degree repetition : nat)  (* s.init_AnsatzSpace(g, ...) *)
| SCopy (y : nat)                    (* AnsatzSpace s(y), also with std::move(y); also the copies in DiscreteOperator etc. *)
| SAssign (x y : nat).               (* x = y *)

(** Geometry.hpp 43-92; init_SuperSpace, SuperSpace.hpp 127-145: mesh_ is a new ClusterTree with the pointer of the geometry;
    init_AnsatzSpace, AnsatzSpace.hpp 95-104; copies and assignments share mesh_, SuperSpace.hpp 45-111, AnsatzSpace.hpp 37-66 *)
Definition step (m : memory) (o : op) : option memory :=
  match o with
  | GNew v => let (g, m1) := new_vector m v in Some (declare_geo m1 g)
  | GCopy y => g <- nth_error (geos m) y ;; v <- deref_vector m g ;; let (h, m1) := new_vector m v in Some (declare_geo m1 h)
  | GMove y => g <- nth_error (geos m) y ;; m1 <- set_geo m y None ;; Some (declare_geo m1 g)
  | GAssign x y => g <- nth_error (geos m) y ;; v <- deref_vector m g ;; let (h, m1) := new_vector m v in set_geo m1 x h
  | GMoveAssign x y => g <- nth_error (geos m) y ;; m1 <- set_geo m y None ;; set_geo m1 x g
  | GInit x v => let (h, m1) := new_vector m v in set_geo m1 x h
  | GChange x v => g <- nth_error (geos m) x ;; p <- g ;; l <- set (vectors m) p v ;; Some (mkMemory l (meshes m) (geos m) (spaces m))
  | SDefault => Some (mkMemory (vectors m) (meshes m) (geos m) (spaces m ++ [None]))
  | SInit s g level degree repetition =>
      h <- nth_error (geos m) g ;; p <- h ;; v <- nth_error (vectors m) p ;;
      let mesh := mesh_of v level in
      l <- set (spaces m) s (Some (mkSpace (length (meshes m)) degree repetition (matrix_of mesh degree repetition))) ;;
      Some (mkMemory (vectors m) (meshes m ++ [(mesh, p)]) (geos m) l)
  | SCopy y => s <- nth_error (spaces m) y ;; Some (mkMemory (vectors m) (meshes m) (geos m) (spaces m ++ [s]))
  | SAssign x y => s <- nth_error (spaces m) y ;; l <- set (spaces m) x s ;; Some (mkMemory (vectors m) (meshes m) (geos m) l)
  end.
Fixpoint execute_from (m : memory) (os : list op) : option memory := match os with [] => Some m | o :: r => m1 <- step m o ;; execute_from m1 r end.
Definition execute (os : list op) : option memory := execute_from start os.

(** what get_geometry() of a geometry shows, and get_superspace().get_mesh(), get_geometry(), get_polynomial_degree(),
    get_knot_repetition() and get_transformation_matrix() of an ansatz space *)
Definition show_geometry (m : memory) (x : nat) : option PV := g <- nth_error (geos m) x ;; deref_vector m g.
Definition show_space (m : memory) (x : nat) : option (Mesh * PV * nat * nat * Mat) :=
  o <- nth_error (spaces m) x ;; s <- o ;; mp <- nth_error (meshes m) (s_mesh s) ;; v <- nth_error (vectors m) (snd mp) ;;
  Some (fst mp, v, s_degree s, s_repetition s, s_matrix s).
End Machine.
