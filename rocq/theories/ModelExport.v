(** Model of the element lists of Bembel/src/ClusterTree/ElementTree.hpp and of the VTK exports
    Bembel/src/IO/VTKSurfaceExport.hpp, VTKDomainExport.hpp and VTKPointExport.hpp.

    Files are modelled by their content (the arrays in the order in which they are written), not by their
    characters; printing of numbers (6 digits) is not modelled. *)
From Coq Require Import String List Arith ZArith Reals QArith.
From Verif Require Import ModelBase ModelTree ModelBall.
Import ListNotations.
Local Close Scope Q_scope.
Local Open Scope nat_scope.

(** ** lists over the elements of the tree *)

(** the loops  for (it = pbegin(); it != pend(); ++it) { retval.col(i) = f(it); ++i; }  of
    ElementTree.hpp 240-249, 417-425, 432-440, 447-455, 467-483 and 492-502 over a matrix with
    number_of_elements_ columns; an entry that was never written is [None] *)
Fixpoint by_counter {A} (f : addr -> node -> option A) (s : store) (l : list addr) (i : nat) (out : list (option A))
  : option (list (option A)) :=
  match l with
  | [] => Some out
  | a :: r => n <- s a ;; x <- f a n ;; out' <- set out i (Some x) ;; by_counter f s r (S i) out'
  end.
Definition element_table {A} (f : addr -> node -> option A) (t : tree) : option (list (option A)) :=
  l <- traverse t ;; by_counter f (t_store t) l 0 (repeat None (t_elements t)).

(** the loops of VTKSurfaceExport.hpp, where the row is given by the id: data.row(e->id_) = f(e);
    [rows] is cells.rows() *)
Fixpoint by_id {A} (f : addr -> node -> option A) (s : store) (l : list addr) (out : list (option A))
  : option (list (option A)) :=
  match l with
  | [] => Some out
  | a :: r => n <- s a ;; x <- f a n ;; out' <- set out (n_id n) (Some x) ;; by_id f s r out'
  end.
Definition id_table {A} (f : addr -> node -> option A) (t : tree) (rows : nat) : option (list (option A)) :=
  l <- traverse t ;; by_id f (t_store t) l (repeat None rows).

(** generateElementList, ElementTree.hpp 240-249 *)
Definition element_list (t : tree) : option (list (option (list nat))) :=
  element_table (fun _ n => v0 <- get (n_verts n) 0 ;; v1 <- get (n_verts n) 1 ;; v2 <- get (n_verts n) 2 ;; v3 <- get (n_verts n) 3 ;;
                            Some [v0; v1; v2; v3]) t.

(** generateMidpointList and generateRadiusList, ElementTree.hpp 417-440; [b] holds the members midpoint_ and
    radius_ (ModelBall.v), [None] before computeElementEnclosings *)
Definition midpoint_list (b : balls) (t : tree) : option (list (option vec3)) := element_table (fun a _ => x <- b a ;; Some (fst x)) t.
Definition radius_list (b : balls) (t : tree) : option (list (option R)) := element_table (fun a _ => x <- b a ;; Some (snd x)) t.

(** generateElementLabels, ElementTree.hpp 447-455 *)
Definition element_labels (t : tree) : option (list (option nat)) := element_table (fun _ n => Some (global_id t n)) t.

(** the loop over j of generatePatchBoundaryLabels with its break, ElementTree.hpp 472-479 *)
Fixpoint label_edges (s : store) (n : node) (js : list nat) (label : Z) : option Z :=
  match js with
  | [] => Some label
  | j :: r => p <- get (n_adj n) j ;;
      match p with
      | None => Some (-1)%Z
      | Some b => nb <- s b ;; label_edges s n r (if n_patch nb =? n_patch n then label else (label + 1)%Z)
      end
  end.
(** generatePatchBoundaryLabels, ElementTree.hpp 467-483 (retval starts with zeros) *)
Definition boundary_labels (t : tree) : option (list (option Z)) :=
  element_table (fun _ n => label_edges (t_store t) n [0; 1; 2; 3] 0%Z) t.

(** identifyPatch, ElementTree.hpp 492-502 *)
Definition identify_patch (t : tree) (pn : nat) : option (list (option nat)) :=
  _ <- assert (pn <? t_patches t) ;;
  element_table (fun _ n => Some (if n_patch n =? pn then 1 else 0)) t.

(** ** VTKSurfaceExport *)

(** referenceMidpoint, ElementTreeNode.hpp 181-183 *)
Definition reference_midpoint (n : node) : Q * Q :=
  ((fst (n_llc n) + (1 # 2) * get_h n)%Q, (snd (n_llc n) + (1 # 2) * get_h n)%Q).

(** Eigen's normalized(): a zero vector is returned unchanged *)
Definition normalized (v : vec3) : vec3 := if Rlt_dec 0 (vdot v v) then vscal (/ vnorm v) v else v.

(** one entry of additionalData: name, number of components, rows *)
Record data_array := DataArray { da_name : string; da_cols : nat; da_rows : list (list R) }.

(** data members, VTKSurfaceExport.hpp 343-348 *)
Record surface_export := SurfaceExport {
  se_mesh : tree;
  se_points : list (option vec3);
  se_cells : list (option (list nat));
  se_normals : list (option vec3);
  se_patch_number : list (option nat);
  se_data : list data_array }.

(** init_VTKSurfaceExport, VTKSurfaceExport.hpp 34-54; [t] is the element tree built by init_ClusterTree(geo, M),
    [eval] and [normal] are eval and evalNormal of the patches *)
Definition init_surface_export (eval normal : nat -> R -> R -> vec3) (t : tree) : option surface_export :=
  points <- point_list eval t ;;
  cells <- element_list t ;;
  normals <- id_table (fun _ n => let '(x, y) := reference_midpoint n in
                                  Some (normalized (normal (n_patch n) (Q2R x) (Q2R y)))) t (length cells) ;;
  pn <- id_table (fun _ n => Some (n_patch n)) t (length cells) ;;
  Some (SurfaceExport t points cells normals pn []).

(** getData_, VTKSurfaceExport.hpp 248-302; the value of the function is a vector with 1 or 3 real entries *)
Definition get_data_patch {V} (f : nat -> R -> R -> V) (e : surface_export) : option (list (option V)) :=
  id_table (fun _ n => let '(x, y) := reference_midpoint n in Some (f (n_patch n) (Q2R x) (Q2R y))) (se_mesh e) (length (se_cells e)).
Definition get_data_space {V} (eval : nat -> R -> R -> vec3) (f : vec3 -> V) (e : surface_export) : option (list (option V)) :=
  get_data_patch (fun p x y => f (eval p x y)) e.

(** addDataSet_, VTKSurfaceExport.hpp 224-246, with its asserts; reading an entry that was never written is [None] *)
Definition push_data (name : string) (cols : nat) (rows : list (option (list R))) (e : surface_export) : option surface_export :=
  _ <- assert ((cols =? 1) || (cols =? 3))%bool ;;
  _ <- assert (length rows =? length (se_cells e)) ;;
  m <- map_opt (fun r => r) rows ;;
  Some (SurfaceExport (se_mesh e) (se_points e) (se_cells e) (se_normals e) (se_patch_number e) (se_data e ++ [DataArray name cols m])).

(** addDataSet for real functions on the patches and in space, 57-62, 77-82, 97-102 and 117-121; [cols] is the
    number of entries of a value *)
Definition add_patch_data (name : string) (cols : nat) (f : nat -> R -> R -> list R) (e : surface_export) : option surface_export :=
  d <- get_data_patch f e ;; push_data name cols d e.
Definition add_space_data (eval : nat -> R -> R -> vec3) (name : string) (cols : nat) (f : vec3 -> list R) (e : surface_export) :=
  d <- get_data_space eval f e ;; push_data name cols d e.
(** for complex functions the real and the imaginary parts, 66-73, 86-93, 106-113 and 125-132 *)
Definition split_part (part : nat) (d : list (option (list (R * R)))) : list (option (list R)) :=
  map (option_map (map (fun z => if part =? 0 then fst z else snd z))) d.
Definition add_complex_data (name : string) (cols : nat) (f : nat -> R -> R -> list (R * R)) (e : surface_export) : option surface_export :=
  d <- get_data_patch f e ;;
  e1 <- push_data (name ++ "_real") cols (split_part 0 d) e ;;
  push_data (name ++ "_imag") cols (split_part 1 d) e1.
(** clearData, 216-219 *)
Definition clear_data (e : surface_export) : surface_export :=
  SurfaceExport (se_mesh e) (se_points e) (se_cells e) (se_normals e) (se_patch_number e) [].

(** content of the file, VTKSurfaceExport.hpp 167-214 *)
Record vtk_polydata := VtkPolydata {
  vp_number_of_points : nat; vp_number_of_polys : nat;
  vp_points : list (option vec3);
  vp_patch_number : list (option nat); vp_normals : list (option vec3);
  vp_data : list data_array;
  vp_connectivity : list nat; vp_offsets : list nat }.
Definition write_surface (e : surface_export) : option vtk_polydata :=
  c <- map_opt (fun r => r) (se_cells e) ;;
  Some (VtkPolydata (length (se_points e)) (length (se_cells e)) (se_points e) (se_patch_number e) (se_normals e) (se_data e)
          (concat c) (map (fun i => (i + 1) * 4) (seq 0 (length (se_cells e))))).

(** calls a user may make on an export *)
Inductive export_op :=
| AddPatch (name : string) (cols : nat) (f : nat -> R -> R -> list R)
| AddSpace (name : string) (cols : nat) (f : vec3 -> list R)
| AddComplex (name : string) (cols : nat) (f : nat -> R -> R -> list (R * R))
| Clear.
Definition run_export_op (eval : nat -> R -> R -> vec3) (o : export_op) (e : surface_export) : option surface_export :=
  match o with
  | AddPatch name cols f => add_patch_data name cols f e
  | AddSpace name cols f => add_space_data eval name cols f e
  | AddComplex name cols f => add_complex_data name cols f e
  | Clear => Some (clear_data e)
  end.
Fixpoint run_export (eval : nat -> R -> R -> vec3) (os : list export_op) (e : surface_export) : option surface_export :=
  match os with [] => Some e | o :: r => e' <- run_export_op eval o e ;; run_export eval r e' end.

(** ** VTKDomainExport *)

(** data members after init_VTKDomainExport, VTKDomainExport.hpp 28-40 and 137-144; max_size_ is an int: a larger
    number of points is [None] (the conversion of the product to int does not give the number of points) *)
Record domain_export := DomainExport { de_x : list R; de_y : list R; de_z : list R; de_max : nat; de_data : list data_array }.
Definition init_domain_export (x y z : list R) : option domain_export :=
  let size := length x * length y * length z in
  _ <- assert (Z.of_nat size <=? 2 ^ 31 - 1)%Z ;;
  Some (DomainExport x y z size []).

(** the loops over z, y, x of addDataSet, VTKDomainExport.hpp 45-74; the index is a uint32_t *)
Definition domain_step (x y z : list R) (f : vec3 -> list R) (iz iy ix : nat) (data : list (option (list R))) : option (list (option (list R))) :=
  let i := (length x * length y * iz + length x * iy + ix) in
  let i := Z.to_nat (Z.of_nat i mod 2 ^ 32)%Z in
  a <- get x ix ;; b <- get y iy ;; c <- get z iz ;;
  set data i (Some (f (a, b, c))).
Definition domain_data (d : domain_export) (f : vec3 -> list R) : option (list (option (list R))) :=
  for_opt (length (de_z d)) (fun iz => for_opt (length (de_y d)) (fun iy => for_opt (length (de_x d)) (fun ix =>
    domain_step (de_x d) (de_y d) (de_z d) f iz iy ix))) (repeat None (de_max d)).
Definition add_domain_data (name : string) (cols : nat) (f : vec3 -> list R) (d : domain_export) : option domain_export :=
  _ <- assert ((cols =? 1) || (cols =? 3))%bool ;;
  r <- domain_data d f ;; m <- map_opt (fun r => r) r ;;
  Some (DomainExport (de_x d) (de_y d) (de_z d) (de_max d) (de_data d ++ [DataArray name cols m])).
(** clearData, VTKDomainExport.hpp 107-110 *)
Definition clear_domain_data (d : domain_export) : domain_export := DomainExport (de_x d) (de_y d) (de_z d) (de_max d) [].
(** calls a user may make: a data set for [Some], clearData for [None] *)
Fixpoint run_domain (os : list (option (string * nat * (vec3 -> list R)))) (d : domain_export) : option domain_export :=
  match os with
  | [] => Some d
  | Some (name, cols, f) :: r => d' <- add_domain_data name cols f d ;; run_domain r d'
  | None :: r => run_domain r (clear_domain_data d)
  end.
(** content of the file, VTKDomainExport.hpp 75-105: extents x_num, y_num, z_num and the points in the order of the loops *)
Record vtk_grid := VtkGrid { vg_extent : Z * Z * Z; vg_points : list vec3; vg_data : list data_array }.
Definition write_domain (d : domain_export) : vtk_grid :=
  VtkGrid (Z.of_nat (length (de_x d)) - 1, Z.of_nat (length (de_y d)) - 1, Z.of_nat (length (de_z d)) - 1)%Z
    (flat_map (fun c => flat_map (fun b => map (fun a => (a, b, c)) (de_x d)) (de_y d)) (de_z d))
    (de_data d).

(** ** VTKPointExport *)
(** data members, init_VTKPointExport and addDataSet, VTKPointExport.hpp 30-61 (no check of the number of rows) *)
Record point_export := PointExport { pe_points : list vec3; pe_number : list nat; pe_data : list data_array }.
Definition init_point_export (pts : list vec3) : point_export := PointExport pts (seq 0 (length pts)) [].
Definition add_point_data (name : string) (cols : nat) (rows : list (list R)) (e : point_export) : option point_export :=
  _ <- assert ((cols =? 1) || (cols =? 3))%bool ;;
  Some (PointExport (pe_points e) (pe_number e) (pe_data e ++ [DataArray name cols rows])).
(** addComplexDataSet, VTKPointExport.hpp 62-66 *)
Definition add_point_complex (name : string) (cols : nat) (rows : list (list (R * R))) (e : point_export) : option point_export :=
  e1 <- add_point_data (name ++ "_real") cols (map (map fst) rows) e ;;
  add_point_data (name ++ "_imag") cols (map (map snd) rows) e1.
(** content of the file, VTKPointExport.hpp 68-99 *)
Record vtk_points := VtkPoints { vq_number_of_points : nat; vq_points : list vec3; vq_number : list nat; vq_data : list data_array }.
Definition write_points (e : point_export) : vtk_points := VtkPoints (length (pe_points e)) (pe_points e) (pe_number e) (pe_data e).
