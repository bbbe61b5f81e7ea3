(** Model of Bembel/src/DuffyTrick: rotations, comparison of elements, the quadrature routines and
    evaluateBilinearForm.  double is R; the matrix intval is a function of two indices. *)
From Coq Require Import List Arith Bool Reals ZArith QArith Qreals.
From Verif Require Import ModelBase ModelBernstein ModelTree ModelBall ModelQuad ModelAssembly.
Import ListNotations.
Local Close Scope Q_scope.
Local Open Scope nat_scope.

(** ** tau, DuffyTrick/tau.hpp 25-42 *)
Definition tau (x y : R) (thecase : nat) : R * R :=
  match thecase with
  | 1 => (1 - y, x)
  | 2 => (1 - x, 1 - y)
  | 3 => (y, 1 - x)
  | _ => (x, y)
  end%R.

(** ** elements: the address of the node in memory, the node, midpoint_ and radius_ *)
Record element := { e_addr : addr; e_node : node; e_mid : vec3; e_rad : R }.
Definition e_level (e : element) : nat := n_level (e_node e).
(** vertices_[k]; all nodes have four vertices *)
Definition e_vert (e : element) (k : nat) : nat := nth k (n_verts (e_node e)) 0.
(** the element at an address of the tree with the balls computed by computeElementEnclosings *)
Definition element_of (t : tree) (bl : balls) (a : addr) : option element :=
  n <- t_store t a ;; x <- bl a ;; Some {| e_addr := a; e_node := n; e_mid := fst x; e_rad := snd x |}.
(** ElementTreeNode::get_h *)
Definition e_h (e : element) : R := Q2R (get_h (e_node e)).

(** ** compareElements, DuffyTrick/compareElements.hpp 23-69 *)
(** the distance written to *dist, 29-35 *)
Definition element_distance (e1 e2 : element) : R :=
  let d := (vnorm (vsub (e_mid e1) (e_mid e2)) - e_rad e1 - e_rad e2)%R in
  if Rle_dec 0 d then d else 0%R.
(** the search for common vertices, 44-63: the first pair (rot1, rot2) in the order of the two loops *)
Definition compare_vertices (v1 v2 : nat -> nat) : nat * nat * nat :=
  match find (fun r => v1 (fst r) =? v2 (snd r)) (list_prod (seq 0 4) (seq 0 4)) with
  | Some (rot1, rot2) =>
      if v1 3 =? v2 ((rot2 + 1) mod 4) then (3, rot2, 3)
      else if v1 ((rot1 + 1) mod 4) =? v2 ((rot2 + 3) mod 4) then (rot1, (rot2 + 3) mod 4, 3)
      else (rot1, rot2, 4)
  | None => (4, 4, 0)
  end.
(** the return value and *dist *)
Definition compare_elements (e1 e2 : element) : (nat * nat * nat) * R :=
  if addr_eqb (e_addr e1) (e_addr e2) then ((4, 4, 2), 0%R)
  else
    let dist := element_distance e1 e2 in
    if Rlt_dec (1 / 2 / 2 ^ e_level e1) dist then ((4, 4, 0), dist)
    else (compare_vertices (e_vert e1) (e_vert e2), dist).

(** ** surface points and integrands *)
(** SuperSpace::map2surface, AnsatzSpace/SuperSpace.hpp 163-168: the surface point is determined by the element, the
    reference coordinates and the weight *)
Definition surface_point := (element * (R * R) * R)%type.
Definition sp_elem (p : surface_point) : element := fst (fst p).
Definition sp_xi (p : surface_point) : R * R := snd (fst p).
Definition sp_w (p : surface_point) : R := snd p.
Definition map2surface (e : element) (xi : R * R) (w : R) : surface_point := (e, xi, w).
(** kernel times surface measures times basis functions (entry (a, b)) at two points *)
Definition kern := element -> R * R -> element -> R * R -> nat -> nat -> R.
(** LinearOperatorBase::evaluateIntegrand: all operators of the library add the product of both weights and of a
    function of the two points to the entries (e.g. Laplace/SingleLayerOperator.hpp 45-87) *)
Definition evaluate_integrand (K : kern) (p1 p2 : surface_point) (m : mat) : mat :=
  fun a b => (m a b + sp_w p1 * sp_w p2 * K (sp_elem p1) (sp_xi p1) (sp_elem p2) (sp_xi p2) a b)%R.

(** Q.xi_.col(i), Q.xi_(0, i), Q.xi_(1, i), Q.w_(i) *)
Definition q_xi (Q : cubature) (i : nat) : R * R := nth i (fst Q) (0, 0)%R.
Definition q_x (Q : cubature) (i : nat) : R := fst (q_xi Q i).
Definition q_y (Q : cubature) (i : nat) : R := snd (q_xi Q i).
Definition q_w (Q : cubature) (i : nat) : R := nth i (snd Q) 0%R.
Definition q_size (Q : cubature) : nat := length (snd Q).

(** ** integrate0, integrate0.hpp 26-41; ff1, ff2 are the precomputed points of the two elements *)
Definition no_point (e : element) : surface_point := (e, (0, 0), 0)%R.
Definition integrate0 (K : kern) (e1 e2 : element) (ff1 ff2 : list surface_point) (Q : cubature) : mat :=
  for_loop (q_size Q) (fun i m => for_loop (q_size Q) (fun j m =>
    evaluate_integrand K (nth i ff1 (no_point e1)) (nth j ff2 (no_point e2)) m) m) zero_mat.
(** ** integrate1, integrate1.hpp 28-52 *)
Definition integrate1 (K : kern) (e1 e2 : element) (Q : cubature) : mat :=
  let h := e_h e1 in
  for_loop (q_size Q) (fun i m =>
    let qp1 := map2surface e1 (q_xi Q i) (h * q_w Q i)%R in
    for_loop (q_size Q) (fun j m =>
      let qp2 := map2surface e2 (q_xi Q j) (h * q_w Q j)%R in
      evaluate_integrand K qp1 qp2 m) m) zero_mat.
(** ** integrate2 (identical elements), integrate2.hpp 30-72 *)
Definition integrate2 (K : kern) (e1 : element) (Q : cubature) : mat :=
  let h := e_h e1 in
  for_loop (q_size Q) (fun i m =>
    let w := (h * h * q_w Q i * q_x Q i * (1 - q_x Q i) * (1 - q_x Q i * q_y Q i))%R in
    for_loop (q_size Q) (fun j m =>
      let t1 := (q_x Q j * (1 - q_x Q i))%R in
      let t2 := (q_y Q j * (1 - q_x Q i * q_y Q i))%R in
      let t3 := (q_x Q j * (1 - q_x Q i) + q_x Q i)%R in
      let t4 := (q_y Q j * (1 - q_x Q i * q_y Q i) + q_x Q i * q_y Q i)%R in
      (* the columns of pts, 56 *)
      let pts := [(t1, t2); (t3, t4); (t1, t4); (t3, t2); (t2, t1); (t4, t3); (t2, t3); (t4, t1)] in
      for_loop 4 (fun k m =>
        let qp1 := map2surface e1 (nth (2 * k) pts (0, 0)%R) w in
        let qp2 := map2surface e1 (nth (2 * k + 1) pts (0, 0)%R) (q_w Q j) in
        evaluate_integrand K qp2 qp1 (evaluate_integrand K qp1 qp2 m)) m) m) zero_mat.
(** ** integrate3 (common edge), integrate3.hpp 29-84 *)
Definition integrate3 (K : kern) (e1 : element) (rot1 : nat) (e2 : element) (rot2 : nat) (Q : cubature) : mat :=
  let h := e_h e1 in
  for_loop (q_size Q) (fun i m =>
    let x0 := q_x Q i in let x1 := q_y Q i in
    let w := (h * h * q_w Q i * x1 * x1)%R in
    let t1 := (x0 * (1 - x1))%R in
    let t2 := ((1 - x0) * (1 - x1))%R in
    for_loop (q_size Q) (fun j m =>
      let eta0 := (x1 * q_x Q j)%R in let eta1 := (x1 * q_y Q j)%R in
      let t3 := (x0 * (1 - eta0))%R in
      let t4 := ((1 - x0) * (1 - eta0))%R in
      let pair s w1 t w2 m := evaluate_integrand K (map2surface e1 s w1) (map2surface e2 t w2) m in
      let m := pair (tau t1 eta0 rot1) w (tau t2 eta1 rot2) (q_w Q j * (1 - x1))%R m in
      let m := pair (tau (1 - t1)%R eta0 rot1) w (tau (1 - t2)%R eta1 rot2) (q_w Q j * (1 - x1))%R m in
      let m := pair (tau t3 x1 rot1) w (tau t4 eta1 rot2) (q_w Q j * (1 - eta0))%R m in
      let m := pair (tau (1 - t3)%R x1 rot1) w (tau (1 - t4)%R eta1 rot2) (q_w Q j * (1 - eta0))%R m in
      let m := pair (tau t4 eta1 rot1) w (tau t3 x1 rot2) (q_w Q j * (1 - eta0))%R m in
      pair (tau (1 - t4)%R eta1 rot1) w (tau (1 - t3)%R x1 rot2) (q_w Q j * (1 - eta0))%R m) m) zero_mat.
(** ** integrate4 (common vertex), integrate4.hpp 29-68 *)
Definition integrate4 (K : kern) (e1 : element) (rot1 : nat) (e2 : element) (rot2 : nat) (Q : cubature) : mat :=
  let h := e_h e1 in
  for_loop (q_size Q) (fun i m =>
    let x0 := q_x Q i in
    let w := (h * h * q_w Q i * x0 ^ 3)%R in
    let x1 := (q_y Q i * x0)%R in
    let qp1 := map2surface e1 (tau x0 x1 rot1) w in
    let qp2 := map2surface e1 (tau x1 x0 rot1) w in
    let qp3 := map2surface e2 (tau x0 x1 rot2) w in
    let qp4 := map2surface e2 (tau x1 x0 rot2) w in
    for_loop (q_size Q) (fun j m =>
      let eta0 := (x0 * q_x Q j)%R in let eta1 := (x0 * q_y Q j)%R in
      let qp5 := map2surface e2 (tau eta0 eta1 rot2) (q_w Q j) in
      let qp6 := map2surface e1 (tau eta0 eta1 rot1) (q_w Q j) in
      let m := evaluate_integrand K qp1 qp5 m in
      let m := evaluate_integrand K qp2 qp5 m in
      let m := evaluate_integrand K qp6 qp3 m in
      evaluate_integrand K qp6 qp4 m) m) zero_mat.

(** ** evaluateBilinearForm, evaluateBilinearForm.hpp 22-77.  GS is the vector of cubatures, p the polynomial degree,
    order the order of the operator; a violated assertion is [None] *)
Definition max_quadrature_degree : Z := 50.
Definition evaluate_bilinear_form (K : kern) (p order : Z) (GS : Z -> cubature) (e1 e2 : element) (ff1 ff2 : list surface_point) : option mat :=
  let ffield_deg := farfield_degree p order in
  let (cp, dist) := compare_elements e1 e2 in
  let n0 := nearfield_degree p order dist (e_level e1) in
  let nfield_deg := if (ffield_deg <=? n0)%Z then n0 else ffield_deg in
  if (nfield_deg <? max_quadrature_degree)%Z then
    let Q := GS nfield_deg in
    match snd cp with
    | 0 => if (nfield_deg =? ffield_deg)%Z then Some (integrate0 K e1 e2 ff1 ff2 Q) else Some (integrate1 K e1 e2 Q)
    | 2 => Some (integrate2 K e1 Q)
    | 3 => Some (integrate3 K e1 (fst (fst cp)) e2 (snd (fst cp)) Q)
    | 4 => Some (integrate4 K e1 (fst (fst cp)) e2 (snd (fst cp)) Q)
    | _ => None
    end
  else None.

(** ** computeFfieldQnodes, farFieldQuadratureNodes.hpp 22-47 *)
Definition ffield_points (h : R) (e : element) (Q : cubature) : list surface_point :=
  map (fun k => map2surface e (q_xi Q k) (h * q_w Q k)%R) (seq 0 (length (fst Q))).
(** emplace_back of an uninitialised vector ([None]) followed by writes to the entry number id_; an access out of
    range is [None]; with no columns nothing is written *)
Fixpoint ffield_loop (h : R) (Q : cubature) (els : list element) (acc : list (option (list surface_point))) : option (list (option (list surface_point))) :=
  match els with
  | [] => Some acc
  | e :: r =>
      let acc1 := acc ++ [None] in
      acc2 <- (if length (fst Q) =? 0 then Some acc1 else set acc1 (n_id (e_node e)) (Some (ffield_points h e Q))) ;;
      ffield_loop h Q r acc2
  end.
Definition compute_ffield_qnodes (Q : cubature) (els : list element) : option (list (option (list surface_point))) :=
  e0 <- get els 0 ;; ffield_loop (e_h e0) Q els [].
