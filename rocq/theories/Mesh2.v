(** Model of CutCellMesh<2> (include/mandoline/mesh2.hpp, src/mesh2.cpp), CutFace<2> (include/mandoline/cutface.hpp:182-210, cutface_impl.hpp:84-97, 154-167),
    CutEdge<2> (include/mandoline/cutedge.hpp:81-107) and the 2D operators (src/operators/boundary2.cpp, volume2.cpp, diffgeo2.cpp:9-20).
    Positions are exact rationals.  The winding number of a closed loop (mtao::geometry::winding_number) is an argument of the functions that use it. *)
From Verif Require Import Base Num CoordMask Vertex Grid SmallestEdge AdaptiveGrid Mesh ExteriorGrid Sparse.
Set Implicit Arguments.
Local Open Scope Z_scope.

Definition q2 : Type := (Qc * Qc)%type.
(** cutedge.hpp:41, IDType = variant<int, array<int,2>>: input edge, or (bound axis, coordinate) *)
Inductive edge_id := MeshEdge (e : Z) | AxialEdge (axis value : Z).
Record cut_edge2 := mkEdge2 { e2_mask : mask; e2_ix : edge; e2_id : edge_id; e2_ext : option (Z * bool) }.
(** cutface.hpp:182-192 (the cached triangulation is not modelled) *)
Record cut_face2 := mkFace2 { f2_loops : list (list Z); f2_region : Z }.
Record mesh2 := mkMesh2 {
  m2_origin : q2; m2_dx : q2; m2_cells : list Z;   (* StaggeredGrid base, by its cell shape *)
  m2_verts : list vertex;                          (* m_cut_vertices *)
  m2_edges : list cut_edge2;                       (* m_cut_edges *)
  m2_faces : list cut_face2;                       (* m_faces *)
  m2_mask : coord -> bool;                         (* the mask exterior_grid was built from; true = exterior *)
  m2_owner : list (Z * list Z);                    (* cell_grid_ownership: std::map<int, std::set<int>> *)
  m2_fbm : list (Z * list (Z * bool));             (* m_face_boundary_map: std::map<int, std::map<int,bool>> *)
  m2_ext_regions : list Z }.                       (* exterior_grid.regions() *)
(** mtao: vertex shape = cell shape + 1 *)
Definition vshape2 (m : mesh2) : list Z := map (fun n => n + 1) (m2_cells m).
Definition num_cutfaces (m : mesh2) : Z := Z.of_nat (length (m2_faces m)).
Definition num_cutedges (m : mesh2) : Z := Z.of_nat (length (m2_edges m)).
Definition ext_cells (m : mesh2) : Z := ext_num_cells (m2_cells m) (m2_mask m).
Definition ext_facets (m : mesh2) : Z := Z.of_nat (length (facets (m2_cells m) (m2_mask m))).
(** mesh2.cpp:24-32 *)
Definition num_faces2 (m : mesh2) : Z := ext_cells m + num_cutfaces m.
Definition num_edges2 (m : mesh2) : Z := ext_facets m + num_cutedges m.

(** mtao StaggeredGrid::coord(p): integer part of (p - origin) / dx (external) *)
Definition grid_coord (m : mesh2) (p : q2) : coord :=
  [qfloor ((fst p - fst (m2_origin m)) / fst (m2_dx m)); qfloor ((snd p - snd (m2_origin m)) / snd (m2_dx m))]%Qc.
(** exterior_grid_impl.hpp:129-135 *)
Definition ext_index_at (m : mesh2) (p : q2) : Z := ext_cell_index (m2_cells m) (m2_mask m) (grid_coord m p).
(** cutface_impl.hpp:154-167 *)
Definition face_winding (wn : list Z -> q2 -> Qc) (f : cut_face2) (p : q2) : Qc := fold_left (fun w l => w + wn l p)%Qc (f2_loops f) 0%Qc.
Definition face_inside (wn : list Z -> q2 -> Qc) (f : cut_face2) (p : q2) : bool := qltb qhalf (face_winding wn f p).
(** mesh2.cpp:118-128: [idx < m_faces.size()] compares int with size_t, so a negative index is larger than every size *)
Definition in_cell (wn : list Z -> q2 -> Qc) (m : mesh2) (p : q2) (idx : Z) : bool :=
  match (if idx <? 0 then None else nth_error (m2_faces m) (Z.to_nat idx)) with
  | Some f => face_inside wn f p
  | None => 0 <=? ext_index_at m p
  end.
(** mesh2.cpp:129-153 *)
Definition cell_index2 (wn : list Z -> q2 -> Qc) (m : mesh2) (p : q2) : Z :=
  let c := grid_coord m p in
  if negb (in_shape (m2_cells m) c) then -2
  else
    let e := ext_cell_index (m2_cells m) (m2_mask m) c in
    if e =? -1 then
      match map_find Z.compare (ravel (m2_cells m) c) (m2_owner m) with
      | Some cs => match find (in_cell wn m p) cs with Some k => k | None => -1 end
      | None => -1
      end
    else e + num_cutfaces m.
(** mesh2.cpp:155-172; None = at() throws (negative index), Some [] = the error branch *)
Definition cell2 (m : mesh2) (index : Z) : option (list (list Z)) :=
  if index <? num_cutfaces m then (if index <? 0 then None else option_map f2_loops (nth_error (m2_faces m) (Z.to_nat index)))
  else
    let nidx := index - num_cutfaces m in
    if nidx <? ext_cells m then
      match nth_error (cell_coords (m2_cells m) (m2_mask m)) (Z.to_nat nidx) with
      | Some c => let x := at0 c 0 in let y := at0 c 1 in
                  Some [map (ravel (vshape2 m)) [[x; y]; [x; y + 1]; [x + 1; y + 1]; [x + 1; y]]]
      | None => None
      end
    else Some [].
(** mesh2.cpp:62-71: cut face regions, then the exterior regions ([tail] requires their number to be num_cells) *)
Definition regions2 (m : mesh2) : list Z := map f2_region (m2_faces m) ++ m2_ext_regions m.
(** mesh_impl.hpp:7-9, 31-34, 61-64: world position of vertex i *)
Definition world (m : mesh2) (v : vertex) : q2 :=
  (fst (m2_origin m) + fst (m2_dx m) * nth 0 (pos v) 0, snd (m2_origin m) + snd (m2_dx m) * nth 1 (pos v) 0)%Qc.
Definition vertex2 (m : mesh2) (i : Z) : option q2 := option_map (world m) (masked_vertex (vshape2 m) (m2_verts m) i).

(** boundary2.cpp:7-37 *)
Definition sgnQ (s : bool) : Qc := if s then (- (1))%Qc else 1%Qc.
Definition is_domain_edge (e : cut_edge2) : bool := match e2_ext e with Some (o, _) => o =? -2 | None => false end.
Definition enum (A : Type) (l : list A) : list (Z * A) := combine (zseq (Z.of_nat (length l))) l.
(** :15-24; [ccm.cut_edges()[eidx]] out of range is undefined (None) *)
Definition face_triplets (m : mesh2) (dom : bool) : option (list triplet) :=
  fold_left (fun acc '(f, es) => fold_left (fun acc '(e, s) =>
      match acc, (if e <? 0 then None else nth_error (m2_edges m) (Z.to_nat e)) with
      | Some l, Some ed => Some (if dom || negb (is_domain_edge ed) then l ++ [(e, f, sgnQ s)] else l)
      | _, _ => None
      end) es acc) (m2_fbm m) (Some []).
(** :25-32: cell_indices().get(of) is the table entry of the cell with row-major index [of] *)
Definition ext_triplets (m : mesh2) : list triplet :=
  flat_map (fun '(i, e) => match e2_ext e with
     | Some (o, s) => if 0 <=? o then [(i, cell_ix (m2_cells m) (m2_mask m) (unravel (m2_cells m) o) + num_cutfaces m, sgnQ s)] else []
     | None => [] end) (enum (m2_edges m)).
(** :8-13 *)
Definition shifted_triplets (m : mesh2) (dom : bool) : list triplet :=
  map (fun '(r, c, v) => (num_cutedges m + r, num_cutfaces m + c, Z2Qc v)) (db_boundary_triplets (facet_pairs (m2_cells m) (m2_mask m)) dom).
Definition boundary2 (m : mesh2) (dom : bool) : option (list triplet) :=
  option_map (fun ft => shifted_triplets m dom ++ ft ++ ext_triplets m) (face_triplets m dom).
(** boundary2.cpp:39-60, grid_boundary_faces: a std::set<int> *)
Definition grid_boundary_edges (m : mesh2) : list Z :=
  set_of_list Z.compare
    (flat_map (fun '(i, e) => flat_map (fun '(d, v) => match v with Some x => if (x =? 0) || (x =? at0 (vshape2 m) d - 1) then [i] else [] | None => [] end)
                                (combine (seq 0 (length (e2_mask e))) (e2_mask e))) (enum (m2_edges m)) ++
     db_grid_boundary_faces (facet_pairs (m2_cells m) (m2_mask m)) (num_cutedges m)).

(** ** lengths and Hodge stars: volume2.cpp:46-135, exterior_grid_impl.hpp:107-120, volume_impl.hpp:17-33 *)
Definition axis2 (p : q2) (d : nat) : Qc := match d with O => fst p | _ => snd p end.
(** form_volumes<1>() in 2D: dx(0), dx(1) (external) *)
Definition member_facet_volumes (m : mesh2) : list Qc := map (fun f => axis2 (m2_dx m) (fst f)) (facets (m2_cells m) (m2_mask m)).
Definition free_facet_volumes (m : mesh2) : list Qc := map (fun f => axis2 (m2_dx m) (1 - fst f)) (facets (m2_cells m) (m2_mask m)).
(** volume2.cpp:56-73 for axial edges; [dim] is the unbound axis; None = a vertex index out of range *)
Definition axial_length (m : mesh2) (axis : Z) (e : edge) : option Qc :=
  let d := Z.to_nat (1 - axis) in
  match masked_vertex (vshape2 m) (m2_verts m) (fst e), masked_vertex (vshape2 m) (m2_verts m) (snd e) with
  | Some a, Some b => Some (axis2 (m2_dx m) d * ((nth d (v_quot b) 0 - nth d (v_quot a) 0) + Z2Qc (nth d (v_coord b) 0%Z - nth d (v_coord a) 0%Z)))%Qc
  | _, _ => None
  end.
(** volume2.cpp:46-76; [mesh_len i] is row i of edge_barycentric_volume_matrix * input edge lengths; [have_mesh] = the input has edges *)
Definition edge_lengths2 (m : mesh2) (have_mesh : bool) (mesh_len : Z -> Qc) : option (list Qc) :=
  if have_mesh then
    fold_right (fun '(i, e) acc =>
       match acc, (match e2_id e with MeshEdge _ => Some (mesh_len i) | AxialEdge a _ => axial_length m a (e2_ix e) end) with
       | Some l, Some v => Some (v :: l) | _, _ => None end)
      (Some (member_facet_volumes m)) (enum (m2_edges m))
  else Some (member_facet_volumes m).
(** volume2.cpp:78-93; bound_axis comes from the mask.  Without cut edges [face_volumes(ccm.exterior_grid)] converts the exterior grid to a fresh CutCellMesh<2> (mesh.hpp:62)
    whose own exterior grid is empty, and takes minCoeff of an empty vector: undefined (None) *)
Definition dual_edge_lengths2 (m : mesh2) : option (list Qc) :=
  match m2_edges m with
  | [] => None
  | es => Some (map (fun e => match e2_id e with AxialEdge _ _ => axis2 (m2_dx m) (Z.to_nat (bound_axis (e2_mask e))) | MeshEdge _ => 0%Qc end) es ++ free_facet_volumes m)
  end.
(** volume2.cpp:94-115: the cutoff 1e-5, exact here *)
Definition cutoff : Qc := Q2Qc (1 # 100000).
Definition ratio (num den : Qc) : Qc := if qltb cutoff den then (num / den)%Qc else 0%Qc.
Definition dual_hodge (pv dv : list Qc) : list Qc := map (fun '(p, d) => ratio p d) (combine pv dv).
Definition primal_hodge (pv dv : list Qc) : list Qc := map (fun '(p, d) => ratio d p) (combine pv dv).
(** volume2.cpp:116-135 *)
Definition dual_hodge_top (cv : list Qc) : list Qc := cv.
Definition primal_hodge_top (cv : list Qc) : list Qc := map (fun v => if qltb (qabs v) cutoff then 0%Qc else (/ v)%Qc) cv.
(** diffgeo2.cpp:9-20: divergence = B^T diag(h), laplacian = B(false)^T diag(h) B(false), as linear maps *)
Definition divergence2 (B : list triplet) (h : Z -> Qc) (u : Z -> Qc) (c : Z) : Qc := mulTv B (fun r => (h r * u r)%Qc) c.
