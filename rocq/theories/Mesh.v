(** Data of a CutCellMesh<3> (include/mandoline/mesh.hpp:122-131, mesh3.hpp:161-181, cutface.hpp:34-122, cutcell.hpp, barycentric_triangle_face.hpp,
    interpolated_edge.hpp).  Positions are exact rationals; std::set / std::map are strictly sorted lists. *)
From Verif Require Import Base Num CoordMask Vertex Grid SmallestEdge AdaptiveGrid.
Set Implicit Arguments.
Local Open Scope Z_scope.

(** cutface.hpp:42, IDType = variant<int, array<int,2>>: input triangle or (axis, plane coordinate) *)
Inductive face_id := MeshFace (f : Z) | AxialFace (axis value : Z).
(** cutface.hpp:62-81 and 104-105 *)
Record cut_face := mkCutFace {
  cf_mask : mask;
  cf_loops : list (list Z);                    (* std::set<std::vector<int>> *)
  cf_id : face_id;
  cf_N : q3;
  cf_ext : option (Z * bool);                  (* external_boundary *)
  cf_tri : option (list c3);                   (* triangulation *)
  cf_triV : option (list q3) }.                (* triangulated_vertices *)
(** cutcell.hpp: std::map<int,bool> with index, region, grid_cell *)
Record cut_cell := mkCutCell { ce_faces : list (Z * bool); ce_index : Z; ce_region : Z; ce_grid : c3 }.
(** barycentric_triangle_face.hpp: barys columns, parent_fid *)
Record bary_face := mkBary { bf_barys : list q3; bf_parent : Z }.
Record mesh3 := mkMesh {
  m_origin : q3; m_dx : q3; m_vshape : c3;     (* StaggeredGrid base, by its vertex shape *)
  m_verts : list vertex;                       (* m_cut_vertices *)
  m_cut_edges : list edge;                     (* m_cut_edges (vertex indices) *)
  m_active : c3 -> bool;                       (* m_active_grid_cell_mask *)
  m_origV : list q3; m_origF : list c3;
  m_faces : list cut_face; m_cells : list cut_cell; m_folded : list Z;
  m_bary : list (Z * bary_face);               (* m_mesh_cut_faces *)
  m_cubes : acells; m_afaces : list aface;     (* m_exterior_grid: cells and faces *)
  m_regions : list (Z * Z) }.                  (* m_adaptive_grid_regions *)

Definition list3 (c : c3) : list Z := let '(x, y, z) := c in [x; y; z].
(** mtao: cell shape of a staggered grid = vertex shape - 1 *)
Definition cell_shape_of (vs : c3) : c3 := let '(x, y, z) := vs in (x - 1, y - 1, z - 1).

(** cutface_impl.hpp:63-82, update_mask; the vertex of index i is the grid vertex unindex(i) below the grid size and V[i - size] above;
    None = indices.begin()->front() on an empty set or loop, or V[] out of range (undefined behaviour) *)
Definition get_mask (vs : list Z) (V : list vertex) (idx : Z) : option mask :=
  let offset := shape_size vs in
  if offset <=? idx then option_map v_mask (nth_error V (Z.to_nat (idx - offset)))
  else Some (mask_of_coord (unravel vs idx)).
Definition mask_step (vs : list Z) (V : list vertex) (m : option mask) (i : Z) : option mask :=
  match m, get_mask vs V i with Some a, Some b => Some (mask_and a b) | _, _ => None end.
Definition update_mask (vs : list Z) (V : list vertex) (loops : list (list Z)) : option mask :=
  match loops with
  | (i0 :: _) :: _ => fold_left (fun m l => fold_left (mask_step vs V) l m) loops (get_mask vs V i0)
  | _ => None
  end.
(** mesh_impl.hpp:36-45, masked_vertex; None = m_cut_vertices[] out of range or a negative index *)
Definition masked_vertex (vs : list Z) (V : list vertex) (idx : Z) : option vertex :=
  if idx <? 0 then None
  else if idx <? shape_size vs then Some (vertex_of_coord (unravel vs idx))
  else nth_error V (Z.to_nat (idx - shape_size vs)).
