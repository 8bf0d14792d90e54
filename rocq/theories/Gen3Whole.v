(** The last stage of the 3D generator and generate as one program: compute_faces has left the faces [fs] (ids with cut faces, no external boundary yet), the
    barycentric faces [mesh] (mesh_face_indices) and [axial] (axis_face_indices); bake_cells (src/construction/generator3.cpp:253-488) and generate
    (src/construction/generator3.cpp:26-158) turn them into the CutCellMesh<3>.  [base] is the mesh generate_edges returns (grid, vertices, cut edges, mask and the
    input surface; Generator.v, CutEdges.v).  The pieces are those of BakeCells.v and Gen3.v. *)
From Verif Require Import Base Num CoordMask Vertex Grid SmallestEdge AdaptiveGrid Mesh DisjointSet CellCollapser BakeCells Boundary3 Volume Hem Gen3.
Set Implicit Arguments.
Local Open Scope Z_scope.

(** all_vertices(): the grid vertices, then the crossings (generator_impl.hpp:354-372); outside it the C++ reads out of range and the value is arbitrary here *)
Definition AV3 (m : mesh3) (i : Z) : vertex := match masked_vertex (list3 (m_vshape m)) (m_verts m) i with Some v => v | None => vertex_of_coord [0; 0; 0] end.
(** m_active_grid_cell_mask at a coordinate; true where the cell is not cut *)
Definition act3 (m : mesh3) (c : coord) : bool := match c with [x; y; z] => m_active m (x, y, z) | _ => false end.
(** cutface.hpp: is_mesh_face() = the id holds an int *)
Definition is_mesh_id (f : cut_face) : bool := match cf_id f with MeshFace _ => true | AxialFace _ _ => false end.
(** what bake_cells reads of a face *)
Definition gface_of (f : cut_face) : gface := mkGF (cf_loops f) (cf_mask f) (is_mesh_id f) (cf_ext f).
Definition set_ext (e : option (Z * bool)) (f : cut_face) : cut_face := mkCutFace (cf_mask f) (cf_loops f) (cf_id f) (cf_N f) e (cf_tri f) (cf_triV f).
(** the generator's members after bake_cells: m_faces with their external boundaries, folded_faces, cell_boundaries with index and region (generator3.cpp:275, 298-307, 449-453) *)
Definition after_bake (b : baked) (fs : list (Z * cut_face)) (mesh : list (Z * bary_face)) (axial : list (list Z)) : gen3 :=
  mkGen3 (map (fun '((i, f), (_, g)) => (i, set_ext (gf_ext g) f)) (combine fs (bk_faces b))) mesh axial (bk_folded b)
    (map (fun '(i, (c, r)) => mkGC c i r) (combine (zrange 0 (length (bk_cells b))) (combine (bk_cells b) (bk_regions b)))).
(** generator3.cpp:33-158; None = .at throws, an access out of range, or a face of the result left default-constructed *)
Definition generate3 (lnk1 lnk2 : ds -> Z -> Z -> bool) (ord : edge -> list Z -> list Z) (level : option Z) (base : mesh3)
    (fs : list (Z * cut_face)) (mesh : list (Z * bary_face)) (axial : list (list Z)) : option mesh3 :=
  match bake3 lnk1 lnk2 ord (cshape base) (act3 base) level (AV3 base) (map (fun '(i, f) => (i, gface_of f)) fs) with
  | None => None
  | Some b =>
      let g := after_bake b fs mesh axial in
      match out_faces g, out_cells (AV3 base) g, out_bary g, out_axial g with
      | Some F, Some C, Some B, Some _ =>
          option_map (fun F => mkMesh (m_origin base) (m_dx base) (m_vshape base) (m_verts base) (m_cut_edges base) (m_active base) (m_origV base) (m_origF base)
            F C (out_folded g) B (bk_cubes b) (bk_afaces b) (bk_cube_regions b)) (sequence F)
      | _, _, _, _ => None
      end
  end.
