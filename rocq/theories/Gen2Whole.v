(** CutCellGenerator<2>::generate as a whole (src/construction/generator2.cpp:11-21, 130-326): generate_edges gives the mesh [base] (vertices,
    cut edges, grid and mask; Generator.v, CutEdges.v), the half-edge mesh gives the faces [mf] (external, see Gen2.v), and the pieces modelled in Gen2.v,
    ExternalBoundary.v and Regions2.v are put together. *)
From Verif Require Import Base Num CoordMask Vertex Grid SmallestEdge AdaptiveGrid Mesh ExteriorGrid Sparse Mesh2 ActiveMask ExternalBoundary DisjointSet Volume Gen2 Regions2.
Set Implicit Arguments.
Local Open Scope Z_scope.

(** all_vertices(): the grid vertices, then the crossings (generator_impl.hpp:354-372); outside it the C++ reads out of range and the value is arbitrary here *)
Definition AV (m : mesh2) (i : Z) : vertex := match masked_vertex (vshape2 m) (m2_verts m) i with Some v => v | None => vertex_of_coord [0; 0] end.
(** generator2.cpp:297-298 *)
Definition with_ext (m : mesh2) (e : cut_edge2) : option cut_edge2 :=
  option_map (mkEdge2 (e2_mask e) (e2_ix e) (e2_id e)) (boundary_pair2 (m2_cells m) (m2_mask m) (AV m) [fst (e2_ix e); snd (e2_ix e)]).
(** generator2.cpp:130-326 *)
Definition generate_faces2 (base : mesh2) (mf : list (Z * list (list Z))) : option mesh2 :=
  match gen_faces2 (m2_cells base) (m2_mask base) (AV base) mf with
  | None => None
  | Some fs =>
      match ownership2 (m2_cells base) (AV base) fs, sequence (map (with_ext base) (m2_edges base)), face_boundary_map2 (map e2_ix (m2_edges base)) fs with
      | Some own, Some es, Some fbm =>
          Some (mkMesh2 (m2_origin base) (m2_dx base) (m2_cells base) (m2_verts base) es (map (fun f => mkFace2 f (-1)) fs) (m2_mask base) own fbm (m2_ext_regions base))
      | _, _, _ => None
      end
  end.
(** generator2.cpp:17-21 *)
Definition generate2 (lnk : ds -> Z -> Z -> bool) (base : mesh2) (mf : list (Z * list (list Z))) : option mesh2 :=
  match generate_faces2 base mf with Some m => extra_metadata2 lnk m | None => None end.
