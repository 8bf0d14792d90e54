(** Model of the 3D boundary operator and the face masks (src/operators/boundary3.cpp, src/operators/masks.cpp). *)
From Verif Require Import Base Num CoordMask Vertex Grid SmallestEdge AdaptiveGrid Mesh Sparse Mesh2.
Set Implicit Arguments.
Local Open Scope Z_scope.

(** mesh3.cpp:22-45: cell_size, face_size *)
Definition num_cut_faces (m : mesh3) : Z := Z.of_nat (length (m_faces m)).
Definition num_cut_cells (m : mesh3) : Z := Z.of_nat (length (m_cells m)).
Definition face_size (m : mesh3) : Z := Z.of_nat (length (m_afaces m)) + num_cut_faces m.
Definition cell_size (m : mesh3) : Z := Z.of_nat (length (m_cubes m)) + num_cut_cells m.
Definition cshape (m : mesh3) : c3 := cell_shape_of (m_vshape m).
(** GridData::get(i): the entry with row-major index i of the ownership grid (external indexer) *)
Definition own_get (shape : c3) (cells : acells) (i : Z) : Z :=
  match unravel (list3 shape) i with [x; y; z] => grid_from_cells cells (x, y, z) | _ => -1 end.
(** boundary3.cpp:9-10 *)
Definition adaptive_part (m : mesh3) (dom : bool) : list triplet :=
  map (fun '(r, c, v) => (r, c, Z2Qc v)) (ag_boundary_triplets (cshape m) (m_cubes m) (m_afaces m) (num_cut_faces m) dom).
Definition is_domain_face (f : cut_face) : bool := match cf_ext f with Some (o, _) => o =? -2 | None => false end.
(** boundary3.cpp:15-25; [ccm.faces()[fidx]] out of range is undefined (None) *)
Definition cell_triplets (m : mesh3) (dom : bool) : option (list triplet) :=
  fold_left (fun acc c => fold_left (fun acc '(fi, s) =>
      match acc, (if fi <? 0 then None else nth_error (m_faces m) (Z.to_nat fi)) with
      | Some l, Some f => Some (if dom || negb (is_domain_face f) then l ++ [(fi, ce_index c, sgnQ s)] else l)
      | _, _ => None
      end) (ce_faces c) acc) (m_cells m) (Some []).
(** boundary3.cpp:26-33 *)
Definition external_triplets (m : mesh3) : list triplet :=
  flat_map (fun '(i, f) => match cf_ext f with
     | Some (o, s) => if 0 <=? o then [(i, own_get (cshape m) (m_cubes m) o, sgnQ s)] else []
     | None => [] end) (enum (m_faces m)).
(** boundary3.cpp:7-37; the matrix has face_size rows and cell_size columns *)
Definition boundary3 (m : mesh3) (dom : bool) : option (list triplet) :=
  option_map (fun ct => adaptive_part m dom ++ ct ++ external_triplets m) (cell_triplets m dom).

(** boundary3.cpp:59-73, grid_boundary_faces(AdaptiveGrid, offset) *)
Definition ag_grid_boundary_faces (shape : c3) (fs : list aface) (offset : Z) : list Z :=
  flat_map (fun '(i, f) => let v := get3 (af_corner f) (af_axis f) in
     if (v =? 0) || (v =? get3 shape (af_axis f)) then [offset + i] else []) (enum fs).
(** boundary3.cpp:39-58: a std::set<int> *)
Definition grid_boundary_faces3 (m : mesh3) : list Z :=
  set_of_list Z.compare
    (flat_map (fun '(i, f) => flat_map (fun '(d, v) => match v with
          | Some x => if (x =? 0) || (x =? get3 (m_vshape m) d - 1) then [i] else []
          | None => [] end) (combine (seq 0 (length (cf_mask f))) (cf_mask f))) (enum (m_faces m)) ++
     ag_grid_boundary_faces (cshape m) (m_afaces m) (num_cut_faces m)).

(** masks.cpp:3-11 *)
Definition mesh_face_mask (m : mesh3) : list Z :=
  map (fun f => match cf_id f with MeshFace _ => 0 | AxialFace _ _ => 1 end) (m_faces m) ++ repeat 1 (length (m_afaces m)).
(** masks.cpp:12-24: vertex_shape()[axis] == cidx; adaptive_grid.cpp:210-224 for the tail *)
Definition grid_boundary_mask (m : mesh3) : list Z :=
  map (fun f => match cf_id f with
     | AxialFace a v => if (v =? 0) || (get3 (m_vshape m) (Z.to_nat a) =? v) then 0 else 1
     | MeshFace _ => 1 end) (m_faces m) ++
  map (fun b : bool => if b then 1 else 0) (grid_boundary_face_mask (cshape m) (m_afaces m)).
