(** Model of the region labelling of CutCellGenerator<3>::bake_cells (src/construction/generator3.cpp:311-440) and its queries on the mesh. *)
From Verif Require Import Base Num SmallestEdge DisjointSet CellCollapser AdaptiveGrid.
Set Implicit Arguments.
Local Open Scope Z_scope.

(** what is read of a CutFace<3>: is_mesh_face(), external_boundary, f[0] (value of the mask on axis 0) *)
Record rface := mkRF { rf_mesh : bool; rf_ext : option (Z * bool); rf_x : option Z }.
Record rinput := mkRI {
  ri_cells : list cellb;              (* cell_boundaries, after removal of boundary cells *)
  ri_faces : list (Z * rface);        (* m_faces: std::map<int, CutFace<3>> *)
  ri_cubes : acells;                  (* the renumbered exterior cells (generator3.cpp:322-337) *)
  ri_duals : list edge;               (* dual edges of the exterior faces *)
  ri_get : Z -> Z;                    (* cell_ownership_grid().get *)
  ri_nx : Z }.                        (* vertex_shape()[0] *)
Definition ncells (r : rinput) : Z := Z.of_nat (length (ri_cells r)).
(** generator3.cpp:335 *)
Definition max_cell_id (r : rinput) : Z := ncells r + Z.of_nat (length (ri_cubes r)).
Definition cell_enum (r : rinput) : list (Z * cellb) := combine (zrange 0 (length (ri_cells r))) (ri_cells r).
(** m_faces[fid]: a missing face is default-constructed, i.e. a mesh face (variant<int, ..>) without external boundary *)
Definition face_at (r : rinput) (f : Z) : rface := match map_find Z.compare f (ri_faces r) with Some x => x | None => mkRF true None None end.
(** generator3.cpp:343-351, 357-359: add_node *)
Definition add_ops (r : rinput) : list ds_op :=
  map OpAdd (zrange 0 (length (ri_cells r))) ++
  flat_map (fun '(a, _) => if 0 <=? a then [OpAdd (max_cell_id r + a)] else []) (ri_faces r) ++
  map (fun '(c, _) => OpAdd c) (ri_cubes r).
(** generator3.cpp:360-376: joins of exterior cells, and of faces with the exterior cell behind them *)
Definition dual_ops (r : rinput) : list ds_op :=
  flat_map (fun '(a, b) => if (0 <=? a) && (0 <=? b) then [OpJoin (ri_get r a) (ri_get r b)] else []) (ri_duals r).
Definition ext_ops (r : rinput) : list ds_op :=
  flat_map (fun '(id, f) => if rf_mesh f then [] else
     match rf_ext f with Some (c, _) => if 0 <=? c then [OpJoin (max_cell_id r + id) (ri_get r c)] else [] | None => [] end) (ri_faces r).
(** generator3.cpp:380-391 *)
Definition cell_ops (r : rinput) : list ds_op :=
  flat_map (fun '(cid, fs) => flat_map (fun '(fid, _) =>
     if 0 <=? fid then if rf_mesh (face_at r fid) then [] else [OpJoin cid (fid + max_cell_id r)] else []) fs) (cell_enum r).
Definition region_ops (r : rinput) : list ds_op := add_ops r ++ dual_ops r ++ ext_ops r ++ cell_ops r.
(** get_root(x).data; reading a node that was never added does not happen for cell ids *)
Definition root_of (d : ds) (x : Z) : Z := match ds_root d x with Some y => y | None => x end.
(** generator3.cpp:396-408: the first face (in id order) with the smallest x plane *)
Definition min_face (r : rinput) : Z :=
  fst (fold_left (fun '(mi, mx) '(i, f) => match rf_x f with Some x => if x <? mx then (i, x) else (mi, mx) | None => (mi, mx) end) (ri_faces r) (0, ri_nx r)).
(** generator3.cpp:419-432 *)
Definition outside_root (r : rinput) (d : ds) : Z :=
  match find (fun '(_, fs) => existsb (fun '(f, _) => (0 <=? f) && (f =? min_face r)) fs) (cell_enum r) with
  | Some (cid, _) => root_of d cid
  | None => -1
  end.
(** generator3.cpp:433-440: reindexer[root] = reindexer.size() evaluates the size first (C++17) *)
Definition reindex_step (out : Z) (re : list (Z * Z)) (root : Z) : list (Z * Z) :=
  if root =? out then re else match map_find Z.compare root re with Some _ => re | None => map_set Z.compare root (Z.of_nat (length re)) re end.
Definition reindexer (r : rinput) (d : ds) : list (Z * Z) :=
  fold_left (fun re i => reindex_step (outside_root r d) re (root_of d i)) (zrange 0 (length (ri_cells r))) (map_set Z.compare (outside_root r d) 0 []).
(** generator3.cpp:443-458: operator[] gives 0 for an unseen root *)
Definition region (r : rinput) (d : ds) (x : Z) : Z := match map_find Z.compare (root_of d x) (reindexer r d) with Some k => k | None => 0 end.
Definition cell_regions (lnk : ds -> Z -> Z -> bool) (r : rinput) : list Z := map (region r (ds_run lnk (region_ops r))) (zrange 0 (length (ri_cells r))).
Definition exterior_regions (lnk : ds -> Z -> Z -> bool) (r : rinput) : list (Z * Z) := map (fun '(c, _) => (c, region r (ds_run lnk (region_ops r)) c)) (ri_cubes r).
