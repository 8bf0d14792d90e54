(** Model of CutCellGenerator<2>::extra_metadata (src/construction/generator2.cpp:330-428): the region labels of a 2D cut-cell mesh. *)
From Verif Require Import Base Num CoordMask Vertex Grid SmallestEdge AdaptiveGrid Mesh ExteriorGrid Sparse Mesh2 DisjointSet CellCollapser Regions Surface2.
Set Implicit Arguments.
Local Open Scope Z_scope.

(** :332, mesh.num_cells() (mesh2.cpp:20-22: the faces) *)
Definition ncells2 (m : mesh2) : Z := num_faces2 m.
(** :341-345 *)
Definition facet_joins (m : mesh2) : list (Z * Z) :=
  flat_map (fun '(a, b) => if (0 <=? a) && (0 <=? b) then [(a + num_cutfaces m, b + num_cutfaces m)] else []) (facet_pairs (m2_cells m) (m2_mask m)).
(** :347-356; None = cut_edges()[eid] out of range *)
Definition face_joins (m : mesh2) : option (list (Z * Z)) :=
  fold_left (fun acc '(cid, es) => fold_left (fun acc '(eid, _) =>
      if eid <? 0 then acc else
      match acc, nth_error (m2_edges m) (Z.to_nat eid) with
      | Some l, Some e => Some (if is_mesh_edge e then l else l ++ [(cid, eid + ncells2 m)])
      | _, _ => None
      end) es acc) (m2_fbm m) (Some []).
(** :358-366; cell_indices().get(of) as in Mesh2.ext_triplets *)
Definition ext_joins (m : mesh2) : list (Z * Z) :=
  flat_map (fun '(i, e) => match e2_ext e with
     | Some (o, _) => if 0 <=? o then [(i + ncells2 m, cell_ix (m2_cells m) (m2_mask m) (unravel (m2_cells m) o) + num_cutfaces m)] else []
     | None => [] end) (enum (m2_edges m)).
Definition join_ops (l : list (Z * Z)) : list ds_op := map (fun '(a, b) => OpJoin a b) l.
(** :330-369 (reduce_all only compresses paths) *)
Definition region_ops2 (m : mesh2) : option (list ds_op) :=
  option_map (fun fj => map OpAdd (zrange 0 (Z.to_nat (ncells2 m + num_cutedges m))) ++ join_ops (facet_joins m ++ fj ++ ext_joins m)) (face_joins m).
(** :374-380, the last facet on the domain boundary decides *)
Definition boundary_cell (m : mesh2) : Z :=
  fold_left (fun acc '(a, b) => if a =? -2 then b + num_cutfaces m else if b =? -2 then a + num_cutfaces m else acc) (facet_pairs (m2_cells m) (m2_mask m)) (-1).
(** :372-403; :383-391 only sets a variable that is not read again *)
Definition outside_root2 (m : mesh2) (d : ds) : Z :=
  if boundary_cell m =? -1 then
    match find (fun '(a, b) => ((a =? -2) && (0 <=? b)) || ((b =? -2) && (0 <=? a))) (facet_pairs (m2_cells m) (m2_mask m)) with
    | Some (a, b) => if (a =? -2) && (0 <=? b) then b else a
    | None => -1
    end
  else root_of d (boundary_cell m).
(** :404-413 *)
Definition reindexer2 (m : mesh2) (d : ds) : list (Z * Z) :=
  fold_left (fun re i => reindex_step (outside_root2 m d) re (root_of d i)) (zrange 0 (Z.to_nat (ncells2 m)))
    (if 0 <=? outside_root2 m d then map_set Z.compare (outside_root2 m d) 0 [] else []).
Definition region2 (m : mesh2) (d : ds) (x : Z) : Z := match map_find Z.compare (root_of d x) (reindexer2 m d) with Some k => k | None => 0 end.
(** :416-424 *)
Definition extra_metadata2 (lnk : ds -> Z -> Z -> bool) (m : mesh2) : option mesh2 :=
  match region_ops2 m with
  | None => None
  | Some ops =>
      let d := ds_run lnk ops in
      Some (mkMesh2 (m2_origin m) (m2_dx m) (m2_cells m) (m2_verts m) (m2_edges m)
              (map (fun '(i, f) => mkFace2 (f2_loops f) (region2 m d i)) (enum (m2_faces m)))
              (m2_mask m) (m2_owner m) (m2_fbm m)
              (map (fun i => region2 m d (num_cutfaces m + i)) (zrange 0 (Z.to_nat (ext_cells m)))))
  end.
