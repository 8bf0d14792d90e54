(** Interpolation operators: src/operators/interpolation2.cpp, interpolation3.cpp, src/interpolated_edge.cpp, src/barycentric_triangle_face.cpp.
    Exact rationals.  A sparse matrix is its triplet list (Sparse.v). *)
From Verif Require Import Base Num CoordMask Vertex Grid SmallestEdge AdaptiveGrid Mesh Sparse Mesh2.
Set Implicit Arguments.
Local Open Scope Qc_scope.

(** interpolation2.cpp:72-80, interpolation3.cpp:70-82: the loops i, j(, k) of one cut vertex, with the running product of weights; one level per axis *)
Fixpoint corners (c : coord) (q : list Qc) (w : Qc) : list (coord * Qc) :=
  match c, q with
  | x :: c', y :: q' => flat_map (fun i => map (fun '(a, u) => ((x + i)%Z :: a, u)) (corners c' q' (w * (if (i =? 0)%Z then 1 - y else y)))) [0; 1]%Z
  | _, _ => [([], w)]
  end.
(** interpolation2.cpp:58-84, interpolation3.cpp:56-86; [vs] = vertex shape of the grid.  vertex_index does not check its argument *)
Definition trilinear (vs : list Z) (V : list vertex) : list triplet :=
  map (fun i => (i, i, 1)) (zseq (shape_size vs)) ++
  flat_map (fun '(idx, v) => map (fun '(a, w) => ((idx + shape_size vs)%Z, ravel vs a, w)) (corners (v_coord v) (v_quot v) 1)) (enum V).

(** ** barycentric / edge interpolation *)
Definition key : Type := (Z * Z)%type.
Definition key_cmp : key -> key -> comparison := pair_cmp Z.compare Z.compare.
Definition kmap : Type := list (key * Qc).
(** interpolated_edge.cpp:5-20: ret[{row, e[k]}] = ..., in loop order (later writes win) *)
Definition edge_writes (ts : Qc * Qc) (ix : edge) (e : edge) : list (key * Qc) :=
  flat_map (fun '(row, t) => (if qeqb t 1 then [] else [((row, fst e), 1 - t)]) ++ (if qeqb t 0 then [] else [((row, snd e), t)])) [(fst ix, fst ts); (snd ix, snd ts)].
(** barycentric_triangle_face.cpp:5-20; None = barys.col(i) past the end (assert only) *)
Definition face_writes (barys : list q3) (ix : list Z) (f : c3) : option (list (key * Qc)) :=
  if (length ix <=? length barys)%nat then
    Some (flat_map (fun '(row, (b0, b1, b2)) => flat_map (fun '(v, b) => if qeqb b 0 then [] else [((row, v), b)]) [(fst (fst f), b0); (snd (fst f), b1); (snd f, b2)]) (combine ix barys))
  else None.
Definition write_all (ws : list (key * Qc)) : kmap := fold_left (fun m '(k, v) => map_set key_cmp k v m) ws [].
Definition edge_entries (ts : Qc * Qc) (ix : edge) (e : edge) : kmap := write_all (edge_writes ts ix e).
Definition face_entries (barys : list q3) (ix : list Z) (f : c3) : option kmap := option_map write_all (face_writes barys ix f).
(** interpolated_edge.cpp:21-23 *)
Definition edge_fraction (ts : Qc * Qc) : Qc := qabs (snd ts - fst ts).
(** interpolation2.cpp:14-17, interpolation3.cpp:13-16: std::copy into std::inserter(mp): a key already present keeps its value *)
Definition merge_entries (ps : list kmap) : kmap := fold_left (fun mp t => fold_left (fun m '(k, v) => map_emplace key_cmp k v m) t mp) ps [].
(** interpolation2.cpp:23-26: the row sums, inverted where larger than 1e-10 *)
Definition tiny : Qc := Q2Qc (1 # 10000000000).
Definition row_scale (s : Qc) : Qc := if qltb tiny (qabs s) then 1 / s else 0.
Definition triplets_of (m : kmap) : list triplet := map (fun '((a, b), v) => (a, b, v)) m.
(** interpolation2.cpp:10-28, interpolation3.cpp:9-27 from the per-piece maps *)
Definition barycentric (ps : list kmap) : list triplet :=
  let A := triplets_of (merge_entries ps) in map (fun '(r, c, v) => (r, c, row_scale (mulv A (fun _ => 1) r) * v)) A.

(** mtao::geometry::curve_volume of a closed planar polygon: signed area (external) *)
Definition shoelace (ps : list q2) : Qc := lsum (fun '(a, b) => fst a * snd b - fst b * snd a) (combine ps (tl ps ++ firstn 1 ps)) / (1 + 1).
(** barycentric_triangle_face.cpp:21-23: the first two barycentric rows *)
Definition bary_area (barys : list q3) : Qc := shoelace (map (fun b : q3 => (fst (fst b), snd (fst b))) barys).
(** interpolation3.cpp:45-49: (fid, parent_fid, 2 * volume);  interpolation2.cpp:47-50: (eid, parent_eid, volume) *)
Definition face_bary_volumes (ps : list (Z * (list q3 * Z))) : list triplet := map (fun '(fid, (b, parent)) => (fid, parent, (1 + 1) * bary_area b)) ps.
Definition edge_bary_volumes (ps : list (Z * (Qc * Qc * Z))) : list triplet := map (fun '(eid, (ts, parent)) => (eid, parent, edge_fraction ts)) ps.

(** interpolation2.cpp:118-140; [vols] = face_volumes(ccm) *)
Definition face_grid_volumes (m : mesh2) (vols : Z -> Qc) : list triplet :=
  let dv := fst (m2_dx m) * snd (m2_dx m) in
  flat_map (fun '(g, fs) => map (fun f => (f, g, vols f / dv)) fs) (m2_owner m) ++
  map (fun '(i, c) => ((i + num_cutfaces m)%Z, ravel (m2_cells m) c, 1)) (enum (ExteriorGrid.cell_coords (m2_cells m) (m2_mask m))).

(** interpolation2.cpp:93-108, the triplet of one cut edge: (grid edge as low corner and direction, value); [ev] = EV(row).  None = no triplet; inner None = a vertex index out of range *)
Definition edge_grid_entry (m : mesh2) (e : cut_edge2) (ev : Qc) : option (option (coord * Z * Qc)) :=
  if (mask_count (e2_mask e) =? 1)%nat then
    Some (match masked_vertex (vshape2 m) (m2_verts m) (fst (e2_ix e)), masked_vertex (vshape2 m) (m2_verts m) (snd (e2_ix e)) with
          | Some a, Some b => Some (coord_min (v_coord a) (v_coord b), unbound_axis (e2_mask e), ev / (fst (m2_dx m) * snd (m2_dx m)))
          | _, _ => None end)
  else None.
Definition q3_at (p : q3) (i : nat) : Qc := match i with O => fst (fst p) | S O => snd (fst p) | _ => snd p end.
(** interpolation3.cpp:92-95 *)
Definition grid_face_area (dx : q3) (axis : nat) : Qc := match axis with O => q3_at dx 1 * q3_at dx 2 | S O => q3_at dx 0 * q3_at dx 2 | _ => q3_at dx 0 * q3_at dx 1 end.
Definition is_axial (f : cut_face) : bool := match cf_id f with AxialFace _ _ => true | MeshFace _ => false end.
(** interpolation3.cpp:101-120, the triplet of one cut face: (low corner of the grid face and its normal axis, value); [fv] = FV(i) *)
Definition face_grid_entry (m : mesh3) (include_mesh : bool) (f : cut_face) (fv : Qc) : option (option (coord * Z * Qc)) :=
  if (if include_mesh then (mask_count (cf_mask f) =? 1)%nat else is_axial f) then
    Some (match fold_right (fun i acc => match acc, masked_vertex (list3 (m_vshape m)) (m_verts m) i with Some l, Some v => Some (v_coord v :: l) | _, _ => None end) (Some []) (concat (cf_loops f)) with
          | Some (c :: cs) => let axis := bound_axis (cf_mask f) in
              Some (fold_left coord_min cs c, axis, fv / grid_face_area (m_dx m) (Z.to_nat axis) * q3_at (cf_N f) (Z.to_nat axis))
          | _ => None end)
  else None.
