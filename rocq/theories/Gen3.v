(** Model of how CutCellGenerator<3> numbers, filters and assembles faces: bake_faces, compute_faces, compute_faces_vertex and
    compute_faces_axis (src/construction/generator3_make_faces.cpp:34-96, 245-252, 289-297, 361-497), generate
    (src/construction/generator3.cpp:33-158) and possible_cells_cell (include/mandoline/construction/generator_impl.hpp:994-1012).
    The half-edge meshes of the slices are library objects: given here by what is read of them (cell_indices(),
    cells_multi_component_map(), signed_areas()). *)
From Verif Require Import Base Num CoordMask Vertex VertexTypes Grid SmallestEdge AdaptiveGrid Volume Mesh Hem Queries3.
Set Implicit Arguments.
Local Open Scope Z_scope.

(** ** Numbering of the slices' faces (generator3_make_faces.cpp:98, 245-252) *)
(** fa = (fa >= 0).select(fa + face_size, -1) *)
Definition shift_ids (face_size : Z) (ids : list Z) : list Z := map (fun c => if 0 <=? c then c + face_size else -1) ids.
(** maxCoeff(); None = called on an empty vector (an assertion in the library) *)
Definition max_coeff (ids : list Z) : option Z := match ids with [] => None | x :: t => Some (fold_left Z.max t x) end.
(** the loop over the planes, in order, axis after axis (serial build; with TBB the three axes share face_size without
    synchronisation); the result is the shifted cell_indices() of each plane *)
Fixpoint number_planes (face_size : Z) (planes : list (list Z)) : option (list (list Z)) :=
  match planes with
  | [] => Some []
  | ids :: t =>
      let ids' := shift_ids face_size ids in
      match max_coeff ids' with
      | None => None
      | Some m => option_map (cons ids') (number_planes (m + 1) t)
      end
  end.
(** m_faces.insert(fcs.begin(), fcs.end()) (generator3_make_faces.cpp:395): existing keys win *)
Definition insert_faces (A : Type) (m : list (Z * A)) (fcs : list (Z * A)) : list (Z * A) :=
  fold_left (fun m '(k, f) => map_emplace Z.compare k f m) fcs m.
Definition collect_faces (A : Type) (mesh_faces : list (Z * A)) (planes : list (list (Z * A))) : list (Z * A) :=
  fold_left (@insert_faces A) planes mesh_faces.

(** ** Axis-aligned input faces (generator3_make_faces.cpp:44-72) *)
(** what is read of a CutMeshFace<3>: indices, parent_fid, mask() *)
Record mesh_cut_face := mkMCF { mcf_loop : list Z; mcf_parent : Z; mcf_mask : mask }.
Definition axial_primal (active : Z -> bool) (N : Z -> nat -> Qc) (cfs : list mesh_cut_face) (i : nat) : list edge :=
  set_of_list edge_cmp (flat_map (fun f =>
    if active (mcf_parent f) then
      match nth_error (mcf_mask f) i with
      | Some (Some _) =>
          [if qltb 0%Qc (N (mcf_parent f) i) then smallest_ordered_edge (mcf_loop f) else smallest_ordered_edge_reverse (mcf_loop f)]
      | _ => []
      end
    else []) cfs).
(** generator3_make_faces.cpp:361-375: faces with two or fewer vertices are reported and left out *)
Definition faces_vertex (cfs : list mesh_cut_face) : list (Z * mesh_cut_face) :=
  filter (fun p => (2 <? length (mcf_loop (snd p)))%nat) (combine (zrange 0 (length cfs)) cfs).

(** ** Faces of one slice (generator3_make_faces.cpp:400-497) *)
Record slice := mkSlice {
  sl_faces : list (Z * list (list Z));     (* hem.cells_multi_component_map() *)
  sl_vols : Z -> Qc;                       (* vols.at(i) *)
  sl_bes : list edge;                      (* boundary_edges *)
  sl_shape : list Z; sl_mask : coord -> bool }. (* active_grid_cell_mask, true where the square is NOT cut *)
(** :424-441 add_loop's tests and the test of the signed area *)
Definition loop_ok (prim : list edge) (vol : Qc) (v : list Z) : bool :=
  qleb 0%Qc vol && ((2 <? length v)%nat && negb (edge_mem (smallest_ordered_edge v) prim)).
(** :452-489, one loop; None = undefined behaviour: more than two cells copied into an array of two, or the mask read outside its shape.
    When there is a single possible cell pca[1] is read uninitialised, but only to decide about a message. *)
Definition keep_loop (V : Z -> vertex) (prim : list edge) (idx : nat) (sl : slice) (vol : Qc) (v : list Z) : option bool :=
  if is_boundary_cell (sl_bes sl) v then
    match gen_possible_cells V v with
    | [] => Some false
    | a :: t =>
        if (1 <? length t)%nat then None
        else let ind := [nth ((idx + 1) mod 3) a 0; nth ((idx + 2) mod 3) a 0] in
             if in_shape (sl_shape sl) ind then
               if sl_mask sl ind then Some false else Some (loop_ok prim vol v)
             else None
    end
  else Some (loop_ok prim vol v).
(** the loops of one face of the slice: a std::set of vectors *)
Fixpoint keep_loops (V : Z -> vertex) (prim : list edge) (idx : nat) (sl : slice) (vol : Qc) (vs : list (list Z)) (acc : list (list Z))
  : option (list (list Z)) :=
  match vs with
  | [] => Some acc
  | v :: t =>
      match keep_loop V prim idx sl vol v with
      | None => None
      | Some b => keep_loops V prim idx sl vol t (if b then set_insert zlex v acc else acc)
      end
  end.
(** :491-496: only faces with a loop left are stored *)
Fixpoint faces_axis (V : Z -> vertex) (prim : list edge) (idx : nat) (sl : slice) (fs : list (Z * list (list Z)))
  : option (list (Z * list (list Z))) :=
  match fs with
  | [] => Some []
  | (i, vs) :: t =>
      match keep_loops V prim idx sl (sl_vols sl i) vs [], faces_axis V prim idx sl t with
      | Some [], Some r => Some r
      | Some l, Some r => Some ((i, l) :: r)
      | _, _ => None
      end
  end.

(** ** generate (generator3.cpp:33-158) *)
Record gen_cell := mkGC { gc_faces : list (Z * bool); gc_index : Z; gc_region : Z }.
Record gen3 := mkGen3 {
  g_faces : list (Z * cut_face);        (* m_faces, a map *)
  g_mesh : list (Z * bary_face);        (* mesh_face_indices with the barycentric face built at :66-77 (get_face_bary is C79) *)
  g_axial : list (list Z);              (* axis_face_indices *)
  g_folded : list Z;                    (* folded_faces *)
  g_cells : list gen_cell }.            (* cell_boundaries *)
(** :52-58 *)
Definition face_reindexer (faces : list (Z * cut_face)) : list (Z * Z) :=
  fold_left (fun m '(i, (idx, _)) => map_set Z.compare idx i m) (combine (zrange 0 (length faces)) faces) [].
(** reindexer.at *)
Definition re_at (re : list (Z * Z)) (i : Z) : option Z := map_find Z.compare i re.
(** :39, 59-61: resize, then one write per face; None in the list = a default-constructed face, None outside = .at throws *)
Fixpoint place_faces (re : list (Z * Z)) (fs : list (Z * cut_face)) (acc : list (option cut_face)) : option (list (option cut_face)) :=
  match fs with
  | [] => Some acc
  | (i, f) :: t => match re_at re i with
                   | Some k => place_faces re t (zput acc (Z.to_nat k) (Some f))
                   | None => None
                   end
  end.
Definition out_faces (g : gen3) : option (list (option cut_face)) :=
  place_faces (face_reindexer (g_faces g)) (g_faces g) (repeat None (length (g_faces g))).
(** :64-68 redx *)
Definition redx (re : list (Z * Z)) (s : list Z) : option (list Z) := option_map (set_of_list Z.compare) (sequence (map (re_at re) s)).
Definition out_axial (g : gen3) : option (list (list Z)) := sequence (map (redx (face_reindexer (g_faces g))) (g_axial g)).
(** :70-82 *)
Fixpoint place_bary (re : list (Z * Z)) (fs : list (Z * bary_face)) (acc : list (Z * bary_face)) : option (list (Z * bary_face)) :=
  match fs with
  | [] => Some acc
  | (i, b) :: t => match re_at re i with Some k => place_bary re t (map_set Z.compare k b acc) | None => None end
  end.
Definition out_bary (g : gen3) : option (list (Z * bary_face)) := place_bary (face_reindexer (g_faces g)) (g_mesh g) [].
(** :37 - copied as it is *)
Definition out_folded (g : gen3) : list Z := g_folded g.
Definition is_folded (g : gen3) (i : Z) : bool := existsb (Z.eqb i) (out_folded g).
(** :103-115: the faces of one cell and the set [inds] of those not taken for folded *)
Fixpoint cell_faces (g : gen3) (re : list (Z * Z)) (fs : list (Z * bool)) (acc : list (Z * bool)) (inds : list Z)
  : option (list (Z * bool) * list Z) :=
  match fs with
  | [] => Some (acc, inds)
  | (i, s) :: t =>
      match re_at re i with
      | None => None
      | Some k => cell_faces g re t (map_set Z.compare k s acc) (if is_folded g k then inds else set_insert Z.compare k inds)
      end
  end.
(** generator_impl.hpp:994-1012; None = a face index outside the list (or a face with an empty first loop) *)
Definition possible_cells_cell (V : Z -> vertex) (inds : list Z) (faces : list (option cut_face)) : option (list coord) :=
  match inds with
  | [] => Some []
  | _ =>
      match sequence (map (fun k => match nth_error faces (Z.to_nat k) with
                                    | Some (Some f) => gen_possible_cells2 V (cf_loops f)
                                    | _ => None end) inds) with
      | Some (s0 :: ss) => Some (intersect_loop s0 (s0 :: ss))
      | _ => None
      end
  end.
(** :99-148; grid_cell is only assigned when there is exactly one possible cell; m_cells.resize value-initialises, so it is (0,0,0) otherwise *)
Definition out_cell (V : Z -> vertex) (g : gen3) (faces : list (option cut_face)) (c : gen_cell) : option cut_cell :=
  match cell_faces g (face_reindexer (g_faces g)) (gc_faces c) [] [] with
  | None => None
  | Some (fs, inds) =>
      match possible_cells_cell V inds faces with
      | None => None
      | Some [[x; y; z]] => Some (mkCutCell fs (gc_index c) (gc_region c) (x, y, z))
      | Some _ => Some (mkCutCell fs (gc_index c) (gc_region c) (0, 0, 0))
      end
  end.
Definition out_cells (V : Z -> vertex) (g : gen3) : option (list cut_cell) :=
  match out_faces g with
  | None => None
  | Some faces => sequence (map (out_cell V g faces) (g_cells g))
  end.
