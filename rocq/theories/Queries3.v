(** Queries on a CutCellMesh<3>: include/mandoline/mesh_impl.hpp:7-95 (vertices), src/mesh3.cpp:64-120 (centroids), 170-275 (regions),
    498-660 (active cells, triangulated cells, cells of a grid cell, point location), src/cutcell.cpp:87-135 and include/mandoline/cutcell.hpp:66-112.
    Exact rationals instead of doubles; std::vector access out of range is None. *)
From Verif Require Import Base Num CoordMask Vertex Grid SmallestEdge AdaptiveGrid Mesh Sparse Mesh2 Interp Boundary3 Volume.
Set Implicit Arguments.
Local Open Scope Z_scope.

(** ** vertices *)
Definition vec3 (l : list Qc) : q3 := (nth 0 l 0, nth 1 l 0, nth 2 l 0)%Qc.
Definition vmul (a b : q3) : q3 := let '(x, y, z) := a in let '(u, v, w) := b in (x * u, y * v, z * w)%Qc.
Definition vdiv (a b : q3) : q3 := let '(x, y, z) := a in let '(u, v, w) := b in (x / u, y / v, z / w)%Qc.
Definition vsub (a b : q3) : q3 := let '(x, y, z) := a in let '(u, v, w) := b in (x - u, y - v, z - w)%Qc.
(** mtao Grid: world_coord(p) = origin + dx * p, local_coord(p) = (p - origin) / dx (external) *)
Definition to_world (m : mesh3) (p : q3) : q3 := vadd (m_origin m) (vmul (m_dx m) p).
Definition to_local (m : mesh3) (p : q3) : q3 := vdiv (vsub p (m_origin m)) (m_dx m).
(** mtao Grid::coord(p): integer parts of the local coordinates (external) *)
Definition to_coord (m : mesh3) (p : q3) : c3 := let '(x, y, z) := to_local m p in (qfloor x, qfloor y, qfloor z).
(** mesh_impl.hpp:7-12 *)
Definition get_world_vertex3 (m : mesh3) (v : vertex) : q3 := to_world m (vec3 (pos v)).
(** mesh_impl.hpp:31-34, vertex(idx) *)
Definition vertex3 (m : mesh3) (i : Z) : option q3 := option_map (get_world_vertex3 m) (masked_vertex (list3 (m_vshape m)) (m_verts m) i).
(** mtao StaggeredGrid::local_vertices(), vertices(): the grid vertices in index order (external) *)
Definition grid_local_vertices (m : mesh3) : list q3 :=
  map (fun i => vec3 (map Z2Qc (unravel (list3 (m_vshape m)) i))) (zseq (shape_size (list3 (m_vshape m)))).
Definition grid_vertices (m : mesh3) : list q3 := map (to_world m) (grid_local_vertices m).
(** mesh_impl.hpp:69-80 *)
Definition grid_space_cut_vertices (m : mesh3) : list q3 := map (fun v => vec3 (pos v)) (m_verts m).
Definition cut_vertices_colvecs (m : mesh3) : list q3 := map (to_world m) (grid_space_cut_vertices m).
(** mesh_impl.hpp:61-64, 65-68 *)
Definition vertices3 (m : mesh3) : list q3 := grid_vertices m ++ cut_vertices_colvecs m.
Definition grid_space_vertices (m : mesh3) : list q3 := grid_local_vertices m ++ cut_vertices_colvecs m.

(** ** cells of a grid cell and point location *)
Definition c3_cmp : c3 -> c3 -> comparison := pair_cmp (pair_cmp Z.compare Z.compare) Z.compare.
(** mesh3.cpp:606-612; std::map<coord_type, std::set<int>> *)
Definition cells_by_grid_cell (m : mesh3) : list (c3 * list Z) :=
  fold_left (fun R '(i, c) => map_set c3_cmp (ce_grid c) (set_insert Z.compare i (match map_find c3_cmp (ce_grid c) R with Some s => s | None => [] end)) R) (enum (m_cells m)) [].
(** mesh3.cpp:613-621 *)
Definition cells_in_grid_cell (m : mesh3) (g : c3) : list Z :=
  fold_left (fun R '(i, c) => if c3_eqb (ce_grid c) g then set_insert Z.compare i R else R) (enum (m_cells m)) [].
(** cutcell.hpp:95-112; [sa f] = solid angle of face f seen from the point (external) *)
Definition solid_angle (sa : Z -> Qc) (c : list (Z * bool)) : Qc := fold_left (fun a '(f, s) => (a + (if s : bool then - (1) else 1) * sa f)%Qc) c 0%Qc.
Definition contains (sa : Z -> Qc) (c : list (Z * bool)) : bool := qltb qhalf (solid_angle sa c).
(** mesh3.cpp:622-650 *)
Definition get_cell_index3 (sa : q3 -> Z -> Qc) (m : mesh3) (p : q3) : Z :=
  let e := get_cell_index (cshape m) (m_cubes m) (to_local m p) in
  if e =? -1 then
    match find (fun i => match nth_error (m_cells m) (Z.to_nat i) with Some c => contains (sa p) (ce_faces c) | None => false end) (cells_in_grid_cell m (to_coord m p)) with
    | Some i => i | None => -1 end
  else e.
(** mesh3.cpp:50-58 *)
Definition is_cut_cell (m : mesh3) (i : Z) : bool := (0 <=? i) && (i <? num_cut_cells m).
Definition is_exterior_cell (m : mesh3) (i : Z) : bool := (0 <=? i) && (num_cut_cells m <=? i).

(** ** active cells *)
Definition face_loops (m : mesh3) : list (list (list Z)) := map cf_loops (m_faces m).
Definition Vcol (m : mesh3) (i : Z) : q3 := nth (Z.to_nat i) (vertices3 m) vzero.
(** mesh3.cpp:520-529, active_cells; None = NaN or an access out of range *)
Definition centroid_cells (m : mesh3) : option (list c3) :=
  sequence (map (fun c => option_map (to_coord m) (cell_centroid (Vcol m) (face_loops m) (ce_faces c))) (m_cells m)).
Definition active_cells (m : mesh3) : option (list c3) := option_map (set_of_list c3_cmp) (centroid_cells m).
(** mesh3.cpp:530-532 *)
Definition active_cell_count (m : mesh3) : option Z := option_map (fun s => Z.of_nat (length s)) (active_cells m).
(** mesh3.cpp:510-519; mask(c) = false for a c outside the grid is undefined (None) *)
Definition in_c3 (s c : c3) : bool := let '(x, y, z) := c in let '(n, k, l) := s in (0 <=? x) && (x <? n) && (0 <=? y) && (y <? k) && (0 <=? z) && (z <? l).
Definition active_cell_mask (m : mesh3) : option (c3 -> bool) :=
  match centroid_cells m with
  | None => None
  | Some l => if forallb (in_c3 (cshape m)) l then Some (fold_left (fun g c x => if c3_eqb x c then false else g x) l (fun _ => true)) else None
  end.

(** ** regions *)
Fixpoint zput (A : Type) (l : list A) (i : nat) (x : A) : list A :=
  match l, i with [], _ => [] | _ :: t, O => x :: t | a :: t, S k => a :: zput t k x end.
(** mesh3.cpp:60-62 *)
Definition is_mesh_face (m : mesh3) (i : Z) : bool := match map_find Z.compare i (m_bary m) with Some _ => true | None => false end.
(** mesh3.cpp:173-189, regions(true) *)
Definition sign_region (m : mesh3) (c : cut_cell) : Z :=
  let '(p, n) := fold_left (fun '(p, n) '(f, b) => if is_mesh_face m f then if b : bool then (p + 1, n) else (p, n + 1) else (p, n)) (ce_faces c) (0, 0) in
  if 0 <? p + n then if n <? p then 2 else 3 else 1.
Definition regions_sign (m : mesh3) : list Z := map (sign_region m) (m_cells m) ++ repeat 1 (length (m_cubes m)).
(** mesh3.cpp:189-196, regions(false); ret[c] = r out of range is undefined (None) *)
Definition regions3 (m : mesh3) : option (list Z) :=
  fold_left (fun acc '(c, r) => match acc with
      | Some l => if (0 <=? c) && (c <? cell_size m) then Some (zput l (Z.to_nat c) r) else None
      | None => None end) (m_regions m) (Some (map ce_region (m_cells m) ++ repeat 1 (length (m_cubes m)))).
Definition is_mesh_id (f : cut_face) : bool := match cf_id f with MeshFace _ => true | AxialFace _ _ => false end.
Definition sides := (list Z * list Z)%type.
Definition side_add (s : bool) (f : Z) (p : sides) : sides := if s then (set_insert Z.compare f (fst p), snd p) else (fst p, set_insert Z.compare f (snd p)).
Definition side_get (s : bool) (p : sides) : list Z := if s then fst p else snd p.
(** mesh3.cpp:200-216; None = no cell at all (max_element of an empty range), a face index or a label out of range *)
Definition face_regions (m : mesh3) : option (list sides) :=
  match regions3 m with
  | None | Some [] => None
  | Some (r0 :: R) =>
      fold_left (fun acc '(ci, c) => fold_left (fun acc '(fi, s) =>
        match acc, (if fi <? 0 then None else nth_error (m_faces m) (Z.to_nat fi)) with
        | Some ret, Some f =>
            let reg := nth (Z.to_nat ci) (r0 :: R) 0 in
            if (reg <? 0) then None
            else if is_mesh_id f then Some (zput ret (Z.to_nat reg) (side_add s fi (nth (Z.to_nat reg) ret ([], [])))) else Some ret
        | _, _ => None
        end) (ce_faces c) acc) (enum (m_cells m))
      (let k := fold_left Z.max R r0 + 1 in if k <? 0 then None else Some (repeat (([], []) : sides) (Z.to_nat k)))
  end.
Definition face_id_of (m : mesh3) (f : Z) : option Z := match nth_error (m_faces m) (Z.to_nat f) with Some g => match cf_id g with MeshFace t => Some t | _ => None end | None => None end.
(** mesh3.cpp:217-229 *)
Definition orig_side (m : mesh3) (fs : list Z) : list Z := fold_left (fun s f => match face_id_of m f with Some t => set_insert Z.compare t s | None => s end) fs [].
Definition orig_face_regions (m : mesh3) : option (list sides) := option_map (map (fun p : sides => (orig_side m (fst p), orig_side m (snd p)))) (face_regions m).

(** ** region centroids: mesh3.cpp:231-275; input triangles by their corner positions *)
Definition tri3 := (q3 * q3 * q3)%type.
Definition det3 (t : tri3) : Qc := let '(a, b, c) := t in dot a (cross b c).
Definition tri_sum (t : tri3) : q3 := let '(a, b, c) := t in vadd a (vadd b c).
(** :238-247 *)
Definition tri_moment (t : tri3) : q3 := vscale (det3 t) (tri_sum t).
Definition eps8 : Qc := Q2Qc (1 # 100000000).
(** :253-266, one region: the accumulated moment and volume before division *)
Definition acc_moment (T : Z -> tri3) (p : sides) : q3 :=
  fold_left (fun c f => vadd c (tri_moment (T f))) (fst p) (fold_left (fun c f => vadd c (vneg (tri_moment (T f)))) (snd p) vzero).
Definition acc_vol (T : Z -> tri3) (p : sides) : Qc :=
  fold_left (fun v f => (v + det3 (T f))%Qc) (fst p) (fold_left (fun v f => (v - det3 (T f))%Qc) (snd p) 0%Qc).
(** :268 *)
Definition sel_vol (v : Qc) : Qc := if qltb eps8 (qabs v) then v else 1%Qc.
(** :271-276; bbox() of the grid: origin and origin + dx * (vertex_shape - 1) (external).  gc uses bb.min() twice. *)
Definition bb_sizes (m : mesh3) : q3 := let '(x, y, z) := cshape m in vmul (m_dx m) (Z2Qc x, Z2Qc y, Z2Qc z).
Definition prod3 (p : q3) : Qc := let '(x, y, z) := p in (x * y * z)%Qc.
Definition region_centroid (m : mesh3) (T : Z -> tri3) (r : nat) (p : sides) : q3 :=
  let c := acc_moment T p in
  let v := sel_vol (acc_vol T p) in
  let gv := prod3 (bb_sizes m) in
  let c' := if (r =? 0)%nat then vadd c (vscale gv (vscale (Q2Qc (3 # 2)) (vadd (m_origin m) (m_origin m)))) else c in
  let v' := if (r =? 0)%nat then (v + gv)%Qc else v in
  vscale (/ (Z2Qc 3 * v'))%Qc c'.
Definition orig_tri (m : mesh3) (f : Z) : tri3 :=
  let '(a, b, c) := nth (Z.to_nat f) (m_origF m) (0, 0, 0) in
  let v i := nth (Z.to_nat i) (m_origV m) vzero in (v a, v b, v c).
Definition region_centroids (m : mesh3) : option (list q3) :=
  option_map (fun R => map (fun '(r, p) => region_centroid m (orig_tri m) r p) (combine (seq 0 (length R)) R)) (orig_face_regions m).

(** ** triangulated cells *)
Definition swap01 (t : c3) : c3 := let '(a, b, c) := t in (b, a, c).
Definition orient (b : bool) (F : list c3) : list c3 := if b then F else map swap01 F.
Definition shift_tri (o : Z) (t : c3) : c3 := let '(a, b, c) := t in (a + o, b + o, c + o).
(** mesh3.cpp:534-577, a cut cell whose faces have cached triangulations (None otherwise: triangulate_face uses external code) *)
Definition is_flap (m : mesh3) (f : Z) : bool := existsb (Z.eqb f) (m_folded m).
Definition cell_part (m : mesh3) (use_base use_flap : bool) (fb : Z * bool) : option (list q3 * list c3) :=
  if (use_flap && is_flap m (fst fb)) || (use_base && negb (is_flap m (fst fb))) then
    match (if fst fb <? 0 then None else nth_error (m_faces m) (Z.to_nat (fst fb))) with
    | Some f => match cf_tri f with
                | Some t => Some (match cf_triV f with Some v => v | None => [] end, orient (snd fb) t)
                | None => None end
    | None => None end
  else Some ([], []).
Definition triangulated_cell (m : mesh3) (c : list (Z * bool)) (use_base use_flap : bool) : option (list q3 * list c3) :=
  option_map (fun ps => (concat (map fst ps), concat (map snd ps))) (sequence (map (cell_part m use_base use_flap) c)).
(** cutcell.cpp:87-106: faces without a triangulation are skipped with an error message *)
Definition cell_triangulated (fs : Z -> cut_face) (c : list (Z * bool)) : list c3 :=
  flat_map (fun '(f, b) => match cf_tri (fs f) with Some t => orient b t | None => [] end) c.
(** cutcell.cpp:107-138 *)
Definition triangulated_with_additional_vertices (fs : Z -> cut_face) (c : list (Z * bool)) (off : Z) : list q3 * list c3 :=
  fst (fold_left (fun '((V, T), o) '(f, b) =>
     match cf_tri (fs f) with
     | Some t => match cf_triV (fs f) with
                 | Some v => ((V ++ v, T ++ orient b (map (shift_tri o) t)), o + Z.of_nat (length v))
                 | None => ((V, T ++ orient b t), o)
                 end
     | None => ((V, T), o)
     end) c (([], []), off)).
(** cutcell.hpp:86-93, get_mesh before compactify: no orientation *)
Definition get_mesh (fs : Z -> cut_face) (c : list (Z * bool)) : list c3 := flat_map (fun '(f, _) => match cf_tri (fs f) with Some t => t | None => [] end) c.
(** cutcell.hpp:69-84, centroid *)
Definition cutcell_centroid (V : Z -> q3) (faces : list (list (list Z))) (c : list (Z * bool)) : option q3 :=
  match fold_left (fun acc '(f, b) =>
     match acc, (match nth_error faces (Z.to_nat f) with Some ls => match brep_volume V ls, brep_centroid V ls with Some x, Some y => Some (x, y) | _, _ => None end | None => None end) with
     | Some (v, mo), Some (x, y) => let s := (if b : bool then 1 else - (1))%Qc in Some ((v + s * x)%Qc, vadd mo (vscale s y))
     | _, _ => None end) c (Some (0%Qc, vzero)) with
  | Some (v, mo) => if qeqb v 0 then None else Some (vscale (/ v)%Qc mo)
  | None => None
  end.
