(** tools/cutmesh_to_obj.cpp: the surface written for a set of cells (write_obj, :8-95), the callers (:96-132) and main (:134-210).
    Exact rationals; mtao compactify and hstack (external) only drop unused vertices and join the triangle lists; None = an index outside a vector or matrix. *)
From Verif Require Import Base Num CoordMask Vertex Grid SmallestEdge AdaptiveGrid AdaptiveFactory Mesh Sparse Mesh2 Boundary3 Volume Queries3 Triangulate.
Set Implicit Arguments.
Local Open Scope Z_scope.

(** :15-20: a zero vector, 1 at the given indices, then setConstant(1) *)
Definition set_constant (A : Type) (c : A) (v : Z -> A) : Z -> A := fun _ => c.
Definition used_cells (indices : list Z) : Z -> Qc :=
  set_constant 1%Qc (fold_left (fun v i => fun j => if j =? i then 1%Qc else v j) indices (fun _ => 0%Qc)).
(** :12-46: std::map<int,bool>, in increasing order *)
Definition used_faces (m : mesh3) (indices : list Z) : option (list (Z * bool)) :=
  if forallb (fun i => (0 <=? i) && (i <? cell_size m)) indices then
    option_map (fun B => flat_map (fun i => let v := mulv B (used_cells indices) i in if qeqb v 0%Qc then [] else [(i, qltb 0%Qc v)]) (zseq (face_size m))) (boundary3 m true)
  else None.
(** :58-72 and 73-75: the triangles of one face; is_cut_face(i) is i < num_cut_faces (mesh3.cpp:48-50) *)
Definition face_triangles (X : externals) (m : mesh3) (i : Z) (flip : bool) : option (list c3) :=
  if i <? num_cut_faces m then
    match col (m_faces m) i with
    | None => None
    | Some f => option_map (orient (negb flip)) (match cf_tri f with Some F => Some F | None => option_map snd (triangulate X (vertices3 m) f false) end)
    end
  else
    option_map (fun f => map (fun '(a, b, c) => (index3 (m_vshape m) a, index3 (m_vshape m) b, index3 (m_vshape m) c)) (triangulated_face f flip))
      (col (m_afaces m) (i - num_cut_faces m)).
(** :55-77: the entries of Fs with the face each was made for *)
Definition obj_parts (X : externals) (m : mesh3) (indices : list Z) : option (list (Z * list c3)) :=
  match used_faces m indices with
  | None => None
  | Some U => sequence (map (fun '(i, flip) => option_map (pair i) (face_triangles X m i flip)) U)
  end.
(** :81-94: the "v" and "f" lines; V here still holds the vertices compactify drops, and indices start at 0 *)
Definition write_obj (X : externals) (m : mesh3) (indices : list Z) : option (list q3 * list c3) :=
  option_map (fun ps => (vertices3 m, flat_map snd ps)) (obj_parts X m indices).
(** :96-102 *)
Definition all_cells (m : mesh3) : list Z := zseq (cell_size m).
Definition write_obj_all (X : externals) (m : mesh3) : option (list q3 * list c3) := write_obj X m (all_cells m).
(** :104-113; [R] is ccm.regions(): one file per label *)
Definition region_indices (R : list Z) : list (Z * list Z) :=
  fold_left (fun M '(i, r) => map_set Z.compare r (set_insert Z.compare i (match map_find Z.compare r M with Some s => s | None => [] end)) M) (combine (zseq (Z.of_nat (length R))) R) [].
Definition write_obj_regions (X : externals) (m : mesh3) (R : list Z) : list (Z * option (list q3 * list c3)) :=
  map (fun '(r, s) => (r, write_obj X m s)) (region_indices R).
(** :124-132 (and 114-123): one file per cell *)
Definition write_obj_separate (X : externals) (m : mesh3) : list (Z * option (list q3 * list c3)) := map (fun i => (i, write_obj X m [i])) (all_cells m).
(** :134-181: triangulates, writes the cells outside the cut ones as exterior.obj and returns; the code after the return is not reached *)
Inductive obj_file := Exterior | Monolithic | OfRegion (r : Z) | OfCell (i : Z).
Record obj_options := mkOpts { write_regions : bool; write_monolithic : bool; write_separate : bool; cell_grid_ownership : bool }.
Definition obj_main (X : externals) (ord : list nat) (opts : obj_options) (m : mesh3) : option (list (obj_file * option (list q3 * list c3))) :=
  option_map (fun m' => [(Exterior, write_obj X m' (filter (fun i => num_cut_cells m' <=? i) (all_cells m')))]) (triangulate_faces X ord false m).
