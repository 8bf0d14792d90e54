(** Face areas, dual lengths, Hodge stars and the operators built from them in 3D (src/operators/volume3.cpp, src/operators/diffgeo3.cpp).
    Vectors are lists; an entry that the code leaves uninitialised is None.  The Euclidean norm of a vector (irrational in general) is the parameter [nrm]. *)
From Verif Require Import Base Num CoordMask Vertex Grid SmallestEdge AdaptiveGrid Mesh Sparse Mesh2 Boundary3 Interp Volume Queries3 Triangulate.
Set Implicit Arguments.
Local Open Scope Z_scope.

(** adaptive_grid.hpp:31, Cell::center *)
Definition acenter (b : acell) : q3 := let '((x, y, z), w) := b in let h := (Z2Qc w / Z2Qc 2)%Qc in (Z2Qc x + h, Z2Qc y + h, Z2Qc z + h)%Qc.
(** adaptive_grid.cpp:322-335: entries with an invalid dual edge are skipped, so they keep whatever the fresh vector held *)
Definition ag_dual_lengths (nrm : q3 -> Qc) (dx : q3) (cells : acells) (fs : list aface) : list (option Qc) :=
  map (fun f => option_map (fun '(a, b) => nrm (vmul dx (vsub (acenter a) (acenter b)))) (dual_edge_pair cells f)) fs.
(** volume3.cpp:77-92, one (face, sign) entry of a cut cell: the write DL(fidx) = v, if any.  None = faces()[fidx] out of range, or cell() of an id
    that is not a cell (m_cells.at throws) *)
Definition half3 : q3 := (qhalf, qhalf, qhalf).
Definition zvec (c : c3) : q3 := let '(x, y, z) := c in (Z2Qc x, Z2Qc y, Z2Qc z).
Definition dual_write (nrm : q3 -> Qc) (m : mesh3) (gc : c3) (fi : Z) : option (list (Z * Qc)) :=
  match col (m_faces m) fi with
  | None => None
  | Some f => match cf_ext f with
      | Some (cid, _) =>
          if 0 <=? cid then
            match cell_at (m_cubes m) (own_get (cshape m) (m_cubes m) cid) with
            | Some b => Some [(fi, nrm (vmul (m_dx m) (vsub (vsub (acenter b) half3) (zvec gc))))]
            | None => None end
          else Some []
      | None => Some [] end
  end.
Definition dual_writes (nrm : q3 -> Qc) (m : mesh3) : option (list (Z * Qc)) :=
  option_map (@concat _) (sequence (flat_map (fun c => map (fun fs => dual_write nrm m (ce_grid c) (fst fs)) (ce_faces c)) (m_cells m))).
(** volume3.cpp:93-98 *)
Definition axial_writes (m : mesh3) : list (Z * Qc) :=
  flat_map (fun '(i, f) => match cf_id f, cf_ext f with AxialFace a _, None => [(i, q3_at (m_dx m) (Z.to_nat a))] | _, _ => [] end) (enum (m_faces m)).
(** the entry after the writes in order; the vector starts at zero *)
Definition last_write (ws : list (Z * Qc)) (k : Z) : Qc := fold_left (fun acc '(i, v) => if i =? k then v else acc) ws 0%Qc.
(** volume3.cpp:72-102; the tail of length ADL.rows() overwrites the entries of the exterior faces *)
Definition dual_edge_lengths3 (nrm : q3 -> Qc) (m : mesh3) : option (list (option Qc)) :=
  option_map (fun ws => map (fun i => Some (last_write (ws ++ axial_writes m) i)) (zseq (num_cut_faces m)) ++ ag_dual_lengths nrm (m_dx m) (m_cubes m) (m_afaces m))
    (dual_writes nrm m).

(** volume3.cpp:46-53: sum of the signed areas of the loops in the coordinates (axis+1, axis+2); None = a vertex index out of range *)
Definition loop_area (P : list q2) (l : list Z) : option Qc := option_map shoelace (sequence (map (col P) l)).
Definition axial_area (m : mesh3) (a : Z) (f : cut_face) : option Qc :=
  option_map (fun l => fold_left Qcplus l 0%Qc) (sequence (map (loop_area (sub_V a (vertices3 m))) (cf_loops f))).
(** volume3.cpp:42: row i of face_barycentric_volume_matrix * trimesh_vols; [area j] = area of input triangle j (mtao::geometry::volumes, external) *)
Definition mesh_area (m : mesh3) (area : Z -> Qc) (i : Z) : Qc := mulv (face_bary_volumes (map (fun '(fid, b) => (fid, (bf_barys b, bf_parent b))) (m_bary m))) area i.
(** volume3.cpp:63-66 *)
Definition abs_if_negative (l : list (option Qc)) : list (option Qc) :=
  if existsb (fun x => match x with Some v => qltb v 0 | None => false end) l then map (option_map qabs) l else l.
(** minCoeff of an empty vector is undefined (None) *)
Definition checked (l : list (option Qc)) : option (list (option Qc)) := match l with [] => None | _ => Some (abs_if_negative l) end.
(** adaptive_grid.cpp:359-389 with mask_boundary = false *)
Definition ag_face_volumes (m : mesh3) : list (option Qc) := map (fun f => Some (face_volume (m_dx m) f)) (m_afaces m).
(** volume3.cpp:26-67, from_triangulation = false.  Without input triangles the vector is resized to the exterior faces only. *)
Definition face_volumes3 (area : Z -> Qc) (m : mesh3) : option (list (option Qc)) :=
  match m_origF m with
  | [] => checked (ag_face_volumes m)
  | _ => match sequence (map (fun '(i, f) => match cf_id f with AxialFace a _ => axial_area m a f | MeshFace _ => Some (mesh_area m area i) end) (enum (m_faces m))) with
         | Some l => checked (map Some l ++ ag_face_volumes m)
         | None => None end
  end.
(** volume3.cpp:29-37, from_triangulation = true; [tarea] = area of a triangle given by its corners (external); triangles are looked up in
    vertices(), also when the face has vertices of its own; a face without a triangulation leaves its entry uninitialised.  The value read by
    minCoeff is then arbitrary: taking absolute values does not change entries that are not negative. *)
Definition face_volumes3_tri (tarea : q3 * q3 * q3 -> Qc) (m : mesh3) : option (list (option Qc)) :=
  match sequence (map (fun f => match cf_tri f with
                       | Some T => option_map (fun ts => Some (fold_left (fun s t => s + tarea t)%Qc ts 0%Qc)) (sequence (map (tri_cols (vertices3 m)) T))
                       | None => Some None end) (m_faces m)) with
  | Some l => checked (l ++ ag_face_volumes m)
  | None => None end.

(** volume3.cpp:103-124; Eigen's coefficient-wise quotient of vectors of different sizes is an assertion failure (None) *)
Definition oratio (num den : option Qc) : option Qc :=
  match den with
  | Some d => if qltb cutoff d then match num with Some n => Some (n / d)%Qc | None => None end else Some 0%Qc
  | None => None end.
Definition hodge_dual2 (pv dv : list (option Qc)) : option (list (option Qc)) :=
  if (length pv =? length dv)%nat then Some (map (fun '(p, d) => oratio p d) (combine pv dv)) else None.
Definition hodge_primal2 (pv dv : list (option Qc)) : option (list (option Qc)) :=
  if (length pv =? length dv)%nat then Some (map (fun '(p, d) => oratio d p) (combine pv dv)) else None.
Definition dual_hodge2 (nrm : q3 -> Qc) (area : Z -> Qc) (m : mesh3) : option (list (option Qc)) :=
  match face_volumes3 area m, dual_edge_lengths3 nrm m with Some pv, Some dv => hodge_dual2 pv dv | _, _ => None end.
Definition primal_hodge2 (nrm : q3 -> Qc) (area : Z -> Qc) (m : mesh3) : option (list (option Qc)) :=
  match face_volumes3 area m, dual_edge_lengths3 nrm m with Some pv, Some dv => hodge_primal2 pv dv | _, _ => None end.
(** volume3.cpp:8-25, cell_volumes: cut cells, then AdaptiveGrid::cell_volumes (adaptive_grid.cpp:344-357), whose entry i - first id belongs to cell id i *)
Definition ag_cell_volumes (dx : q3) (cells : acells) : list (option Qc) :=
  match cells with
  | [] => []
  | (first, _) :: _ => map (fun k => fold_left (fun acc '(i, b) => if i - first =? k then Some (AdaptiveGrid.cell_volume (prod3 dx) b) else acc) cells None) (zseq (Z.of_nat (length cells)))
  end.
Definition cell_volumes3 (m : mesh3) : option (list (option Qc)) :=
  option_map (fun l => map Some l ++ ag_cell_volumes (m_dx m) (m_cubes m)) (cut_cell_volumes (Vcol m) (face_loops m) (map ce_faces (m_cells m))).
(** volume3.cpp:125-145 *)
Definition dual_hodge3 (m : mesh3) : option (list (option Qc)) := cell_volumes3 m.
Definition primal_hodge3 (m : mesh3) : option (list (option Qc)) := option_map (map (option_map (fun v => if qltb (qabs v) cutoff then 0 else 1 / v)%Qc)) (cell_volumes3 m).

(** ** diffgeo3.cpp: products of matrices with their sizes; a size mismatch is an assertion failure (None) *)
Record matrix := mkMat { mat_rows : Z; mat_cols : Z; mat_entries : list triplet }.
Definition transpose (A : matrix) : matrix := mkMat (mat_cols A) (mat_rows A) (map (fun '(r, c, v) => (c, r, v)) (mat_entries A)).
Definition mat_diag (A : matrix) (h : list Qc) : option matrix :=
  if mat_cols A =? Z.of_nat (length h) then Some (mkMat (mat_rows A) (mat_cols A) (map (fun '(r, c, v) => (r, c, (v * nth (Z.to_nat c) h 0)%Qc)) (mat_entries A))) else None.
Definition mat_mul (A B : matrix) : option matrix :=
  if mat_cols A =? mat_rows B then Some (mkMat (mat_rows A) (mat_cols B) (flat_map (fun '(r, c, v) => flat_map (fun '(r', c', v') => if c =? r' then [(r, c', (v * v')%Qc)] else []) (mat_entries B)) (mat_entries A))) else None.
Definition boundary_matrix (m : mesh3) : option matrix := option_map (mkMat (face_size m) (cell_size m)) (boundary3 m false).
(** diffgeo3.cpp:8-12; [h2] = the values of dual_hodge2 *)
Definition divergence3 (m : mesh3) (h2 : list Qc) : option matrix := match boundary_matrix m with Some B => mat_diag B h2 | None => None end.
(** diffgeo3.cpp:15-19 *)
Definition laplacian3 (m : mesh3) (h2 : list Qc) : option matrix :=
  match boundary_matrix m with Some B => match mat_diag B h2 with Some Bh => mat_mul Bh (transpose B) | None => None end | None => None end.
