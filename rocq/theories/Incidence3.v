(** Incidence accessors and face centroids of a CutCellMesh<3>: src/mesh3.cpp:63-86, 113-144, 162-168, 488-521, src/cutcell.cpp:6-12,
    src/adaptive_grid.cpp:390-422.  Exact rationals instead of doubles; an access out of range is None. *)
From Verif Require Import Base Num CoordMask Vertex Grid SmallestEdge AdaptiveGrid Mesh Sparse Mesh2 Interp Boundary3 Volume Queries3.
Set Implicit Arguments.
Local Open Scope Z_scope.

(** ** incidence *)
(** mesh3.cpp:126-133 and 138-141: the keys of the cell collected in a std::set *)
Definition faces_of_cell (c : cut_cell) : list Z := fold_left (fun S '(f, _) => set_insert Z.compare f S) (ce_faces c) [].
(** mesh3.cpp:124-135, cell_faces() *)
Definition cell_faces (m : mesh3) : list (list Z) := map faces_of_cell (m_cells m).
(** mesh3.cpp:136-144, cell_faces(index); at() throws out of range (None); a negative int becomes a huge size_t *)
Definition cell_faces_at (m : mesh3) (i : Z) : option (list Z) := if i <? 0 then None else option_map faces_of_cell (nth_error (m_cells m) (Z.to_nat i)).
(** mesh3.cpp:162-168, boundary_faces(); ret[m] = true out of range is undefined (None) *)
Definition boundary_faces (m : mesh3) : option (list bool) :=
  fold_left (fun acc '(k, _) => match acc with Some l => if (0 <=? k) && (k <? Z.of_nat (length l)) then Some (zput l (Z.to_nat k) true) else None | None => None end)
    (m_bary m) (Some (repeat false (length (m_faces m)))).
(** cutcell.cpp:6-12, CutCell::boundary_triplets() *)
Definition cutcell_triplets (c : cut_cell) : list triplet := map (fun '(f, o) => (f, ce_index c, if o : bool then 1%Qc else (- (1))%Qc)) (ce_faces c).
(** mesh3.cpp:488-521, face_boundary(): the matrix is sized and nothing is put into it (the code filling it is commented out) *)
Definition face_boundary (m : mesh3) : list triplet := [].
(** mesh3.cpp:113-120, local_grid_cell_index: both branches return -1; :121-123, world_grid_cell_index *)
Definition valid_cell (s c : c3) : bool := in_c3 s c.
Definition local_grid_cell_index (m : mesh3) (p : q3) : Z := if negb (valid_cell (cshape m) (to_coord m p)) then -1 else -1.
Definition world_grid_cell_index (m : mesh3) (p : q3) : Z := local_grid_cell_index m (to_local m p).

(** ** face centroids *)
(** mesh3.cpp:71-82: the mean of the vertices of all loops, zero without vertices *)
Definition face_centroid (m : mesh3) (f : cut_face) : option q3 :=
  match sequence (map (fun j => if j <? 0 then None else nth_error (vertices3 m) (Z.to_nat j)) (concat (cf_loops f))) with
  | None => None
  | Some ps => let v := fold_left vadd ps vzero in Some (match ps with [] => v | _ => vscale (/ Z2Qc (Z.of_nat (length ps)))%Qc v end)
  end.
(** adaptive_grid.cpp:411-418: centre of a square of width w at corner c normal to axis k *)
Definition square_center (c : c3) (k : nat) (w : Z) : q3 :=
  let e d := if Nat.eqb d k then 0%Qc else (Z2Qc w * qhalf)%Qc in
  let '(x, y, z) := c in (Z2Qc x + e 0%nat, Z2Qc y + e 1%nat, Z2Qc z + e 2%nat)%Qc.
(** adaptive_grid.cpp:392-420, one column: zero (in world coordinates) without a valid dual edge; cell() throws on a missing id (None) *)
Definition boundary_centroid (m : mesh3) (f : aface) : option q3 :=
  if is_valid_edge (m_cubes m) (af_dual f) then
    match cell_at (m_cubes m) (fst (af_dual f)), cell_at (m_cubes m) (snd (af_dual f)) with
    | Some ca, Some cb => Some (to_world m (square_center (proj_corner ca cb) (proj_axis ca cb) (Z.min (snd ca) (snd cb))))
    | _, _ => None
    end
  else Some vzero.
(** mesh3.cpp:63-86 *)
Definition face_centroids (m : mesh3) : option (list q3) :=
  match sequence (map (face_centroid m) (m_faces m)), sequence (map (boundary_centroid m) (m_afaces m)) with
  | Some a, Some b => Some (a ++ b)
  | _, _ => None
  end.
