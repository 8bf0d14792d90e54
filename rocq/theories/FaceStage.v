(** The face stage of CutCellGenerator<3> as one program, from the cut faces of the input mesh and the half-edge meshes of the slices to the mesh:
    bake_faces' numbering (src/construction/generator3_make_faces.cpp:34-75, 245-252), compute_faces without its last loop (:289-297; the loop is
    set_externals in BakeCells.v), compute_faces_vertex (:361-377), compute_faces_axis (:378-497), then bake_cells and generate (Gen3Whole.v).
    The pieces are those of Gen3.v and GenChecks.v.  Serial build (with TBB the three axes share face_size without synchronisation). *)
From Verif Require Import Base Num CoordMask Vertex Grid SmallestEdge AdaptiveGrid Mesh DisjointSet CellCollapser BakeCells Boundary3 Volume Hem Gen3 GenChecks Gen3Whole.
Set Implicit Arguments.
Local Open Scope Z_scope.

(** one entry of axis_hem_data[axis] with key coord: hem.cell_indices() before renumbering, and the slice with the faces under their original indices *)
Record plane := mkPlane { pl_axis : nat; pl_coord : Z; pl_ids : list Z; pl_slice : slice }.
(** generator3_make_faces.cpp:98, 245-252: the value of face_size when the plane is renumbered *)
Fixpoint offsets (face_size : Z) (planes : list plane) : option (list Z) :=
  match planes with
  | [] => Some []
  | p :: t => match max_coeff (shift_ids face_size (pl_ids p)) with None => None | Some m => option_map (cons face_size) (offsets (m + 1) t) end
  end.
(** the slice as compute_faces_axis sees it, after its indices have been shifted *)
Definition shifted (n : Z) (sl : slice) : slice :=
  mkSlice (map (fun '(i, vs) => (if 0 <=? i then i + n else -1, vs)) (sl_faces sl)) (fun i => sl_vols sl (i - n)) (sl_bes sl) (sl_shape sl) (sl_mask sl).
(** cutface.hpp:48 CutFaceBase(const CutMeshFace&, N): one loop, id = parent triangle (generator3_make_faces.cpp:369) *)
Definition piece_face (origN : Z -> q3) (f : mesh_cut_face) : cut_face := mkCutFace (mcf_mask f) [mcf_loop f] (MeshFace (mcf_parent f)) (origN (mcf_parent f)) None None None.
(** generator3_make_faces.cpp:411-412, 423-424, 491-495; the cross product of the two other unit vectors *)
Definition unit_at (a d : nat) : Qc := if Nat.eqb a d then 1%Qc else 0%Qc.
Definition axis_normal (idx : nat) : q3 :=
  let u k := (unit_at ((idx + k) mod 3) 0, unit_at ((idx + k) mod 3) 1, unit_at ((idx + k) mod 3) 2) in
  let '(a0, a1, a2) := u 1%nat in let '(b0, b1, b2) := u 2%nat in (a1 * b2 - a2 * b1, a2 * b0 - a0 * b2, a0 * b1 - a1 * b0)%Qc.
Definition slice_face (V : Z -> vertex) (idx : nat) (cidx : Z) (ls : list (list Z)) : cut_face :=
  mkCutFace (gen_face_masks 3 (fun i => v_mask (V i)) ls) ls (AxialFace (Z.of_nat idx) cidx) (axis_normal idx) None None None.
Definition plane_faces (V : Z -> vertex) (prim : nat -> list edge) (n : Z) (p : plane) : option (list (Z * cut_face)) :=
  let sl := shifted n (pl_slice p) in
  option_map (map (fun '(i, ls) => (i, slice_face V (pl_axis p) (pl_coord p) ls))) (faces_axis V (prim (pl_axis p)) (pl_axis p) sl (sl_faces sl)).
Definition q3_nth (v : q3) (i : nat) : Qc := let '(x, y, z) := v in match i with O => x | S O => y | _ => z end.
(** m_faces, mesh_face_indices, axis_face_indices *)
Definition compute_faces (V : Z -> vertex) (active : Z -> bool) (origN : Z -> q3) (cfs : list mesh_cut_face) (planes : list plane)
  : option (list (Z * cut_face) * list Z * list (list Z)) :=
  match offsets (Z.of_nat (length cfs)) planes with
  | None => None
  | Some ns =>
      let prim := axial_primal active (fun t i => q3_nth (origN t) i) cfs in
      let pieces := map (fun '(i, f) => (i, piece_face origN f)) (faces_vertex cfs) in
      match sequence (map (fun '(n, p) => plane_faces V prim n p) (combine ns planes)) with
      | None => None
      | Some fss =>
          let of_axis a := set_of_list Z.compare (flat_map (fun '(p, fs) => if Nat.eqb (pl_axis p) a then map fst fs else []) (combine planes fss)) in
          Some (collect_faces pieces fss, map fst pieces, [of_axis 0%nat; of_axis 1%nat; of_axis 2%nat])
      end
  end.
(** bake_faces, compute_faces, bake_cells and generate in a row; [bary i] is the barycentric face of piece i (generator3.cpp:70-82; get_face_bary is BaryMap.v) *)
Definition faces_to_mesh (lnk1 lnk2 : ds -> Z -> Z -> bool) (ord : edge -> list Z -> list Z) (level : option Z) (base : mesh3)
    (active : Z -> bool) (origN : Z -> q3) (bary : Z -> bary_face) (cfs : list mesh_cut_face) (planes : list plane) : option mesh3 :=
  match compute_faces (AV3 base) active origN cfs planes with
  | None => None
  | Some (fs, mi, ax) => generate3 lnk1 lnk2 ord level base fs (map (fun i => (i, bary i)) mi) ax
  end.
