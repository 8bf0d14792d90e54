(** Model of three windows and a tool around a stored mesh: examples/viewer/cutmesh_viewer.cpp:27-55, 86-87, 141-152 (viewer), examples/point_chaser/main.cpp:28-46, 73, 90-110 (point chaser),
    examples/slicer/main.cpp:48-60, 114, 126-138 (slicer) and examples/extract_original_mesh/main.cpp:9-33.
    What mtao's compactify makes of the triangles of a face or a cell (CutCellMesh<3>::compact_triangulated_face / _cell) and what the slicer makes of a plane are arguments; a buffer that was never set is None.
    Drawables, colours and wireframes are left out. *)
From Verif Require Import Base Num CoordMask Vertex Grid SmallestEdge AdaptiveGrid Mesh Sparse Mesh2 Boundary3 Queries3.
Set Implicit Arguments.
Local Open Scope Z_scope.

Definition tris := (list q3 * list c3)%type.
(** std::clamp(v, 0, n - 1) *)
Definition clamp0 (v n : Z) : Z := if v <? 0 then 0 else if n - 1 <? v then n - 1 else v.

(** ** cutmesh_viewer.cpp *)
Record vst := mkV { v_cell : Z; v_face : Z; v_cbuf : option tris; v_fbuf : option tris }.
(** the sliders: a drag, or a number typed after Ctrl+click, which ImGui does not restrict to the range *)
Inductive vevent := VFace (i : Z) | VCell (i : Z).
Section Viewer.
  Variables (face_of cell_of : Z -> tris) (m : mesh3).
  (** cutmesh_viewer.cpp:34-43, update_face *)
  Definition update_face (s : vst) : vst :=
    match m_faces m with
    | [] => s
    | _ => let i := clamp0 (v_face s) (Z.of_nat (length (m_faces m))) in mkV (v_cell s) i (v_cbuf s) (Some (face_of i))
    end.
  (** cutmesh_viewer.cpp:45-55 and point_chaser/main.cpp:36-46, update_cell *)
  Definition update_cell (s : vst) : vst :=
    match m_cells m with
    | [] => s
    | _ => let i := clamp0 (v_cell s) (cell_size m) in mkV i (v_face s) (Some (cell_of i)) (v_fbuf s)
    end.
  (** cutmesh_viewer.cpp:27-28, 86-87 *)
  Definition vstart : vst := update_face (update_cell (mkV 0 0 None None)).
  (** cutmesh_viewer.cpp:141-152: SliderInt reports whether the value has changed *)
  Definition vstep (s : vst) (e : vevent) : vst :=
    match e with
    | VFace i => if i =? v_face s then s else update_face (mkV (v_cell s) i (v_cbuf s) (v_fbuf s))
    | VCell i => if i =? v_cell s then s else update_cell (mkV i (v_face s) (v_cbuf s) (v_fbuf s))
    end.
  Definition vrun (h : list vevent) : vst := fold_left vstep h vstart.

  (** ** point_chaser/main.cpp; [sa] = Queries3's solid angles *)
  Variable sa : q3 -> Z -> Qc.
  Inductive cevent := CPoint (p : q3) | CCell (i : Z).
  (** :28-29, 73 *)
  Definition cstart : vst := update_cell (mkV 0 0 None None).
  (** :90-110 *)
  Definition cstep (s : vst) (e : cevent) : vst :=
    match e with
    | CPoint p => update_cell (mkV (get_cell_index3 sa m p) (v_face s) (v_cbuf s) (v_fbuf s))
    | CCell i => if i =? v_cell s then s else update_cell (mkV i (v_face s) (v_cbuf s) (v_fbuf s))
    end.
  Definition crun (h : list cevent) : vst := fold_left cstep h cstart.
End Viewer.

(** ** slicer/main.cpp *)
Record sst := mkS { s_org : q3; s_dir : q3; s_VF : tris; s_buf : option tris; s_file : option tris }.
Inductive sevent := SX (x : Qc) | SY (y : Qc) | SZ (z : Qc) | SDir (d : q3) | SSave.
Section Slicer.
  Variable slice_of : q3 -> q3 -> tris.
  (** :52-60 *)
  Definition update_slice (s : sst) : sst :=
    let VF := slice_of (s_org s) (s_dir s) in
    mkS (s_org s) (s_dir s) VF (match snd VF with [] => s_buf s | _ => Some VF end) (s_file s).
  (** :48, 114; [input] = the mesh read and centred, held in V and F *)
  Definition sstart (input : tris) : sst := update_slice (mkS (0, 0, 0)%Qc (0, 0, 1)%Qc input None None).
  Definition with_plane (s : sst) (o d : q3) : sst := mkS o d (s_VF s) (s_buf s) (s_file s).
  (** :126-138 *)
  Definition sstep (s : sst) (e : sevent) : sst :=
    match e with
    | SX x => update_slice (with_plane s (x, snd (fst (s_org s)), snd (s_org s)) (s_dir s))
    | SY y => update_slice (with_plane s (fst (fst (s_org s)), y, snd (s_org s)) (s_dir s))
    | SZ z => update_slice (with_plane s (fst (s_org s), z) (s_dir s))
    | SDir d => update_slice (with_plane s (s_org s) d)
    | SSave => let s' := update_slice s in mkS (s_org s') (s_dir s') (s_VF s') (s_buf s') (Some (s_VF s'))
    end.
  Definition srun (input : tris) (h : list sevent) : sst := fold_left sstep h (sstart input).
End Slicer.

(** ** extract_original_mesh/main.cpp *)
(** a line of the file: "v x y z" or "f a b c" *)
Inductive oline := LV (p : q3) | LF (t : c3).
(** :25-33; the numbers are kept as they are, printing them to six digits is left out *)
Definition extract_lines (m : mesh3) : list oline := map LV (m_origV m) ++ map (fun '(a, b, c) => LF (a + 1, b + 1, c + 1)) (m_origF m).
(** :9-33: exit status and the file written, by name; [load] = CutCellMesh<3>::from_file *)
Definition extract_main (Name : Type) (load : Name -> mesh3) (args : list Name) : Z * option (Name * list oline) :=
  match args with
  | [] => (0, None)
  | [_] => (0, None)
  | i :: o :: _ => (0, Some (o, extract_lines (load i)))
  end.
