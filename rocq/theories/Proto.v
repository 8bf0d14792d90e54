(** Model of the protobuf conversions: src/proto_util.cpp, src/cutcell.cpp:63-86, src/cutface3.cpp:195-253, src/mesh3.cpp:284-406.
    A message is its in-memory content: repeated fields are lists in order; a map field is a list of key/value pairs whose iteration order is
    unspecified (the theorems quantify over every permutation); sub-messages and oneofs have presence.  int -> int64 -> int is the identity on Z.
    The wire format (ParseFromIstream / SerializeToOstream) is protobuf's. *)
From Coq Require Import Permutation.
From Verif Require Import Base Num CoordMask Vertex Grid SmallestEdge AdaptiveGrid Mesh.
Set Implicit Arguments.
Local Open Scope Z_scope.

(** message Vertex, proto_util.cpp:66-87 *)
Record p_vertex := mkPV { pv_i : Z; pv_j : Z; pv_k : Z; pv_u : Qc; pv_v : Qc; pv_w : Qc; pv_ci : bool; pv_cj : bool; pv_ck : bool }.
Definition ser_vertex (a : vertex) : p_vertex :=
  mkPV (nth 0 (v_coord a) 0) (nth 1 (v_coord a) 0) (nth 2 (v_coord a) 0)
       (nth 0 (v_quot a) 0%Qc) (nth 1 (v_quot a) 0%Qc) (nth 2 (v_quot a) 0%Qc)
       (nth 0 (v_clamped a) false) (nth 1 (v_clamped a) false) (nth 2 (v_clamped a) false).
Definition de_vertex (p : p_vertex) : vertex := mkVertex [pv_i p; pv_j p; pv_k p] [pv_u p; pv_v p; pv_w p] [pv_ci p; pv_cj p; pv_ck p].

(** message CutCell, cutcell.cpp:63-86 (line numbers of the file: 63-74 serialize, 75-86 from_proto) *)
Record p_cell := mkPC { pc_id : Z; pc_region : Z; pc_entries : list (Z * bool); pc_grid : c3 }.
Definition ser_cell (c : cut_cell) : p_cell := mkPC (ce_index c) (ce_region c) (ce_faces c) (ce_grid c).
(** c[a] = b for each entry *)
Definition de_cell (p : p_cell) : cut_cell :=
  mkCutCell (fold_left (fun m '(a, b) => map_set Z.compare a b m) (pc_entries p) []) (pc_id p) (pc_region p) (pc_grid p).

(** message CutFace, cutface3.cpp:195-253; oneof id *)
Record p_face := mkPF { pf_curves : list (list Z); pf_normal : q3; pf_id : face_id; pf_tri : list c3; pf_fb : option (Z * bool) }.
Definition ser_face (f : cut_face) : p_face :=
  mkPF (cf_loops f) (cf_N f) (cf_id f) (match cf_tri f with Some t => t | None => [] end) (cf_ext f).
(** mask is default constructed (every axis unbound) here *)
Definition de_face (p : p_face) : cut_face :=
  mkCutFace (mask_reset 3) (fold_left (fun s c => set_insert zlex c s) (pf_curves p) []) (pf_id p) (pf_normal p) (pf_fb p)
    (match pf_tri p with [] => None | t => Some t end) None.

(** message CutMeshProto (fields written by mesh3.cpp:284-333) *)
Record p_mesh := mkPM {
  pm_origin : q3; pm_dx : q3; pm_shape : c3; pm_vertices : list p_vertex; pm_faces : list p_face; pm_cells : list p_cell;
  pm_bary : list (Z * bary_face); pm_origV : list q3; pm_origF : list c3; pm_folded : list Z;
  pm_cubes : list (Z * cube_proto); pm_regions : list (Z * Z) }.
Definition serialize (m : mesh3) : p_mesh :=
  mkPM (m_origin m) (m_dx m) (m_vshape m) (map ser_vertex (m_verts m)) (map ser_face (m_faces m)) (map ser_cell (m_cells m))
    (m_bary m) (m_origV m) (m_origF m) (m_folded m) (map (fun '(i, c) => (i, cell_serialize c)) (m_cubes m)) (m_regions m).
Definition load_map (V : Type) (l : list (Z * V)) : list (Z * V) := fold_left (fun m '(a, b) => map_set Z.compare a b m) l [].
(** mesh3.cpp:375-379 *)
Fixpoint load_faces (vs : list Z) (V : list vertex) (ps : list p_face) : option (list cut_face) :=
  match ps with
  | [] => Some []
  | p :: t =>
      let f := de_face p in
      match update_mask vs V (cf_loops f), load_faces vs V t with
      | Some m, Some r => Some (mkCutFace m (cf_loops f) (cf_id f) (cf_N f) (cf_ext f) (cf_tri f) (cf_triV f) :: r)
      | _, _ => None
      end
  end.
(** mesh3.cpp:344-406; active mask: constructor default, constant true (mesh.hpp:62); cut edges: none *)
Definition from_proto (p : p_mesh) : option mesh3 :=
  let V := map de_vertex (pm_vertices p) in
  match load_faces (list3 (pm_shape p)) V (pm_faces p) with
  | None => None
  | Some fs =>
      let cubes := load_map (map (fun '(i, c) => (i, cell_from_proto c)) (pm_cubes p)) in
      Some (mkMesh (pm_origin p) (pm_dx p) (pm_shape p) V [] (fun _ => true) (pm_origV p) (pm_origF p) fs (map de_cell (pm_cells p))
              (fold_left (fun s i => set_insert Z.compare i s) (pm_folded p) []) (load_map (pm_bary p))
              cubes (make_faces (cell_shape_of (pm_shape p)) cubes) (load_map (pm_regions p)))
  end.

(** the order in which protobuf iterates its map fields is arbitrary *)
Definition map_reorder (p q : p_mesh) : Prop :=
  pm_origin q = pm_origin p /\ pm_dx q = pm_dx p /\ pm_shape q = pm_shape p /\ pm_vertices q = pm_vertices p /\ pm_faces q = pm_faces p /\
  pm_origV q = pm_origV p /\ pm_origF q = pm_origF p /\ pm_folded q = pm_folded p /\
  Forall2 (fun a b => pc_id b = pc_id a /\ pc_region b = pc_region a /\ pc_grid b = pc_grid a /\ Permutation (pc_entries a) (pc_entries b)) (pm_cells p) (pm_cells q) /\
  Permutation (pm_bary p) (pm_bary q) /\ Permutation (pm_cubes p) (pm_cubes q) /\ Permutation (pm_regions p) (pm_regions q).
