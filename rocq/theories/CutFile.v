(** Model of write_cutmesh2_plcurve (src/tools/plcurve_io.cpp:149-231), the writer behind tools/boundary_curves_to_cutmesh2.cpp.
    A file is a list of lines of tokens, as in PlCurve.v (the reader splits at commas and blanks, so ", " and " " are the same separator). *)
From Verif Require Import Base Num CoordMask Vertex Grid SmallestEdge AdaptiveGrid Mesh ExteriorGrid Sparse Mesh2 PlCurve.
Set Implicit Arguments.
Local Open Scope Z_scope.

(** mesh_impl.hpp:61-64: StaggeredGrid::vertices() next to the world positions of the cut vertices *)
Definition vertices2 (m : mesh2) : list q2 := map (fun c => world m (vertex_of_coord c)) (all_coords (vshape2 m)) ++ map (world m) (m2_verts m).
(** vector::at / Eigen column access with an int: None = out of range *)
Definition zat (A : Type) (l : list A) (i : Z) : option A := if i <? 0 then None else nth_error l (Z.to_nat i).
Definition all_some (A : Type) (l : list (option A)) : option (list A) :=
  fold_right (fun x acc => match x, acc with Some a, Some r => Some (a :: r) | _, _ => None end) (Some []) l.
(** :160: inputE has columns and the largest entry of its two lower rows is not negative *)
Definition use_bc (E : list edge4) : bool := existsb (fun '(_, _, l, r) => (0 <=? l) || (0 <=? r)) E.
(** :167-179: the two last columns of a cut edge's row.  [ts i] is mesh_cut_edges().at(i).ts; None = at() throws or a column of inputE out of range *)
Definition edge_sides (E : list edge4) (ts : Z -> option (Qc * Qc)) (i : Z) (e : cut_edge2) : option (Z * Z) :=
  match e2_id e with
  | MeshEdge k =>
      match ts i with
      | None => None
      | Some (t0, t1) =>
          if use_bc E then match zat E k with None => None | Some (_, _, l, r) => Some (if qltb t1 t0 then (r, l) else (l, r)) end
          else Some (-1, -1)
      end
  | AxialEdge _ _ => Some (-1, -1)
  end.
(** :165-180: what follows the index in the row of a cut edge *)
Definition cut_edge_cols (E : list edge4) (ts : Z -> option (Qc * Qc)) (ie : Z * cut_edge2) : option (list Z) :=
  match edge_sides E ts (fst ie) (snd ie) with Some (l, r) => Some [fst (e2_ix (snd ie)); snd (e2_ix (snd ie)); l; r] | None => None end.
(** :187-202: endpoints of an exterior facet; None = the "File a bug report" branch, which goes on with an uninitialised corner, or at() throws *)
Definition facet_ends (m : mesh2) (f : nat * edge) : option (Z * Z) :=
  let '(axis, (a, b)) := f in
  let cc := cell_coords (m2_cells m) (m2_mask m) in
  match (if 0 <=? b then zat cc b else if 0 <=? a then option_map (fun c => upd c axis (at0 c axis + 1)) (zat cc a) else None) with
  | Some corner => Some (ravel (vshape2 m) corner, ravel (vshape2 m) (upd corner (1 - axis) (at0 corner (1 - axis) + 1)))
  | None => None
  end.
(** :204-209 *)
Definition facet_cols (m : mesh2) (E : list edge4) (f : nat * edge) : option (list Z) :=
  match facet_ends m f with Some (u, v) => Some (u :: v :: if use_bc E then [-1; -1] else []) | None => None end.
(** :165-211: all edge rows without their index; row i of the block is numbered i (idx, then idx + offset) *)
Definition edge_cols (m : mesh2) (E : list edge4) (ts : Z -> option (Qc * Qc)) : option (list (list Z)) :=
  all_some (map (cut_edge_cols E ts) (enum (m2_edges m)) ++ map (facet_cols m E) (facets (m2_cells m) (m2_mask m))).
(** :216-223: one row per loop of a cut face *)
Definition cut_face_rows (idx : Z) (f : cut_face2) : list (list Z) :=
  map (fun l => idx :: Z.of_nat (length l) :: l ++ [f2_region f]) (f2_loops f).
(** :228-241: the corners of exterior cell i; region(i) is at() on the stored regions *)
Definition ext_cell_row (m : mesh2) (i : Z) : option (list Z) :=
  match zat (cell_coords (m2_cells m) (m2_mask m)) i, zat (m2_ext_regions m) i with
  | Some c, Some r =>
      let v := ravel (vshape2 m) in
      let c1 := upd c 1 (at0 c 1 + 1) in
      let c2 := upd c1 0 (at0 c1 0 + 1) in
      let c3 := upd c2 1 (at0 c2 1 - 1) in
      Some [num_cutfaces m + i; 4; v c; v c1; v c2; v c3; r]
  | _, _ => None
  end.
Definition element_rows (m : mesh2) : option (list (list Z)) :=
  option_map (fun r => flat_map (fun '(i, f) => cut_face_rows i f) (enum (m2_faces m)) ++ r)
    (all_some (map (ext_cell_row m) (zseq (ext_cells m)))).
Section W.
  Variable tok : Type.
  Variable fm : numfmt tok.
  Variable kw_elements : tok.
  (** :149-231: the vertex and edge blocks have the layout of write_plcurve (vrow/erow of PlCurve.v), followed by the element block *)
  Definition write_cutmesh2 (m : mesh2) (E : list edge4) (ts : Z -> option (Qc * Qc)) : option (list (list tok)) :=
    match edge_cols m E ts, element_rows m with
    | Some ec, Some el => Some (write_plcurve fm (vertices2 m) ec ++ [[]; [kw_elements]] ++ map (map (put_int fm)) el)
    | _, _ => None
    end.
End W.
