(** Centroids and triangulations of 2D cut faces: src/mesh2.cpp:34-57, include/mandoline/cutface_impl.hpp:84-97, src/cutface2.cpp:7-175,
    include/mandoline/cutface_impl.hpp:6-29.  Exact rationals.
    mtao's curve_volume / curve_centroid are external: the signed area of a closed polygon, and its first moment divided by that area
    (None = division by zero, NaN in C++).  The Triangle library, ear clipping and the winding number are parameters as in Triangulate.v. *)
From Verif Require Import Base Num CoordMask Vertex Grid SmallestEdge AdaptiveGrid Mesh ExteriorGrid Sparse Volume Queries3 Interp Mesh2 Triangulate.
Set Implicit Arguments.
Local Open Scope Z_scope.
Local Notation q2 := (Qc * Qc)%type (only parsing).

(** mtao::geometry::curve_centroid(V, loop) (external): sum of (u x v)(u + v) / 6 over the sides, divided by the area *)
Definition side_moment (d : nat) (e : q2 * q2) : Qc :=
  let '(u, v) := e in ((fst u * snd v - fst v * snd u) * (axis2 u d + axis2 v d) / Z2Qc 6)%Qc.
Definition poly_moment (d : nat) (ps : list q2) : Qc := lsum (side_moment d) (combine ps (tl ps ++ firstn 1 ps)).
Definition curve_centroid (ps : list q2) : option q2 :=
  if qeqb (shoelace ps) 0 then None else Some ((poly_moment 0 ps / shoelace ps)%Qc, (poly_moment 1 ps / shoelace ps)%Qc).
(** cutface_impl.hpp:84-97: the loop over the face's curves, from the positions of their vertices *)
Definition centroid_step (acc : option (q2 * Qc)) (ps : list q2) : option (q2 * Qc) :=
  match acc, curve_centroid ps with
  | Some ((x, y), tot), Some (cx, cy) => let vol := shoelace ps in Some (((x + cx * vol)%Qc, (y + cy * vol)%Qc), (tot + vol)%Qc)
  | _, _ => None end.
Definition brep_centroid2 (loops : list (list q2)) : option q2 :=
  match fold_left centroid_step loops (Some ((0%Qc, 0%Qc), 0%Qc)) with
  | Some ((x, y), tot) => if qeqb tot 0 then None else Some ((x / tot)%Qc, (y / tot)%Qc)
  | None => None end.
(** the columns of V named by the loops of a face; None = column out of range *)
Definition face_points (m : mesh2) (f : cut_face2) : option (list (list q2)) := sequence (map (fun l => sequence (map (vertex2 m) l)) (f2_loops f)).
Definition face_centroid2 (m : mesh2) (f : cut_face2) : option q2 := match face_points m f with Some ls => brep_centroid2 ls | None => None end.
(** exterior_grid.cell_grid().vertex(c) (external): the grid of the cell centres, i.e. origin + dx (c + 1/2) *)
Definition cell_grid_vertex (m : mesh2) (c : coord) : q2 :=
  ((fst (m2_origin m) + fst (m2_dx m) * (Z2Qc (at0 c 0) + qhalf))%Qc, (snd (m2_origin m) + snd (m2_dx m) * (Z2Qc (at0 c 1) + qhalf))%Qc).
(** mesh2.cpp:34-47, column by column; None entry = the column is NaN (or read out of range) *)
Definition centroids2 (m : mesh2) : list (option q2) :=
  map (face_centroid2 m) (m2_faces m) ++ map (fun c => Some (cell_grid_vertex m c)) (cell_coords (m2_cells m) (m2_mask m)).
(** mesh2.cpp:49-57: every loop of every cell is a polygon of its own for ear clipping; None = cell() throws *)
Definition faces2_input (m : mesh2) : option (list (list Z)) :=
  option_map (@concat (list Z)) (sequence (map (cell2 m) (zseq (num_faces2 m)))).

(** cutface.hpp:42, 182-192: the identity of a 2D face; generator2.cpp:207-210 default constructs the face, so the variant holds its
    first alternative, the number 0 *)
Definition default_id : face_id := MeshFace 0.
(** cutface2.cpp:46-174 up to 158: the triangles kept, and the added vertices; None = undefined.
    Lines 162-166: newV3 is a 2-row matrix, resize(3, n) fails Eigen's assertion whatever n is, so the only ways to return are 58-60
    and 157-159. *)
Definition triangulate_triangle2 (X : externals) (V : list q2) (loops : list (list Z)) (do_add : bool) : option (list q2 * list c3) :=
  match used_vertices loops with
  | [] => Some ([], [])
  | _ =>
    match tri_input V loops with
    | None => None
    | Some (P, E) =>
      let '(nV, nF) := te_tri X P E in
      let more := do_add && (length P <? length nV)%nat in
      let newV2 := if more then nV else [] in
      let added := more || existsb (fun f => match map_find Z.compare f (unreindexer loops) with Some _ => false | None => true end) (tri_entries nF) in
      let F := if added then nF else map (tri_map (map_at (unreindexer loops))) nF in
      match sequence (map (tri_bary (if added then newV2 else V)) F) with
      | None => None
      | Some _ => if added && negb do_add then Some ([], []) else None
      end
    end
  end.
(** cutface2.cpp:19-30, 36-43 *)
Definition triangulate2 (X : externals) (V : list q2) (id : face_id) (loops : list (list Z)) (add : bool) : option (list q2 * list c3) :=
  match id with
  | MeshFace _ => option_map (pair []) (triangulate_fan loops)
  | AxialFace _ _ => match loops with [l] => Some ([], te_ear X V [l]) | _ => triangulate_triangle2 X V loops add end
  end.
(** cutface2.cpp:7-18: what is cached; the declared overload taking three matrices (cutface.hpp:210) has no definition *)
Definition cache_triangulation2 (old : option (list q2) * option (list c3)) (VF : list q2 * list c3) : option (list q2) * option (list c3) :=
  (keep_new (fst old) (fst VF), keep_new (snd old) (snd VF)).
