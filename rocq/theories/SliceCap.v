(** Model of the second half of SliceGenerator::slice (src/tools/planar_slicer.cpp:72-171) and of CutData::cut_vertices (cutdata_impl.hpp:319-345): the vertex
    table, the edges in the cutting plane, the cap and the result before mtao's compactify.  Builds on Slicer.v, Crossings.v and Triangulate.v.
    mtao's half-edge mesh (cells and signed areas of the plane's edges) is the argument [hem]; the triangulation libraries are Triangulate.externals. *)
From Verif Require Import Base Num CoordMask Vertex Grid SmallestEdge AdaptiveGrid Mesh Sparse Volume Queries3 Triangulate Slicer.
Set Implicit Arguments.
Local Open Scope Z_scope.

(** :20 the grid of the slicer has 2 x 2 x 3 vertices *)
Definition sshape : list Z := [2; 2; 3].
Definition q3_of (p : list Qc) : q3 := (nth 0 p 0%Qc, nth 1 p 0%Qc, nth 2 p 0%Qc).
(** cutdata_impl.hpp:339-345, cut_vertex_size; a crossing is its vertex and its index *)
Definition table_size (cs : list (vertex * Z)) : Z := fold_left (fun m c => Z.max m (snd c + 1)) cs (shape_size sshape).
(** cutdata_impl.hpp:328-332: later crossings overwrite earlier ones; None = uninitialised *)
Definition column (cs : list (vertex * Z)) (i : Z) : option (list Qc) := fold_left (fun r c => if snd c =? i then Some (pos (fst c)) else r) cs None.
(** :75-79 newV: the grid vertices, then the world positions of the cut vertices *)
Definition slice_vertex (g : slice_grid) (cs : list (vertex * Z)) (i : Z) : option q3 :=
  if i <? shape_size sshape then Some (world_coord g (q3_of (map Z2Qc (unravel sshape i)))) else option_map (fun p => world_coord g (q3_of p)) (column cs i).
Definition slice_table (g : slice_grid) (cs : list (vertex * Z)) : option (list q3) := sequence (map (slice_vertex g cs) (zseq (table_size cs))).
(** :82-88 *)
Definition plane_verts (cs : list (vertex * Z)) : list Z :=
  set_of_list Z.compare (map snd (filter (fun c => match nth 2 (v_mask (fst c)) None with Some k => k =? 1 | None => false end) cs)).
(** :90-96 *)
Definition is_boundary (cs : list (vertex * Z)) (idx : Z) : bool :=
  if idx <? shape_size sshape then nth 2 (unravel sshape idx) 0 =? 1 else existsb (Z.eqb idx) (plane_verts cs).
(** :101-107 *)
Definition plane_edges (cs : list (vertex * Z)) (edges : list edge) : list edge := filter (fun e => is_boundary cs (fst e) && is_boundary cs (snd e)) edges.
(** :117-128, one cell of the plane: CutFace(mask, inds, {2, 1}); one loop is ear clipped, several go to the Triangle library without adding vertices *)
Definition cap_cell (X : externals) (V2 : list q2) (inds : list (list Z)) : option (list q3 * list c3) :=
  match inds with [l] => Some ([], te_ear X V2 [l]) | _ => triangulate_triangle X V2 inds 2 1 false end.
Definition shift (v : list q3) (offset : Z) (f : list c3) : list c3 := match v with [] => f | _ => map (tri_map (Z.add offset)) f end.
(** :113-131; the result lists the matrices pushed to VV and FF *)
Fixpoint cap (X : externals) (V2 : list q2) (areas : list (Z * Qc)) (cells : list (Z * list (list Z))) (offset : Z) : option (list (list q3) * list (list c3)) :=
  match cells with
  | [] => Some ([], [])
  | (cid, inds) :: t =>
      if match map_find Z.compare cid areas with Some a => qltb 0 a | None => false end
      then match cap_cell X V2 inds with
           | Some (v, f) => option_map (fun '(W, T) => (v :: W, shift v offset f :: T)) (cap X V2 areas t (offset + Z.of_nat (length v)))
           | None => None end
      else cap X V2 areas t offset
  end.
(** :134-141, the faces kept; CutMeshFace::triangulate is a fan (cutface3.cpp:50-52) *)
Definition kept_tris (V : list q3) (faces : list (list Z)) : option (list (list c3)) := sequence (map fan_tris (kept (fun i => nth (Z.to_nat i) V (0, 0, 0)%Qc) faces)).
(** :156-171; no faces at all: a warning and an empty result *)
Definition slice_result (X : externals) (hem : list q2 -> list edge -> list (Z * Qc) * list (Z * list (list Z))) (inv : q3 -> q3)
    (g : slice_grid) (cs : list (vertex * Z)) (edges : list edge) (faces : list (list Z)) : option (list q3 * list c3) :=
  match slice_table g cs with
  | None => None
  | Some newV =>
      let V2 := sub_V 2 newV in
      let '(areas, cells) := hem V2 (plane_edges cs edges) in
      match cap X V2 areas cells (Z.of_nat (length newV)), kept_tris newV faces with
      | Some (VV, FC), Some FK => Some (match FC ++ FK with [] => ([], []) | FF => (back inv newV (concat VV), concat FF) end)
      | _, _ => None
      end
  end.
