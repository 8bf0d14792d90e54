(** Model of the parts of CutCellEdgeGenerator<2>::compute_planar_hem that do not depend on the half-edge mesh library
    (src/construction/generator.cpp:64-228), of AxisHEMData::is_boundary_cell
    (src/construction/generator3_make_faces.cpp:24-33) and of the translation of the boundary edges of a slice to the
    vertices of the volume (generator3_make_faces.cpp:226-239).
    A half-edge mesh is given by the list of its half-edges as pairs (cell index, vertex index): cell_indices() and
    vertex_indices() of the library.  from_edges, make_topology and tie_nonsimple_cells are library code and not modelled;
    what is modelled is which half-edges are handed to tie_nonsimple_cells. *)
From Verif Require Import Base Num CoordMask Vertex VertexTypes Grid GridEdges SmallestEdge SubGrid.
Set Implicit Arguments.
Local Open Scope Z_scope.

(** generator.cpp:204-205, cc = c; cc[i]-- *)
Fixpoint coord_dec (j : nat) (c : coord) : coord :=
  match c, j with
  | [], _ => []
  | x :: t, O => (x - 1) :: t
  | x :: t, S j' => x :: coord_dec j' t
  end.
(** generator.cpp:208-209 (c_valid, cc_valid): the entries of the mask are true on the cells that are NOT cut *)
Definition outside_or_masked (s : list Z) (m : coord -> bool) (c : coord) : bool := negb (in_shape s c) || m c.
(** std::sort of an array of two *)
Definition sort_edge (e : edge) : edge := let '(a, b) := e in if b <? a then (b, a) else (a, b).
(** generator.cpp:197-222, not adaptive.  s is interior_cell_mask.shape(); the grid of the generator has that cell shape, so its
    vertex shape is s + 1 *)
Definition vshape (s : list Z) : list Z := map (fun n => n + 1) s.
Definition mask_boundary_edges (s : list Z) (m : coord -> bool) : list edge :=
  set_of_list edge_cmp (flat_map (fun c => flat_map (fun i =>
      if xorb (outside_or_masked s m c) (outside_or_masked s m (coord_dec i c))
      then [sort_edge (get_grid_edge (vshape s) c (1 - i))] else []) [0; 1]%nat) (all_coords (vshape s))).
(** generator.cpp:104-117, adaptive (the mask is empty): the edges whose two ends share a plane of the domain boundary.  s is cell_shape() *)
Fixpoint on_domain_plane (s : list Z) (m : mask) : bool :=
  match s, m with
  | n :: s', o :: m' => match o with Some v => (v =? 0) || (v =? n) | None => false end || on_domain_plane s' m'
  | _, _ => false
  end.
Definition adaptive_boundary_edges (s : list Z) (GV : Z -> vertex) (E : list edge) : list edge :=
  set_of_list edge_cmp (filter (fun e => on_domain_plane s (mask_and (v_mask (GV (fst e))) (v_mask (GV (snd e))))) E).

(** generator.cpp:80-101: the cells of one vertex, a std::set *)
Definition vertex_cells2 (v : vertex) : list coord :=
  set_of_list zlex
    (v_coord v :: (if nth 0 (v_clamped v) false then [coord_dec 0 (v_coord v)] else [])
       ++ (if nth 1 (v_clamped v) false then [coord_dec 1 (v_coord v)] else [])
       ++ (if is_grid_vertex v then [coord_dec 1 (coord_dec 0 (v_coord v))] else [])).
(** generator.cpp:120-140 cell_coords: for every half-edge, in order *)
Definition cell_coords_step (vc : Z -> list coord) (m : list (Z * list coord)) (h : Z * Z) : list (Z * list coord) :=
  match map_find Z.compare (fst h) m with
  | None => map_set Z.compare (fst h) (vc (snd h)) m
  | Some cs => map_set Z.compare (fst h) (set_intersection cs (vc (snd h))) m
  end.
Definition hem_cell_coords (vc : Z -> list coord) (hes : list (Z * Z)) : list (Z * list coord) :=
  fold_left (cell_coords_step vc) hes [].
(** generator.cpp:144-149 coord_cells *)
Definition coord_cells_step (m : list (coord * list Z)) (p : coord * Z) : list (coord * list Z) :=
  let old := match map_find zlex (fst p) m with Some l => l | None => [] end in
  map_set zlex (fst p) (set_insert Z.compare (snd p) old) m.
Definition hem_coord_cells (cc : list (Z * list coord)) : list (coord * list Z) :=
  fold_left coord_cells_step (flat_map (fun '(i, cs) => map (fun c => (c, i)) cs) cc) [].
(** generator.cpp:151-162: the groups of cells handed to tie_nonsimple_cells, in order; the cells are given by their ids here, the code
    hands over one half-edge of each (cells_halfedge_map.at) *)
Definition tie_groups (m : list (coord * list Z)) : list (list Z) :=
  flat_map (fun '(_, cs) => if (length cs <? 2)%nat then [] else [filter (fun c => 0 <=? c) cs]) m.

(** generator3_make_faces.cpp:229-238: one boundary edge of the slice [cidx] of axis [dim] as an edge of the volume; s2, s3 are the vertex
    shapes.  Edge e is translated end by end and not sorted again. *)
Definition embed_edge (s2 s3 : list Z) (dim : nat) (cidx : Z) (e : edge) : option edge :=
  match upgrade_index s2 s3 dim cidx (fst e), upgrade_index s2 s3 dim cidx (snd e) with
  | Some a, Some b => Some (a, b)
  | _, _ => None
  end.
Definition embed_edges (s2 s3 : list Z) (dim : nat) (cidx : Z) (es : list edge) : list edge :=
  set_of_list edge_cmp (flat_map (fun e => match embed_edge s2 s3 dim cidx e with Some e' => [e'] | None => [] end) es).
(** generator3_make_faces.cpp:24-33 *)
Definition edge_mem (e : edge) (es : list edge) : bool := existsb (fun x => match edge_cmp e x with Eq => true | _ => false end) es.
Definition is_boundary_cell (bes : list edge) (C : list Z) : bool :=
  forallb (fun i => edge_mem (sort_edge (vat C i, vat C ((i + 1) mod length C))) bes) (seq 0 (length C)).
