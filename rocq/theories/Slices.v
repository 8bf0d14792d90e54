(** Model of the preparation of the axis-aligned slices in CutCellGenerator<3>::bake_faces
    (src/construction/generator3_make_faces.cpp:82-146, 161-198, 212-239): the 2D grids, the masks of the slices, their edges and their boundary edges.
    The half-edge meshes of the slices are library code (see Hem.v). The loops over the axes and the slices run in parallel but each iteration
    writes its own record of the map; that the records exist already is a theorem (c130_slice_exists). *)
From Verif Require Import Base Num CoordMask Vertex VertexTypes Grid GridEdges SmallestEdge SubGrid ActiveMask Hem Generator.
Set Implicit Arguments.
Local Open Scope Z_scope.

Definition cz (c : coord) (j : nat) : Z := nth j c 0.
(** generator3_make_faces.cpp:82-93 subgrid: vertex shape of the 2D grid of axis d (vs is the vertex shape of the volume); its cell shape is one less *)
Definition subgrid_shape (vs : list Z) (d : nat) : list Z := [cz vs ((d + 1) mod 3); cz vs ((d + 2) mod 3)].
(** AxisHEMData::active_grid_cell_mask: shape and entries *)
Notation slice_mask := (list Z * (coord -> bool))%type (only parsing).
(** :118-126 the lambda flag: a missing record gets an all-true mask of the cell shape of the 2D grid; then entry c2 is cleared *)
Definition flag (shape : list Z) (c2 : coord) (idx : Z) (ah : list (Z * slice_mask)) : list (Z * slice_mask) :=
  let ah' := match map_find Z.compare idx ah with None => map_set Z.compare idx (shape, fun _ => true) ah | Some _ => ah end in
  match map_find Z.compare idx ah' with
  | Some (sh, m) => map_set Z.compare idx (sh, fun x => if ceqb x c2 then false else m x) ah'
  | None => ah'
  end.
(** :103-135 one active cell c, one axis i; s is cell_shape() *)
Definition flag_cell (s : list Z) (i : nat) (ah : list (Z * slice_mask)) (c : coord) : list (Z * slice_mask) :=
  let p1 := ((i + 1) mod 3)%nat in
  let p2 := ((i + 2) mod 3)%nat in
  if (cz c p1 <? 0) || (cz s p1 <=? cz c p1) then ah
  else if (cz c p2 <? 0) || (cz s p2 <=? cz c p2) then ah
  else
    let sh := map (fun n => n - 1) (subgrid_shape (vshape s) i) in
    let c2 := [cz c p1; cz c p2] in
    let ah1 := if 0 <=? cz c i then flag sh c2 (cz c i) ah else ah in
    if cz c i + 1 <? cz (vshape s) i then flag sh c2 (cz c i + 1) ah1 else ah1.
(** :96-136: the records of axis i after the flagging loop *)
Definition slice_masks (s : list Z) (crossings : list vertex) (i : nat) : list (Z * slice_mask) :=
  fold_left (flag_cell s i) (active_cells crossings) [].
(** :186-198: the edges of a slice, smaller index first, a std::set *)
Definition slice_edges (cut : list (mask * (Z * Z) * Z)) (grid : list (mask * (Z * Z))) (dim : nat) (k : Z) : list edge :=
  set_of_list edge_cmp (map sort_edge (match map_find Z.compare k (axial_edges cut grid dim) with Some E => E | None => [] end)).
(** :212-239: the boundary edges of the slice k of axis dim, as edges of the volume; None = no mask was made, compute_planar_hem then runs in its
    adaptive mode (empty mask) *)
Definition slice_boundary (s : list Z) (crossings : list vertex) (dim : nat) (k : Z) : option (list edge) :=
  match map_find Z.compare k (slice_masks s crossings dim) with
  | Some (sh, m) => Some (embed_edges (subgrid_shape (vshape s) dim) (vshape s) dim k (mask_boundary_edges sh m))
  | None => None
  end.
