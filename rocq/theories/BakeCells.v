(** Model of the last stage of CutCellGenerator<3> as one program: the external boundaries of the faces (the loop of compute_faces,
    src/construction/generator3_make_faces.cpp:298-361), update_active_grid_cell_mask (src/construction/generator3.cpp:203-204: returns at once)
    and bake_cells (src/construction/generator3.cpp:253-488): cell collapser, removal of boundary cells, signs of the external boundaries, adaptive
    grid, renumbering and region labels.  The pieces are those of CellCollapser.v, ExternalBoundary.v, AdaptiveFactory.v, AdaptiveGrid.v and Regions.v.
    [ord] is the cyclic order of faces around an edge (cell_collapser.hpp:72-138), [lnk1], [lnk2] the linking choices of the two union-finds. *)
From Verif Require Import Base Num SmallestEdge CoordMask Vertex Grid ActiveMask DisjointSet CellCollapser ExternalBoundary AdaptiveGrid AdaptiveFactory Regions.
Set Implicit Arguments.
Local Open Scope Z_scope.

(** what is read of a CutFace<3>: indices, mask(), is_mesh_face(), external_boundary *)
Record gface := mkGF { gf_loops : list loop; gf_mask : mask; gf_mesh : bool; gf_ext : option (Z * bool) }.
Definition shape_list (s : c3) : list Z := let '(n, m, k) := s in [n; m; k].
(** generator3_make_faces.cpp:298-361; None = an access outside the vertices, the mask or the shape *)
Definition set_external (s : c3) (act : coord -> bool) (V : Z -> vertex) (f : gface) : option gface :=
  option_map (fun o => mkGF (gf_loops f) (gf_mask f) (gf_mesh f) (match o with Some c => Some (c, false) | None => gf_ext f end))
    (external3 (shape_list s) act V (gf_mask f) (gf_loops f)).
Fixpoint set_externals (s : c3) (act : coord -> bool) (V : Z -> vertex) (fs : list (Z * gface)) : option (list (Z * gface)) :=
  match fs with
  | [] => Some []
  | (i, f) :: t => match set_external s act V f, set_externals s act V t with Some g, Some r => Some ((i, g) :: r) | _, _ => None end
  end.
(** the bound axes of a mask with their values: count(), bound_axis() and operator[] of coord_mask (see remove_grid_boundary_cells) *)
Fixpoint bound_axes (i : nat) (m : mask) : list (nat * Z) :=
  match m with [] => [] | Some v :: t => (i, v) :: bound_axes (S i) t | None :: t => bound_axes (S i) t end.
(** m_faces.at(f) *)
Definition gface_at (fs : list (Z * gface)) (f : Z) : option gface := map_find Z.compare f fs.
Record baked := mkBaked {
  bk_folded : list Z;               (* folded_faces *)
  bk_cells : list cellb;            (* cell_boundaries *)
  bk_faces : list (Z * gface);      (* m_faces, external boundaries with their signs *)
  bk_cubes : acells;                (* adaptive_grid->m_cells, renumbered *)
  bk_afaces : list aface;           (* adaptive_grid->m_faces *)
  bk_regions : list Z;              (* cell_boundaries[i].region *)
  bk_cube_regions : list (Z * Z) }. (* adaptive_grid_regions *)
(** generator3.cpp:256, 266-299: the collapser (merge(V) has merge_open_faces = true), the two removals, the copy *)
Definition kept_cells (s : c3) (fs : list (Z * gface)) (cs : list cellb) : list cellb :=
  remove_grid_boundary_cells (shape_list s) (fun f => match gface_at fs f with Some g => bound_axes 0 (gf_mask g) | None => [] end)
    (remove_boundary_cells (fun f => match gface_at fs f with Some g => match gf_ext g with Some _ => true | None => false end | None => false end) cs).
Definition sign_external (cs : list cellb) (fs : list (Z * gface)) : list (Z * gface) :=
  map (fun '(i, g) => (i, mkGF (gf_loops g) (gf_mask g) (gf_mesh g) (match gf_ext g with Some (c, s) => Some (c, bake_sign cs i s) | None => None end))) fs.
(** GridData::get: the entry with that flat index *)
Definition grid_get (s : c3) (g : gdata) (i : Z) : Z := match unravel (shape_list s) i with [x; y; z] => g (x, y, z) | _ => -1 end.
(** generator3.cpp:253-488 *)
Definition bake_cells (lnk1 lnk2 : ds -> Z -> Z -> bool) (ord : edge -> list Z -> list Z) (s : c3) (act : coord -> bool) (level : option Z) (fs : list (Z * gface)) : baked :=
  let col := collapse lnk1 ord true (map (fun '(i, g) => (i, gf_loops g)) fs) in
  let cs := kept_cells s fs (cl_bnd col) in
  let fs' := sign_external cs fs in
  let fc := factory_cells s (fun '(x, y, z) => negb (act [x; y; z])) level in
  let cubes := renumber (Z.of_nat (length cs)) fc in
  let afs := make_faces s fc in
  let r := mkRI cs (map (fun '(i, g) => (i, mkRF (gf_mesh g) (gf_ext g) (match gf_mask g with x :: _ => x | [] => None end))) fs') cubes
             (map af_dual afs) (grid_get s (grid_from_cells cubes)) (get3 s 0 + 1) in
  mkBaked (folded_faces (cl_hf col)) cs fs' cubes afs (cell_regions lnk2 r) (exterior_regions lnk2 r).
(** the two stages in a row *)
Definition bake3 (lnk1 lnk2 : ds -> Z -> Z -> bool) (ord : edge -> list Z -> list Z) (s : c3) (act : coord -> bool) (level : option Z) (V : Z -> vertex) (fs : list (Z * gface)) : option baked :=
  option_map (bake_cells lnk1 lnk2 ord s act level) (set_externals s act V fs).
