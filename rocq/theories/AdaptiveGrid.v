(** Model of AdaptiveGrid (src/adaptive_grid.cpp, include/mandoline/adaptive_grid.hpp). *)
From Verif Require Import Base Num CoordMask Grid SmallestEdge.
Set Implicit Arguments.
Local Open Scope Z_scope.

(** coord_type = std::array<int,3> *)
Definition c3 := (Z * Z * Z)%type.
Definition get3 (c : c3) (d : nat) : Z := let '(x, y, z) := c in match d with 0%nat => x | 1%nat => y | _ => z end.
Definition add3 (c : c3) (d : nat) (k : Z) : c3 :=
  let '(x, y, z) := c in match d with 0%nat => (x + k, y, z) | 1%nat => (x, y + k, z) | _ => (x, y, z + k) end.
Definition plus3 (a b : c3) : c3 := let '(x, y, z) := a in let '(u, v, w) := b in (x + u, y + v, z + w).
Definition scale3 (k : Z) (a : c3) : c3 := let '(x, y, z) := a in (k * x, k * y, k * z).
(** indexer.index / unindex on three axes *)
Definition index3 (s c : c3) : Z := let '(n, m, k) := s in let '(x, y, z) := c in ravel [n; m; k] [x; y; z].
Definition in3 (s c : c3) : bool := let '(n, m, k) := s in let '(x, y, z) := c in in_shape [n; m; k] [x; y; z].
(** for a in x..x+u, b in y..y+v, c in z..z+w in loop order *)
Definition loop3 (c s : c3) : list c3 :=
  let '(x, y, z) := c in let '(u, v, w) := s in
  flat_map (fun a => flat_map (fun b => map (fun c => (a, b, c)) (zrange z (Z.to_nat w))) (zrange y (Z.to_nat v))) (zrange x (Z.to_nat u)).

(** adaptive_grid.hpp:28-45: Cell = tuple<corner, width> *)
Definition acell := (c3 * Z)%type.
Definition acells := list (Z * acell).
Definition box_coords (b : acell) : list c3 := loop3 (fst b) (snd b, snd b, snd b).
(** adaptive_grid.cpp:88-109, grid_from_cells: GridData::Constant(-1), cells in id order, a value other than -1 is kept *)
Definition gdata := c3 -> Z.
Definition c3_eqb (a b : c3) : bool := let '(x, y, z) := a in let '(u, v, w) := b in (x =? u) && (y =? v) && (z =? w).
Definition gset (g : gdata) (c : c3) (v : Z) : gdata := fun x => if c3_eqb x c then v else g x.
Definition own_step (cid : Z) (g : gdata) (c : c3) : gdata := if g c =? -1 then gset g c cid else g.
Definition grid_from_cells (cells : acells) : gdata :=
  fold_left (fun g '(cid, b) => fold_left (own_step cid) (box_coords b) g) cells (fun _ => -1).

(** adaptive_grid.hpp:46-77: Square = tuple<corner, axis, width>; Face adds dual_edge *)
Record aface := mkFace { af_corner : c3; af_axis : nat; af_width : Z; af_dual : edge }.
Definition cell_at (cells : acells) (i : Z) : option acell := map_find Z.compare i cells.
(** adaptive_grid.hpp:119-122, is_valid_edge *)
Definition is_valid_edge (cells : acells) (e : edge) : bool :=
  negb (fst e =? snd e) && match cell_at cells (fst e), cell_at cells (snd e) with Some _, Some _ => true | _, _ => false end.
(** adaptive_grid.cpp:227-262, add_bdry: the face that is emplaced, if any. Where the code would leave corner and width
    uninitialised (an owner that is not in m_cells) or throw (cell()) the model gives None. *)
Definition bdry_geom (cells : acells) (d : nat) (a b : Z) : option (c3 * Z) :=
  if a =? b then None
  else if (a <? 0) && (b <? 0) then None
  else if (a =? -2) && (0 <=? b) then match cell_at cells b with Some (c, w) => Some (c, w) | None => None end
  else if (b =? -2) && (0 <=? a) then match cell_at cells a with Some (c, w) => Some (add3 c d w, w) | None => None end
  else match cell_at cells a, cell_at cells b with
       | Some (ca, wa), Some (cb, wb) => let w := Z.min wa wb in Some (if w =? wb then cb else add3 ca d w, w)
       | _, _ => None end.
(** adaptive_grid.cpp:219-226: set<Face, myless> ordered by axis then dual edge; emplace keeps the first *)
Definition fkey := (Z * edge)%type.
Definition fkey_cmp : fkey -> fkey -> comparison := pair_cmp Z.compare edge_cmp.
Definition fmap := list (fkey * (c3 * Z)).
Definition add_bdry (cells : acells) (d : nat) (m : fmap) (e : edge) : fmap :=
  match bdry_geom cells d (fst e) (snd e) with
  | Some g => map_emplace fkey_cmp (Z.of_nat d, e) g m
  | None => m end.
(** adaptive_grid.cpp:263-308: the pair considered at position abc of axis d, if any. shape = cell_shape() *)
Definition bdry_pair (shape : c3) (g : gdata) (d : nat) (abc : c3) : list edge :=
  if get3 abc d =? 0 then (if 0 <=? g abc then [(-2, g abc)] else [])
  else if get3 abc d =? get3 shape d then (let v := g (add3 abc d (-1)) in if 0 <=? v then [(v, -2)] else [])
  else let p := g abc in let n := g (add3 abc d (-1)) in if (0 <=? p) && (0 <=? n) then [(n, p)] else [].
Definition axis_pairs (shape : c3) (g : gdata) (d : nat) : list edge :=
  flat_map (bdry_pair shape g d) (loop3 (0, 0, 0) (add3 shape d 1)).
Definition face_map (shape : c3) (cells : acells) (g : gdata) : fmap :=
  fold_left (fun m d => fold_left (add_bdry cells d) (axis_pairs shape g d) m) [0%nat; 1%nat; 2%nat] [].
Definition faces (shape : c3) (cells : acells) (g : gdata) : list aface :=
  map (fun '((d, e), (c, w)) => mkFace c (Z.to_nat d) w e) (face_map shape cells g).
(** adaptive_grid.cpp:318-320, make_faces *)
Definition make_faces (shape : c3) (cells : acells) : list aface := faces shape cells (grid_from_cells cells).

(** adaptive_grid.cpp:477-494, grid_cell_projection: triplets (unit cell index, cell id, 1/w^3) *)
Definition grid_cell_projection (shape : c3) (cells : acells) : list (Z * Z * Qc) :=
  flat_map (fun '(col, b) => map (fun a => (index3 shape a, col, (/ (Z2Qc (snd b) * Z2Qc (snd b) * Z2Qc (snd b)))%Qc)) (box_coords b)) cells.

(** adaptive_grid.cpp:57-61, Cell::is_inside on local coordinates *)
Definition q3 := (Qc * Qc * Qc)%type.
Definition qge0 (c : Z) (x : Qc) : bool := negb (qltb x (Z2Qc c)).
Definition is_inside (b : acell) (p : q3) : bool :=
  let '((a, b', c), w) := b in let '(x, y, z) := p in
  (qge0 a x && qge0 b' y && qge0 c z) && (qltb x (Z2Qc (a + w)) && qltb y (Z2Qc (b' + w)) && qltb z (Z2Qc (c + w))).
(** adaptive_grid.cpp:503-514, get_cell_index; mshape = vertex_shape() = cell_shape + 1 *)
Definition get_cell_index (shape : c3) (cells : acells) (p : q3) : Z :=
  let '(n, m, k) := shape in let '(x, y, z) := p in
  if (qltb x 0 || qltb y 0 || qltb z 0) || (qltb (Z2Qc (n + 1)) x || qltb (Z2Qc (m + 1)) y || qltb (Z2Qc (k + 1)) z) then -2
  else match find (fun '(_, c) => is_inside c p) cells with Some (i, _) => i | None => -1 end.

(** adaptive_grid.cpp:47-82: protobuf messages Cube(corner, radius), Square(corner, radius, axis), Face(geometry, dual_edge) *)
Definition cube_proto := (c3 * Z)%type.
Definition cell_serialize (c : acell) : cube_proto := (fst c, snd c).
Definition cell_from_proto (c : cube_proto) : acell := (fst c, snd c).
Record square_proto := mkSquareP { sp_corner : c3; sp_radius : Z; sp_axis : Z }.
(** Square as the C++ tuple: get<0> corner, get<1> axis, get<2> width *)
Definition square := (c3 * Z * Z)%type.
Definition sq_corner (s : square) : c3 := fst (fst s).
Definition sq_axis (s : square) : Z := snd (fst s).
Definition sq_width (s : square) : Z := snd s.
Definition square_serialize (s : square) : square_proto := mkSquareP (sq_corner s) (sq_width s) (sq_axis s).
(** adaptive_grid.cpp:67-73: get<1> = radius, get<2> = axis *)
Definition square_from_proto (p : square_proto) : square := (sp_corner p, sp_radius p, sp_axis p).
Definition face_serialize (f : square * edge) : square_proto * edge := (square_serialize (fst f), snd f).
Definition face_from_proto (p : square_proto * edge) : square * edge := (square_from_proto (fst p), snd p).

(** adaptive_grid.cpp:110-127, face(Cell, axis, sign): only ret[0] is written; None = indeterminate *)
Definition cell_face_helper (vidx : c3 -> Z) (c : acell) (axis : nat) (sign : bool) : list (option Z) :=
  let p := if sign then add3 (fst c) axis 1 else fst c in
  let u := Nat.modulo (axis + 1) 3 in let v := Nat.modulo (axis + 2) 3 in
  let p1 := add3 p u 1 in let p2 := add3 p1 v 1 in let p3 := add3 p2 u (-1) in
  [Some (vidx p3); None; None; None].
(** adaptive_grid.cpp:131-135, Cell::vertex *)
Definition cell_vertex (c : acell) (a b k : Z) : c3 := plus3 (fst c) (a * snd c, b * snd c, k * snd c).
(** adaptive_grid.cpp:136-143, Square::vertex *)
Definition square_vertex (corner : c3) (axis : nat) (w : Z) (a b : Z) : c3 :=
  add3 (add3 corner (Nat.modulo (axis + 1) 3) (w * a)) (Nat.modulo (axis + 2) 3) (w * b).
(** adaptive_grid.cpp:147-178, triangulated(Cell): the 12 triangles as corner coordinates (vertex_index is applied to each) *)
Definition cube_tris : list (nat * nat * nat) :=
  [(0, 2, 1); (0, 3, 2); (2, 3, 4); (2, 4, 5); (1, 2, 5); (1, 5, 6); (0, 7, 4); (0, 4, 3); (5, 4, 7); (5, 7, 6); (0, 6, 7); (0, 1, 6)]%nat.
Definition cube_corner (c : acell) (i : nat) : c3 :=
  match i with
  | 0 => cell_vertex c 0 0 0 | 1 => cell_vertex c 1 0 0 | 2 => cell_vertex c 1 1 0 | 3 => cell_vertex c 0 1 0
  | 4 => cell_vertex c 0 1 1 | 5 => cell_vertex c 1 1 1 | 6 => cell_vertex c 1 0 1 | _ => cell_vertex c 0 0 1
  end%nat.
Definition triangulated (c : acell) : list (c3 * c3 * c3) :=
  map (fun '(i, j, k) => (cube_corner c i, cube_corner c j, cube_corner c k)) cube_tris.
(** adaptive_grid.cpp:180-200, triangulated_face *)
Definition triangulated_face (f : aface) (invert : bool) : list (c3 * c3 * c3) :=
  let v := square_vertex (af_corner f) (af_axis f) (af_width f) in
  let a := v 0 0 in let b := v 1 0 in let c := v 1 1 in let d := v 0 1 in
  if invert then [(a, c, d); (a, b, c)] else [(a, c, b); (a, d, c)].
(** adaptive_grid.cpp:395-418, boundary_centroids / 430-447 grid_face_projection: axis k and low corner of the dual edge's square.
    centres are compared doubled, so 2*(ca.center - cb.center) is integral; maxCoeff keeps the first maximum *)
Definition ctr2 (c : acell) (d : nat) : Z := 2 * get3 (fst c) d + snd c.
Definition proj_axis (ca cb : acell) : nat :=
  let d i := Z.abs (ctr2 ca i - ctr2 cb i) in
  let k := if d 0%nat <? d 1%nat then 1%nat else 0%nat in if d k <? d 2%nat then 2%nat else k.
Definition proj_corner (ca cb : acell) : c3 :=
  let k := proj_axis ca cb in
  let corner := if snd ca <? snd cb then fst ca else fst cb in
  if 0 <? ctr2 ca k - ctr2 cb k then add3 corner k (snd ca) else corner.
(** src/construction/generator3.cpp:322-337: bake_cells renumbers m_cells to cbsize, cbsize+1, ... but keeps m_faces *)
Definition renumber (cbsize : Z) (cells : acells) : acells :=
  map (fun '(i, (_, b)) => (cbsize + Z.of_nat i, b)) (combine (seq 0 (length cells)) cells).
(** src/operators/boundary3.cpp:80-103, boundary_triplets(AdaptiveGrid): dual edge entries are looked up in the ownership grid as
    flat grid indices (GridData::get) *)
Definition ag_boundary_triplets (shape : c3) (cells : acells) (fs : list aface) (offset : Z) (domain_boundary : bool) : list (Z * Z * Z) :=
  let g := grid_from_cells cells in
  let get i := match unravel (let '(n, m, k) := shape in [n; m; k]) i with [x; y; z] => g (x, y, z) | _ => -1 end in
  flat_map (fun '(i, f) => let '(l, h) := af_dual f in
      if domain_boundary || negb ((l =? -2) || (h =? -2)) then
        (if 0 <=? l then [(offset + Z.of_nat i, get l, -1)] else []) ++ (if 0 <=? h then [(offset + Z.of_nat i, get h, 1)] else [])
      else [])
    (combine (seq 0 (length fs)) fs).
(** adaptive_grid.cpp:321-333, dual_edge_lengths entry: cell(a), cell(b) by id; entries with an invalid dual edge are left unset *)
Definition dual_edge_pair (cells : acells) (f : aface) : option (acell * acell) :=
  if is_valid_edge cells (af_dual f) then
    match cell_at cells (fst (af_dual f)), cell_at cells (snd (af_dual f)) with Some a, Some b => Some (a, b) | _, _ => None end
  else None.
(** adaptive_grid.cpp:344-357, cell_volumes (per cell: dx.prod() * w^3) *)
Definition cell_volume (vol : Qc) (c : acell) : Qc := (vol * (Z2Qc (snd c) * Z2Qc (snd c) * Z2Qc (snd c)))%Qc.
(** adaptive_grid.cpp:198-208, boundary_face_mask; 210-224 grid_boundary_face_mask *)
Definition boundary_face_mask (cells : acells) (fs : list aface) : list bool := map (fun f => is_valid_edge cells (af_dual f)) fs.
Definition grid_boundary_face_mask (shape : c3) (fs : list aface) : list bool :=
  map (fun f => negb ((get3 (af_corner f) (af_axis f) =? 0) || (get3 (af_corner f) (af_axis f) =? get3 shape (af_axis f)))) fs.
(** adaptive_grid.cpp:359-389, face_volumes(false): dws(i) = dx(i) * dx((i+1)%3); entry w * w * dws(axis) *)
Definition qget3 (p : q3) (d : nat) : Qc := let '(x, y, z) := p in match d with 0%nat => x | 1%nat => y | _ => z end.
Definition dws (dx : q3) (i : nat) : Qc := (1 * qget3 dx (Nat.modulo (0 + i) 3) * qget3 dx (Nat.modulo (1 + i) 3))%Qc.
Definition face_volume (dx : q3) (f : aface) : Qc := (Z2Qc (af_width f * af_width f) * dws dx (af_axis f))%Qc.
