(** Model of SliceGenerator (src/tools/planar_slicer.cpp): the transform, the embedding grid, the selection of faces and the way back.
    The cutting itself is CutData::bake (EdgeBake.v, CutEdges.v, TriBake.v); the half-edge mesh and the triangulation of the cap are not modelled
    (the vertices it adds are an argument).  Exact rational arithmetic. *)
From Verif Require Import Base Num SmallestEdge AdaptiveGrid Mesh Volume Queries3.
Set Implicit Arguments.
Local Open Scope Qc_scope.

(** Eigen: a 3x3 matrix by its rows; mtao::geometry::normal_basis(direction) (external) is an argument *)
Record mat3 := mkMat3 { row0 : q3; row1 : q3; row2 : q3 }.
Definition mat_vec (M : mat3) (x : q3) : q3 := (dot (row0 M) x, dot (row1 M) x, dot (row2 M) x).
Definition qz (p : q3) : Qc := snd p.
(** :13-19: linear = basis, translation = - linear^-1 * origin *)
Definition get_transform (basis inverse : mat3) (origin : q3) (x : q3) : q3 := vadd (mat_vec basis x) (vneg (mat_vec inverse origin)).

(** ** update_embedding, :35-61 *)
(** mtao::geometry::bounding_box: coefficient-wise minimum and maximum of the columns; an empty matrix has none *)
Definition qmin (a b : Qc) : Qc := if qltb b a then b else a.
Definition qmax (a b : Qc) : Qc := if qltb a b then b else a.
Definition qmin3 (a b : q3) : q3 := let '(x, y, z) := a in let '(u, v, w) := b in (qmin x u, qmin y v, qmin z w).
Definition qmax3 (a b : q3) : q3 := let '(x, y, z) := a in let '(u, v, w) := b in (qmax x u, qmax y v, qmax z w).
Definition bbox (V : list q3) : option (q3 * q3) := match V with [] => None | v :: t => Some (fold_left qmin3 t v, fold_left qmax3 t v) end.
(** 1.1, exact here *)
Definition q11 : Qc := Q2Qc (11 # 10).
(** :38-42 *)
Definition slice_box (V : list q3) : option (q3 * q3) :=
  option_map (fun '((x0, y0, z0), (x1, y1, z1)) =>
    let zmax := qmax z1 (- z0) in (vscale q11 (x0, y0, - zmax), vscale q11 (x1, y1, zmax))) (bbox V).
(** :45-46 computes [shape] and never uses it; :48 StaggeredGrid::from_bbox with 2 x 2 x 3 vertices (external): origin = min, dx = sizes / (vertices - 1) *)
Record slice_grid := mkSGrid { sg_origin : q3; sg_dx : q3 }.
Definition embedding (V : list q3) : option slice_grid :=
  option_map (fun '(lo, hi) => let '(sx, sy, sz) := vadd hi (vneg lo) in mkSGrid lo (sx / 1, sy / 1, sz / (1 + 1))) (slice_box V).
(** vertex_grid().local_coord / world_coord (external) *)
Definition local_coord (g : slice_grid) (p : q3) : q3 :=
  let '(x, y, z) := p in let '(ox, oy, oz) := sg_origin g in let '(dx, dy, dz) := sg_dx g in ((x - ox) / dx, (y - oy) / dy, (z - oz) / dz).
Definition world_coord (g : slice_grid) (p : q3) : q3 :=
  let '(x, y, z) := p in let '(ox, oy, oz) := sg_origin g in let '(dx, dy, dz) := sg_dx g in (ox + dx * x, oy + dy * y, oz + dz * z).

(** ** slice, :70-172 *)
(** :126-136: the cut faces kept; [V] = newV *)
Definition above (V : Z -> q3) (face : list Z) : bool := forallb (fun i => negb (qltb (qz (V i)) 0)) face.
Definition kept (V : Z -> q3) (faces : list (list Z)) : list (list Z) := filter (above V) faces.
(** :160-168: only the first newV.cols() columns are transformed back; [extra] = the vertices added by the triangulation of the cap *)
Definition back (inv : q3 -> q3) (newV extra : list q3) : list q3 :=
  let all := newV ++ extra in map inv (firstn (length newV) all) ++ skipn (length newV) all.
