(** Model of CutData::barycentric_map, cut_vertices, vertex/edge/face_crossings (include/mandoline/construction/cutdata_impl.hpp:318-345, 455-541, 690-722)
    and of the edge sets (cutdata_impl.hpp:566-685).  Exact rational coefficients; pointers to vertices are positions in the concatenated list of crossings. *)
From Verif Require Import Base Num CoordMask Vertex VertexTypes Grid Crossings EdgeBake CutEdges Sparse TriBake.
Set Implicit Arguments.
Local Open Scope Z_scope.

(** what a Crossing points to: a vertex of m_V (by its position, std::distance(&m_V[0], v)), an edge or a triangle intersection *)
Inductive source := SVtx (i : Z) | SEdge (e : edge_isect) | STri (t : tri_isect).
(** the members of CutData read here: m_V, m_E, m_F and the lists of intersections per edge and per triangle *)
Record bdata := mkBD { bd_V : list vertex; bd_E : list (Z * Z); bd_F : list (Z * Z * Z); bd_ei : list (list edge_isect); bd_ti : list (list tri_isect) }.
Definition at_ix (A : Type) (l : list A) (i : Z) : option A := if i <? 0 then None else nth_error l (Z.to_nat i).
Definition nV (d : bdata) : Z := Z.of_nat (length (bd_V d)).
(** :465-480: vertex_crossings (:512-521), edge_crossings, face_crossings (:522-541, flat_*_intersections :435-452), one after the other *)
Definition sources (d : bdata) : list source := map SVtx (zseq (nV d)) ++ map SEdge (concat (bd_ei d)) ++ map STri (concat (bd_ti d)).
Definition source_vertices (d : bdata) : list vertex := bd_V d ++ map ei_v (concat (bd_ei d)) ++ map ti_v (concat (bd_ti d)).
(** Crossing::index after compute_crossings (Crossings.v) *)
Definition crossing_ixs (s : list Z) (d : bdata) : list Z := fst (compute_crossings s (source_vertices d)).
Definition crossings (s : list Z) (d : bdata) : list (source * Z) := combine (sources d) (crossing_ixs s d).

(** :698-717: the triplets of one crossing; None = an edge or triangle index outside m_E, m_F *)
Definition source_triplets (d : bdata) (c : source * Z) : option (list triplet) :=
  let '(src, row) := c in
  match src with
  | SVtx i => Some [(row, i, 1%Qc)]
  | SEdge e => match at_ix (bd_E d) (ei_index e) with
               | Some (a, b) => Some [(row, a, (1 - ei_coord e)%Qc); (row, b, ei_coord e)]
               | None => None
               end
  | STri t => match at_ix (bd_F d) (ti_index t) with
              | Some (a, b, c) => Some [(row, a, qat (ti_bary t) 0); (row, b, qat (ti_bary t) 1); (row, c, qat (ti_bary t) 2)]
              | None => None
              end
  end.
Fixpoint sequence (A : Type) (l : list (option A)) : option (list A) :=
  match l with
  | [] => Some []
  | o :: t => match o, sequence t with Some a, Some r => Some (a :: r) | _, _ => None end
  end.
(** :690-722: rows, columns, triplets *)
Definition barycentric_map (s : list Z) (d : bdata) : option (Z * Z * list triplet) :=
  match sequence (map (source_triplets d) (crossings s d)) with
  | Some l => Some (cut_vertex_size s (crossing_ixs s d), nV d, concat l)
  | None => None
  end.

(** :318-331, cut_vertices: column i - grid_size() is overwritten by every crossing with index i; None = never written *)
Fixpoint col_set (A : Type) (l : list (option A)) (i : nat) (a : A) : list (option A) :=
  match l, i with
  | [], _ => []
  | _ :: t, O => Some a :: t
  | x :: t, S i' => x :: col_set t i' a
  end.
Definition cut_vertices (s : list Z) (d : bdata) : list (option (list Qc)) :=
  let gsize := shape_size s in
  let size := cut_vertex_size s (crossing_ixs s d) in
  if size =? gsize then []
  else fold_left (fun ret '(v, i) => if gsize <=? i then col_set ret (Z.to_nat (i - gsize)) (pos v) else ret)
         (combine (source_vertices d) (crossing_ixs s d)) (repeat None (Z.to_nat (size - gsize))).

(** mtao::geometry::mesh::compactify (external), used by SliceGenerator::slice on its result (src/tools/planar_slicer.cpp:172): the vertices that occur in a face, in order *)
Definition used_vertices (F : list (Z * Z * Z)) : list Z := set_of_list Z.compare (flat_map (fun '(a, b, c) => [a; b; c]) F).

(** ** The edge sets (:566-685) and the cut edges inside triangles (:161-206) *)
Section Edges.
  Variable ix : crossing -> Z.                          (* CutData::index, m_vertex_indexer.at *)
  Variable remap : edge_isect -> option tri_isect.      (* TriangleIntersections::edge_to_triangle_map *)
  (** get_vptr (facet_intersections.hpp:299-310) and :177-187 *)
  Definition remapped (c : crossing) : crossing := match c with CE e => match remap e with Some t => CT t | None => c end | _ => c end.
  (** vptr_edges of an input edge (facet_intersections.hpp:158-167), looked up *)
  Definition edge_pairs (grid : option (list Z)) (a b : vertex) (eidx : Z) : list (Z * Z) :=
    map (fun '(p, q) => (ix p, ix q)) (consecutive (gvertices a b (bake_edge grid a b eidx))).
  (** vptr_edges of a triangle (facet_intersections.hpp:334-355, get_boundary = false): the pieces of its segments [segs]; each segment has edge_index -1 *)
  Definition segment_pairs (grid : option (list Z)) (seg : vertex * vertex) : list (Z * Z) :=
    map (fun '(p, q) => (ix p, ix q)) (consecutive (map remapped (gvertices (fst seg) (snd seg) (bake_edge grid (fst seg) (snd seg) (-1))))).
  Definition tri_pairs (grid : option (list Z)) (segs : list (vertex * vertex)) : list (Z * Z) := flat_map (segment_pairs grid) segs.
  (** :602-612, 648-656: degenerate pairs are dropped, the others sorted *)
  Definition facet_edges (pairs : list (Z * Z)) : list (Z * Z) := flat_map (fun '(x, y) => if x =? y then [] else [sorted_pair x y]) pairs.
  (** edge_edges, :591-618: one set per edge, merged afterwards *)
  Definition edge_edges (grid : option (list Z)) (edges : list (vertex * vertex)) : list (Z * Z) :=
    fold_left (fun S e => fold_left (fun S x => set_insert pair_cmp2 x S) e S)
      (map (fun '(i, (a, b)) => set_of_list pair_cmp2 (facet_edges (edge_pairs grid a b i))) (numbered edges)) [].
  (** face_edges, :632-661: the threads insert into one set under a lock, [order] = the order of the insertions: any interleaving *)
  Definition face_edges (grid : option (list Z)) (tris : list (list (vertex * vertex))) (out : list (Z * Z)) : Prop :=
    exists order, interleaves (map (fun segs => facet_edges (tri_pairs grid segs)) tris) order /\ out = fold_left (fun S x => set_insert pair_cmp2 x S) order [].
  (** stl_edges, :664-669 *)
  Definition stl_edges (grid : option (list Z)) (edges : list (vertex * vertex)) (tris : list (list (vertex * vertex))) (out : list (Z * Z)) : Prop :=
    exists EF, face_edges grid tris EF /\ out = fold_left (fun S x => set_insert pair_cmp2 x S) EF (edge_edges grid edges).
  (** bake, :161-206: the cut edges recorded for one segment of a triangle, unsorted and unfiltered *)
  Definition tri_cut_edges (grid : option (list Z)) (seg : vertex * vertex) : list cut_edge :=
    let '(a, b) := seg in
    match bake_edge grid a b (-1) with
    | [] => [(edge_mask a b, (ix (CV a), ix (CV b)), -1)]
    | R => map (fun '(p, q) => (edge_mask a b, (ix p, ix q), -1)) (consecutive (map remapped (gvertices a b R)))
    end.
  (** m_cut_edges after bake: the parallel loop over the edges, then the serial one over the triangles *)
  Definition all_cut_edges (grid : option (list Z)) (edges : list (vertex * vertex)) (tris : list (list (vertex * vertex))) (out : list cut_edge) : Prop :=
    exists out1, cut_edges ix grid edges out1 /\ out = out1 ++ flat_map (flat_map (tri_cut_edges grid)) tris.
End Edges.

(** ** get_face_bary (cutdata_impl.hpp:271-296): the barycentric coordinates of a crossing in triangle T *)
(** what the visitor sees: a pointer to corner i of the triangle, any other vertex (a grid vertex, or a mesh vertex that is not a corner), a crossing of the edge in slot s of
    the triangle, a crossing of another edge (a, b), a crossing inside some triangle *)
Inductive bary_query := QCorner (i : nat) | QVertex (v : vertex) | QOwn (s : nat) (e : edge_isect) | QOther (a b : vertex) (e : edge_isect) | QTri (t : tri_isect).
(** mtao::geometry::barycentric_simplicial(corners, point) (external) *)
Definition get_face_bary (simplicial : list (list Qc) -> list Qc -> list Qc) (T : tri) (q : bary_query) : list Qc :=
  match q with
  | QCorner i => unit_bary i
  | QVertex v => simplicial (map pos (t_v T)) (pos v)
  | QOwn s e => match nth_error (t_edges T) s with Some ed => edge_bary (te_a ed) (te_b ed) (ei_coord e) | None => [] end
  | QOther a b e => simplicial (map pos (t_v T)) (pos (ei_v (from_coord a b (ei_index e) (ei_coord e))))
  | QTri t => ti_bary t
  end.
