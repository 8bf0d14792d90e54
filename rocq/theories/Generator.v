(** Model of the remaining members of CutCellEdgeGenerator (include/mandoline/construction/generator.hpp, generator_impl.hpp) and of CutCellGenerator<2>::add_boundary_elements
    (src/construction/generator2.cpp:24-27): adding edges, vertex accessors, the vertices and edges of the generated mesh, edge sets.  Exact rationals; logging is left out. *)
From Verif Require Import Base Num CoordMask Vertex VertexTypes Grid Crossings EdgeBake CutEdges GridEdges Sparse BaryMap.
Set Implicit Arguments.
Local Open Scope Z_scope.

(** ** add_edges (generator_impl.hpp:199-245) *)
Definition emap_t := list ((Z * Z) * Z).                          (* mtao::map<Edge, int> *)
Definition has_key (m : emap_t) (e : Z * Z) : bool := match map_find pair_cmp2 e m with Some _ => true | None => false end.
(** :203-216: each test is "not in one map || not in the other" *)
Definition has_e (orig new : emap_t) (e : Z * Z) : bool :=
  if negb (has_key orig e) || negb (has_key new e) then
    let e := (snd e, fst e) in negb (negb (has_key orig e) || negb (has_key new e))
  else true.
Definition esize (orig new : emap_t) : Z := Z.of_nat (length orig) + Z.of_nat (length new).
(** :218-238; newEMap[e] = Esize(): the right-hand side is evaluated before operator[] inserts (C++17, set in CMakeLists.txt:5) *)
Definition add_step (orig new : emap_t) (e : Z * Z) : emap_t := if has_e orig new e then new else map_set pair_cmp2 e (esize orig new) new.
Definition new_map (orig : emap_t) (E : list (Z * Z)) : emap_t := fold_left (add_step orig) E [].
(** :238-243: the columns of origE, None = never written (resize does not initialise); the result is None if a column outside the matrix is written *)
Definition fill (new : emap_t) (n : Z) : option (list (option (Z * Z))) :=
  fold_left (fun acc '(e, i) => match acc with Some l => if (0 <=? i) && (i <? n) then Some (col_set l (Z.to_nat i) e) else None | None => None end)
    new (Some (repeat None (Z.to_nat n))).
(** m_origEMap and m_data.E(); [nv] = number of vertices of m_data (set_topology, cutdata_impl.hpp:347-362, drops the edges if there are none) *)
Record gen2 := mkG2 { g2_orig : emap_t; g2_E : list (option (Z * Z)) }.
Definition add_edges (nv : Z) (E : list (Z * Z)) (g : gen2) : option gen2 :=
  let new := new_map (g2_orig g) E in
  match fill new (esize (g2_orig g) new) with
  | Some cols => Some (mkG2 (fold_left (fun m '(e, i) => map_emplace pair_cmp2 e i m) new (g2_orig g)) (if nv =? 0 then [] else cols))
  | None => None
  end.
(** :193-197, set_boundary_elements for D = 2: m_origEMap is left alone *)
Definition set_edges (nv : Z) (E : list (Z * Z)) (g : gen2) : gen2 := mkG2 (g2_orig g) (if nv =? 0 then [] else map Some E).
(** :621-635, clear: m_origEMap is emptied, the topology stays (CutData::clear) *)
Definition clear_edges (g : gen2) : gen2 := mkG2 [] (g2_E g).
Definition fresh2 : gen2 := mkG2 [] [].

(** ** Vertices *)
(** Crossing<D>: what it points to, the vertex and the index *)
Definition gcross := (source * vertex * Z)%type.
Definition gc_src (c : gcross) : source := fst (fst c).
Definition gc_v (c : gcross) : vertex := snd (fst c).
Definition gc_ix (c : gcross) : Z := snd c.
Definition all_crossings (s : list Z) (d : bdata) : list gcross := combine (combine (sources d) (source_vertices d)) (crossing_ixs s d).
(** :160-186, bake_vertices: m_crossings (the crossing last assigned to each index, None = never assigned) *)
Definition slot_table (s : list Z) (cs : list gcross) : list (option gcross) :=
  fold_left (fun sl c => if 0 <=? gc_ix c - shape_size s then col_set sl (Z.to_nat (gc_ix c - shape_size s)) c else sl)
    cs (repeat None (Z.to_nat (bake_vertices_size s (map gc_ix cs)))).
(** generator.hpp:107-110, get_world_vertex *)
Definition world_of (o dx : list Qc) (v : vertex) : list Qc := zipwith Qcplus o (zipwith Qcmult (pos v) dx).
Section World.
  Variable world : vertex -> list Qc.      (* get_world_vertex *)
  (** m_newV, :178-185 *)
  Definition newV (sl : list (option gcross)) : list (option (list Qc)) := map (option_map (fun c => world (gc_v c))) sl.
  Definition slot (A : Type) (l : list (option A)) (i : Z) : option A := if i <? 0 then None else match nth_error l (Z.to_nat i) with Some o => o | None => None end.
  (** generator.hpp:177 *)
  Definition num_vertices (s : list Z) (sl : list (option gcross)) : Z := shape_size s + Z.of_nat (length sl).
  (** :536-542, V(i); StaggeredGrid::vertex is the world position of the grid vertex (external) *)
  Definition gen_V (s : list Z) (sl : list (option gcross)) (i : Z) : option (list Qc) :=
    if i <? shape_size s then Some (world (vertex_of_coord (unravel s i))) else slot (newV sl) (i - shape_size s).
  (** :396-416, vertex(i): first the grid vertices, then origV, then newV; beyond: Vec{} of unspecified value, None *)
  Definition gen_vertex (s : list Z) (origV : list (list Qc)) (sl : list (option gcross)) (i : Z) : option (list Qc) :=
    let g := shape_size s in let o := Z.of_nat (length origV) in
    if i <? g then Some (world (vertex_of_coord (unravel s i)))
    else if i <? g + o then nth_error origV (Z.to_nat (i - g))
    else slot (newV sl) (i - (g + o)).
  (** generator.hpp:113-117 *)
  Definition is_grid_index (s : list Z) (i : Z) : bool := i <? shape_size s.
  Definition is_orig_vertex (s : list Z) (no : Z) (i : Z) : bool := negb (is_grid_index s i) && (i <? shape_size s + no).
  Definition is_new_vertex (s : list Z) (no : Z) (sl : list (option gcross)) (i : Z) : bool := negb (is_orig_vertex s no i) && (i <? num_vertices s sl).
  (** :359-394, vertex_reindexer; unassigned slots (none after bake) are skipped *)
  Definition reindex_step (s : list Z) (st : list (Z * Z) * Z) (o : option gcross) : list (Z * Z) * Z :=
    match o with
    | None => st
    | Some c => let '(m, n) := st in
        let zero := forallb (fun q => if Qc_eq_dec q 0 then true else false) (v_quot (gc_v c)) in
        let ni := if zero then ravel s (v_coord (gc_v c)) else n in
        (map_set Z.compare (gc_ix c) ni m, if shape_size s <=? ni then n + 1 else n)
    end.
  Definition vertex_reindexer (s : list Z) (sl : list (option gcross)) : list (Z * Z) :=
    fst (fold_left (reindex_step s) sl (fold_left (fun m i => map_set Z.compare i i m) (zseq (shape_size s)) [], shape_size s)).
  (** :421-438, compact_vertices; None in a column = never written, or vertex(a) out of range *)
  Definition compact_vertices (s : list Z) (origV : list (list Qc)) (sl : list (option gcross)) : list (option (list Qc)) :=
    let r := vertex_reindexer s sl in
    let size := fold_left (fun m p => Z.max m (snd p)) r 0 + 1 - shape_size s in
    fold_left (fun cols '(a, b) => if shape_size s <=? b then match gen_vertex s origV sl a with Some p => col_set cols (Z.to_nat (b - shape_size s)) p | None => cols end else cols)
      r (repeat None (Z.to_nat size)).
End World.

(** ** The generated mesh (:792-892) *)
(** :793-819, generate_vertices: the vertices handed to CutCellMesh (None = default constructed) *)
Definition generate_vertices (s : list Z) (sl : list (option gcross)) : list (option vertex) :=
  let cs := flat_map (fun o => match o with Some c => [c] | None => [] end) sl in
  let size := Z.max 0 (fold_left (fun m c => Z.max m (gc_ix c + 1)) cs 0 - shape_size s) in
  fold_left (fun V c => if is_grid_index s (gc_ix c) then V else
      let i := gc_ix c - shape_size s in if (0 <=? i) && (i <? size) then col_set V (Z.to_nat i) (gc_v c) else V) cs (repeat None (Z.to_nat size)).

(** CoordMaskedEdge: mask and indices *)
Definition grid_edge_t := (mask * (Z * Z))%type.
(** cutedge.hpp:41 IDType *)
Inductive id_t := IdMesh (e : Z) | IdAxial (axis value : Z).
Record out_edge := mkOE { oe_mask : mask; oe_ix : Z * Z; oe_id : id_t; oe_N : option (list Qc) }.
(** cutedge.hpp:88-91: axial id and unit normal from the bound axis; None = no bound axis *)
Definition unit2 (a : Z) : list Qc := [if a =? 0 then 1 else 0; if a =? 1 then 1 else 0]%Qc.
Definition axial_edge2 (e : grid_edge_t) : option out_edge :=
  let a := bound_axis (fst e) in
  match at_ix (fst e) a with Some (Some v) => Some (mkOE (fst e) (snd e) (IdAxial a v) (Some (unit2 a))) | _ => None end.
(** :826-842, D = 2; [E] = data().E(), [origV] the input positions *)
Definition normal2 (origV : list (list Qc)) (e : Z * Z) : option (list Qc) :=
  match at_ix origV (fst e), at_ix origV (snd e) with
  | Some p, Some q => Some [- (qat q 1 - qat p 1); qat q 0 - qat p 0]%Qc
  | _, _ => None
  end.
Definition mesh_edge2 (origV : list (list Qc)) (E : list (Z * Z)) (c : cut_edge) : option out_edge :=
  let '(m, ix, p) := c in
  match at_ix E p with
  | Some e => match normal2 origV e with Some n => Some (mkOE m ix (IdMesh p) (Some n)) | None => None end
  | None => None
  end.
Definition generate_edges2 (origV : list (list Qc)) (E : list (Z * Z)) (cut : list cut_edge) (grid : list grid_edge_t) : option (list out_edge) :=
  sequence (map (mesh_edge2 origV E) cut ++ map axial_edge2 grid).
(** :845-860, D = 3: an edge without parent gets the first bound axis of its mask; without one the program asserts (None) *)
Definition cut_edge3 (c : cut_edge) : option out_edge :=
  let '(m, ix, p) := c in
  if p =? -1 then match at_ix m (bound_axis m) with Some (Some v) => Some (mkOE m ix (IdAxial (bound_axis m) v) None) | _ => None end
  else Some (mkOE m ix (IdMesh p) None).
(** cutedge.hpp:46, CutEdgeBase(const Base &E) : Base(E) {}: id is a default-constructed variant<int, array<int,2>>, the int 0 *)
Definition grid_edge3 (e : grid_edge_t) : out_edge := mkOE (fst e) (snd e) (IdMesh 0) None.
Definition generate_edges3 (cut : list cut_edge) (grid : list grid_edge_t) : option (list out_edge) := sequence (map cut_edge3 cut ++ map (fun e => Some (grid_edge3 e)) grid).

(** :876-890, m_mesh_cut_edges: the parameters of both ends on the parent edge *)
Definition src_coord (d : bdata) (p : Z) (src : source) (v : vertex) : option Qc :=
  match at_ix (bd_E d) p with
  | Some (x, y) => match at_ix (bd_V d) x, at_ix (bd_V d) y with
      | Some a, Some b => Some (match src with
          | SVtx i => get_edge_coord a b (i =? x) (i =? y) (CV v)
          | SEdge e => get_edge_coord a b false false (CE e)
          | STri t => get_edge_coord a b false false (CT t)
          end)
      | _, _ => None
      end
  | None => None
  end.
(** grid_vertex(vi) is a temporary: it is never the end point of the edge itself (source -1) *)
Definition end_coord (s : list Z) (d : bdata) (sl : list (option gcross)) (p vi : Z) : option Qc :=
  if vi <? shape_size s then src_coord d p (SVtx (-1)) (vertex_of_coord (unravel s vi))
  else match slot sl (vi - shape_size s) with Some c => src_coord d p (gc_src c) (gc_v c) | None => None end.
Record interp_edge := mkIE { ie_t0 : Qc; ie_t1 : Qc; ie_parent : Z }.
Definition mesh_cut_edges (s : list Z) (d : bdata) (sl : list (option gcross)) (cut : list cut_edge) : option (list (Z * interp_edge)) :=
  sequence (flat_map (fun '(i, (_, (x, y), p)) => if 0 <=? p then
      [match end_coord s d sl p x, end_coord s d sl p y with Some a, Some b => Some (i, mkIE a b p) | _, _ => None end] else []) (numbered cut)).

(** ** Edge sets (:893-939) *)
Definition all_edges (cut : list cut_edge) (grid : list grid_edge_t) : list grid_edge_t := map fst cut ++ grid.
(** :893-903, edges() *)
Definition gen_edges (cut : list cut_edge) (grid : list grid_edge_t) : list (Z * Z) := fold_left (fun S e => set_insert pair_cmp2 (snd e) S) (all_edges cut grid) [].
(** :904-920, edge_slice (the base class; the order of insertion does not matter for a set) *)
Definition on_plane (e : grid_edge_t) (dim : nat) (k : Z) : bool := match nth_error (fst e) dim with Some (Some v) => v =? k | _ => false end.
Definition edge_slice (cut : list cut_edge) (grid : list grid_edge_t) (dim : nat) (k : Z) : list (Z * Z) :=
  fold_left (fun S e => if on_plane e dim k then set_insert pair_cmp2 (snd e) S else S) (grid ++ map fst cut) [].
(** :921-939, axial_edges: map from coordinate to edges, for one axis *)
Definition axial_edges (cut : list cut_edge) (grid : list grid_edge_t) (dim : nat) : list (Z * list (Z * Z)) :=
  fold_left (fun M e => match nth_error (fst e) dim with
    | Some (Some v) => map_set Z.compare v (set_insert pair_cmp2 (snd e) (match map_find Z.compare v M with Some l => l | None => [] end)) M
    | _ => M end) (all_edges cut grid) [].
