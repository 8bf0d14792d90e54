(** The life cycle of CutData (include/mandoline/construction/cutdata.hpp:36-85, cutdata_impl.hpp:11-36, 40-54, 83-270, 346-452) and of its user SliceGenerator (src/tools/planar_slicer.cpp:21-34, 50-62, 68-76).
    The state keeps every member of CutData; what the baking of one edge, one triangle and of the crossings computes is left open (section variables; EdgeBake.v, TriBake.v, Crossings.v and
    CutEdges.v model them), so the theorems hold for any such computation.  The parallel loops are run in one fixed order (other orders: C76). *)
From Verif Require Import Base.
Set Implicit Arguments.
Local Open Scope Z_scope.

Section Life.
  Variables (vtx grid indexer emask eres tmask tres cross cedge cface : Type).
  Definition iedge : Type := (Z * Z)%type.
  Definition itri : Type := (Z * Z * Z)%type.
  (** mtao::geometry::mesh::boundary_facets(F) and boundary_elements(F, E) (external) *)
  Variable edges_of_faces : list itri -> list iedge.
  Variable face_edges_of : list itri -> list iedge -> list itri.
  (** get_container_mask of the vertices of an edge / a triangle (facet_intersections.hpp:54-69) *)
  Variable edge_mask : vtx -> vtx -> emask.
  Variable tri_mask : vtx -> vtx -> vtx -> tmask.
  (** EdgeIntersections::bake, TriangleIntersections::bake (which reads the intersections of its edges) *)
  (** they read the cached mask; the edge forgets its earlier result first (facet_intersections_impl.hpp:8), the triangle does not (:239-372, [intersections] only grows) *)
  Variable edge_bake : option grid -> emask -> vtx -> vtx -> Z -> eres.
  Variable tri_bake : option grid -> tmask -> tres -> vtx * vtx * vtx -> list eres -> itri -> Z -> tres.
  Variable no_eres : eres. Variable no_tres : tres.   (* after clear(): no intersections *)
  (** compute_crossings; the edges and faces added by bake *)
  Variable crossings_of : indexer -> bool -> list vtx -> list eres -> list tres -> cross.
  Variable cut_edges_of : cross -> list (iedge * emask * eres * Z) -> list tres -> list cedge.
  Variable cut_faces_of : cross -> list (itri * tmask * tres * Z) -> list eres -> list cface.
  Variable no_cross : cross.

  (** one EdgeIntersections / TriangleIntersections: corners as positions in m_V (the code keeps pointers), cached mask, results, index *)
  Record eis := mkEis { ei_ends : iedge; ei_mask : emask; ei_res : eres; ei_ix : Z }.
  Record tis := mkTis { ti_corners : itri; ti_mask : tmask; ti_edges : itri; ti_res : tres; ti_ix : Z }.
  Record cutdata := mkCD { cd_ix : indexer; cd_V : list vtx; cd_E : list iedge; cd_F : list itri; cd_FE : list itri;
    cd_eis : list eis; cd_tis : list tis;
    cd_ptrs : bool;          (* the vertex pointers inside cd_eis and cd_tis point into the current m_V *)
    cd_cross : cross; cd_edges : list cedge; cd_faces : list cface }.
  Definition vget (V : list vtx) (i : Z) : option vtx := if i <? 0 then None else nth_error V (Z.to_nat i).
  Fixpoint all (A B : Type) (f : A -> option B) (l : list A) : option (list B) :=
    match l with [] => Some [] | a :: t => match f a, all f t with Some b, Some bs => Some (b :: bs) | _, _ => None end end.
  Definition numbered (A : Type) (l : list A) : list (Z * A) := combine (map Z.of_nat (seq 0 (length l))) l.
  Definition set_ptrs (b : bool) (s : cutdata) : cutdata := mkCD (cd_ix s) (cd_V s) (cd_E s) (cd_F s) (cd_FE s) (cd_eis s) (cd_tis s) b (cd_cross s) (cd_edges s) (cd_faces s).
  (** cutdata.hpp:71-72: only m_V changes; assignment may move the storage, so pointers into the old one must not be used any more *)
  Definition set_vertices (V : list vtx) (s : cutdata) : cutdata :=
    mkCD (cd_ix s) V (cd_E s) (cd_F s) (cd_FE s) (cd_eis s) (cd_tis s) (match cd_eis s, cd_tis s with [], [] => true | _, _ => false end) (cd_cross s) (cd_edges s) (cd_faces s).
  (** :410-428 and the constructors (facet_intersections.hpp:96-103, 199-216); None = a vertex or edge index out of range *)
  Definition new_eis (V : list vtx) (p : Z * iedge) : option eis :=
    let '(i, (a, b)) := p in match vget V a, vget V b with Some x, Some y => Some (mkEis (a, b) (edge_mask x y) no_eres i) | _, _ => None end.
  Definition new_tis (V : list vtx) (p : Z * (itri * itri)) : option tis :=
    let '(i, ((a, b, c), fe)) := p in match vget V a, vget V b, vget V c with Some x, Some y, Some z => Some (mkTis (a, b, c) (tri_mask x y z) fe no_tres i) | _, _, _ => None end.
  Definition reset_intersections (s : cutdata) : option cutdata :=
    let FE := match cd_FE s with [] => face_edges_of (cd_F s) (cd_E s) | l => l end in
    if (length FE <? length (cd_F s))%nat then None else
    match all (new_eis (cd_V s)) (numbered (cd_E s)), all (new_tis (cd_V s)) (numbered (combine (cd_F s) FE)) with
    | Some es, Some ts => Some (mkCD (cd_ix s) (cd_V s) (cd_E s) (cd_F s) FE es ts true (cd_cross s) (cd_edges s) (cd_faces s))
    | _, _ => None
    end.
  (** :346-362 (three-dimensional case); nothing of the previous result is cleared *)
  Definition set_topology_EF (E : list iedge) (F FEA : list itri) (s : cutdata) : option cutdata :=
    match cd_V s, F with
    | [], _ => reset_intersections (mkCD (cd_ix s) (cd_V s) [] [] [] (cd_eis s) (cd_tis s) (cd_ptrs s) (cd_cross s) (cd_edges s) (cd_faces s))
    | _, [] => None      (* assert(F.size() > 0) *)
    | _, _ => reset_intersections (mkCD (cd_ix s) (cd_V s) E F FEA (cd_eis s) (cd_tis s) (cd_ptrs s) (cd_cross s) (cd_edges s) (cd_faces s))
    end.
  (** :27-36 *)
  Definition set_topology (F : list itri) (s : cutdata) : option cutdata := match F with [] => Some s | _ => set_topology_EF (edges_of_faces F) F [] s end.
  (** :374-383; None = a dangling pointer is read *)
  Definition refresh_eis (V : list vtx) (e : eis) : option eis :=
    match vget V (fst (ei_ends e)), vget V (snd (ei_ends e)) with Some x, Some y => Some (mkEis (ei_ends e) (edge_mask x y) (ei_res e) (ei_ix e)) | _, _ => None end.
  Definition refresh_tis (V : list vtx) (t : tis) : option tis :=
    let '(a, b, c) := ti_corners t in
    match vget V a, vget V b, vget V c with Some x, Some y, Some z => Some (mkTis (ti_corners t) (tri_mask x y z) (ti_edges t) (ti_res t) (ti_ix t)) | _, _, _ => None end.
  Definition update_topology_masks (s : cutdata) : option cutdata :=
    if cd_ptrs s then match all (refresh_eis (cd_V s)) (cd_eis s), all (refresh_tis (cd_V s)) (cd_tis s) with
      | Some es, Some ts => Some (mkCD (cd_ix s) (cd_V s) (cd_E s) (cd_F s) (cd_FE s) es ts true (cd_cross s) (cd_edges s) (cd_faces s)) | _, _ => None end
    else None.
  (** :390-397, 40-54 and facet_intersections.hpp:117-120, 219-224 (the masks are recomputed there too) *)
  Definition clear (s : cutdata) : option cutdata :=
    if cd_ptrs s then match all (refresh_eis (cd_V s)) (cd_eis s), all (refresh_tis (cd_V s)) (cd_tis s) with
      | Some es, Some ts => Some (mkCD (cd_ix s) (cd_V s) (cd_E s) (cd_F s) (cd_FE s) (map (fun e => mkEis (ei_ends e) (ei_mask e) no_eres (ei_ix e)) es)
                         (map (fun t => mkTis (ti_corners t) (ti_mask t) (ti_edges t) no_tres (ti_ix t)) ts) true no_cross [] [])
      | _, _ => None end
    else None.
  (** :366-371; the number of vertices must not change (assert) *)
  Definition update_vertices (V : list vtx) (s : cutdata) : option cutdata :=
    if (length V =? length (cd_V s))%nat then
      match clear (mkCD (cd_ix s) V (cd_E s) (cd_F s) (cd_FE s) (cd_eis s) (cd_tis s) (cd_ptrs s) (cd_cross s) (cd_edges s) (cd_faces s)) with
      | Some s1 => update_topology_masks s1 | None => None end
    else None.
  (** :385-387 *)
  Definition update_grid (ix : indexer) (s : cutdata) : cutdata := mkCD ix (cd_V s) (cd_E s) (cd_F s) (cd_FE s) (cd_eis s) (cd_tis s) (cd_ptrs s) (cd_cross s) (cd_edges s) (cd_faces s).
  (** :398-409 *)
  Definition reset (s : cutdata) : cutdata := mkCD (cd_ix s) [] [] [] [] [] [] true no_cross [] [].
  Definition reset_topology (s : cutdata) : cutdata := set_vertices (cd_V s) (reset s).
  (** :431-434, add_edge_isect: the EdgeIntersections is copied ([auto eis = ...]), the copy changed and dropped *)
  Definition add_edge_isect (idx : Z) (t : emask) (s : cutdata) : cutdata := s.
  (** :83-270.  [fuse] is not passed on: compute_crossings() is called with its default, true (:110) *)
  Definition bake_eis (g : option grid) (V : list vtx) (e : eis) : option eis :=
    match vget V (fst (ei_ends e)), vget V (snd (ei_ends e)) with Some x, Some y => Some (mkEis (ei_ends e) (ei_mask e) (edge_bake g (ei_mask e) x y (ei_ix e)) (ei_ix e)) | _, _ => None end.
  Definition bake_tis (g : option grid) (V : list vtx) (rs : list eres) (t : tis) : option tis :=
    let '(a, b, c) := ti_corners t in
    match vget V a, vget V b, vget V c with Some x, Some y, Some z => Some (mkTis (ti_corners t) (ti_mask t) (ti_edges t) (tri_bake g (ti_mask t) (ti_res t) (x, y, z) rs (ti_edges t) (ti_ix t)) (ti_ix t)) | _, _, _ => None end.
  Definition bake (g : option grid) (fuse : bool) (s : cutdata) : option cutdata :=
    if cd_ptrs s then
      match all (bake_eis g (cd_V s)) (cd_eis s) with
      | Some es => match all (bake_tis g (cd_V s) (map ei_res es)) (cd_tis s) with
         | Some ts =>
             let c := crossings_of (cd_ix s) true (cd_V s) (map ei_res es) (map ti_res ts) in
             Some (mkCD (cd_ix s) (cd_V s) (cd_E s) (cd_F s) (cd_FE s) es ts true c
                     (cd_edges s ++ cut_edges_of c (map (fun e => (ei_ends e, ei_mask e, ei_res e, ei_ix e)) es) (map ti_res ts))
                     (cd_faces s ++ cut_faces_of c (map (fun t => (ti_corners t, ti_mask t, ti_res t, ti_ix t)) ts) (map ei_res es)))
         | None => None end
      | None => None end
    else None.
  Definition empty (ix : indexer) : cutdata := mkCD ix [] [] [] [] [] [] true no_cross [] [].

  (** the constructors, :11-26; without faces nothing but the vertices is set *)
  Definition construct (ix : indexer) (V : list vtx) (E : list iedge) (F FEA : list itri) : option cutdata :=
    match F with [] => Some (set_vertices V (empty ix)) | _ => set_topology_EF E F FEA (set_vertices V (empty ix)) end.

  (** the public operations *)
  Inductive op := OSetV (V : list vtx) | OUpdV (V : list vtx) | OTop (F : list itri) | OTopE (E : list iedge) (F FEA : list itri) | OGrid (ix : indexer) | OClear | OReset | OResetTop | OResetIs | OMasks | OAdd (i : Z) (t : emask) | OBake (g : option grid) (fuse : bool).
  Definition exec (o : op) (s : cutdata) : option cutdata :=
    match o with
    | OSetV V => Some (set_vertices V s) | OUpdV V => update_vertices V s | OTop F => set_topology F s | OTopE E F FEA => set_topology_EF E F FEA s
    | OGrid ix => Some (update_grid ix s) | OClear => clear s | OReset => Some (reset s) | OResetTop => Some (reset_topology s) | OResetIs => reset_intersections s
    | OMasks => update_topology_masks s | OAdd i t => Some (add_edge_isect i t s) | OBake g f => bake g f s
    end.
  Fixpoint run (os : list op) (s : cutdata) : option cutdata := match os with [] => Some s | o :: t => match exec o s with Some s' => run t s' | None => None end end.

  (** SliceGenerator: planar_slicer.cpp:21-29, 31-33, 68-76.  [local] = the embedding of a transformed mesh in its 2 x 2 x 3 grid *)
  Variables (point : Type) (local : list point -> point -> vtx) (grid_of : list point -> grid) (index_of : list point -> indexer) (ix0 : indexer) (local0 : point -> vtx).
  Record slicer := mkSl { sl_V : list point; sl_data : cutdata }.
  Definition slicer_new (V : list point) (F : list itri) : option slicer :=
    option_map (mkSl V) (set_topology F (set_vertices (map local0 V) (empty ix0))).
  (** :31-33: the CutData keeps the old vertices until the next slice *)
  Definition slicer_set_vertices (V : list point) (s : slicer) : slicer := mkSl V (sl_data s).
  (** :68-76, up to the results read afterwards: crossings, edges and faces of the data *)
  Definition slice (T : point -> point) (s : slicer) : option slicer :=
    let VT := map T (sl_V s) in
    match update_vertices (map (local VT) VT) (update_grid (index_of VT) (sl_data s)) with
    | Some d => match clear d with Some d1 => option_map (mkSl (sl_V s)) (bake (Some (grid_of VT)) false d1) | None => None end
    | None => None
    end.
  Inductive sop := SSet (V : list point) | SSlice (T : point -> point).
  Definition sexec (o : sop) (s : slicer) : option slicer := match o with SSet V => Some (slicer_set_vertices V s) | SSlice T => slice T s end.
  Fixpoint srun (os : list sop) (s : slicer) : option slicer := match os with [] => Some s | o :: t => match sexec o s with Some s' => srun t s' | None => None end end.
End Life.
