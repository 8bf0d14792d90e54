(** Model of construction::FaceCollapser (src/construction/face_collapser.cpp,
    include/mandoline/construction/face_collapser.hpp). *)
From Verif Require Import Base Num SmallestEdge DisjointSet.
Set Implicit Arguments.
Local Open Scope Z_scope.

Definition swap_edge (e : edge) : edge := (snd e, fst e).
(** m_edge_to_face: directed edge -> (face id, same orientation as the input) *)
Definition emap := list (edge * (Z * bool)).
Record fcol := mkFC { fc_map : emap; fc_ds : ds; fc_deg : list (edge * edge) }.

(** mtao::iterator::enumerate *)
Fixpoint enum_from (A : Type) (k : Z) (l : list A) : list (Z * A) :=
  match l with [] => [] | a :: t => (k, a) :: enum_from (k + 1) t end.
(** face_collapser.cpp:8-21 (and :22-39 for a matrix of edges, where repeated columns are possible) *)
Definition init_map (edges : list edge) : emap :=
  fold_left (fun m '(cid, e) => map_set edge_cmp (swap_edge e) (2 * cid + 1, false) (map_set edge_cmp e (2 * cid, true) m))
    (enum_from 0 edges) [].
Definition init_ops (edges : list edge) : list ds_op :=
  flat_map (fun '(cid, _) => [OpAdd (2 * cid); OpAdd (2 * cid + 1)]) (enum_from 0 edges).

(** face_collapser.cpp:42-48, collect_edges: one-ring of every vertex *)
Definition collect_edges (m : emap) : list (Z * list Z) :=
  fold_left (fun ret '(e, _) =>
      let old := match map_find Z.compare (fst e) ret with Some s => s | None => [] end in
      map_set Z.compare (fst e) (set_insert Z.compare (snd e) old) ret) m [].
(** face_collapser.cpp:54-56, face(e): at() *)
Definition face_of (m : emap) (e : edge) : option Z := option_map fst (map_find edge_cmp e m).

(** face_collapser.cpp:59-68, set_edges_for_removal: note the edge is built from the loop POSITIONS i and j *)
Definition removal_ops_loop (m : emap) (loop : list Z) : list ds_op :=
  OpAdd (-1) :: flat_map (fun i =>
    let j := ((i + 1) mod length loop)%nat in
    match face_of m (Z.of_nat i, Z.of_nat j) with Some f => [OpJoin f (-1)] | None => [] end) (seq 0 (length loop)).
(** face_collapser.cpp:70-77, set_edge_for_removal *)
Definition removal_ops_edge (m : emap) (e : edge) : list ds_op :=
  OpAdd (-1) :: match face_of m e with Some f => [OpJoin f (-1)] | None => [] end.

(** face_collapser.hpp:168-186: consecutive (it, it1) cyclically *)
Definition cyc_pairs (l : list Z) : list (Z * Z) :=
  match l with [] => [] | a :: t => combine l (t ++ [a]) end.
(** one entry per corner: (e, ne) = ((it1, a), (a, it)) *)
Definition corner_list (ord : Z -> list Z -> list Z) (m : emap) : list (edge * edge) :=
  flat_map (fun '(a, bs) => map (fun '(it, it1) => ((it1, a), (a, it))) (cyc_pairs (ord a bs))) (collect_edges m).
(** dual_edge_graph[e] = ne *)
Definition deg_of (cs : list (edge * edge)) : list (edge * edge) :=
  fold_left (fun g '(e, ne) => map_set edge_cmp e ne g) cs [].
(** face_ds.join(face(e), face(ne)) *)
Definition corner_ops (m : emap) (cs : list (edge * edge)) : list ds_op :=
  flat_map (fun '(e, ne) => match face_of m e, face_of m ne with Some f, Some g => [OpJoin f g] | _, _ => [] end) cs.

(** face_collapser.hpp:113-186, unify_boundary_loops, after the removal marks [rm].  [ord a bs] is the
    result of sorting the neighbours bs of a by angle (see AngleSort). The set and the map are
    independent, so their two loops are written separately. *)
Definition unify (lnk : ds -> Z -> Z -> bool) (ord : Z -> list Z -> list Z) (m : emap) (adds rm : list ds_op) : fcol :=
  let cs := corner_list ord m in mkFC m (ds_run lnk (adds ++ rm ++ corner_ops m cs)) (deg_of cs).

(** positions and data of the roots: root_indices() *)
Definition root_positions (d : ds) : list (Z * Z) :=
  map (fun '(i, (n, _)) => (i, n)) (filter (fun '(_, (n, r)) => n =? r) (enum_from 0 d)).
(** face_collapser.cpp:196-219, finalize. reindexer[k] = reindexer.size() evaluates the right side first
    (C++17), i.e. before k is inserted; operator[] on a missing key gives 0. *)
Definition finalize_reindexer (d : ds) : list (Z * Z) :=
  let null_root := match ds_root d (-1) with Some r => r | None => -1 end in
  let re := fold_left (fun re '(i, n) => if i =? null_root then re else map_set Z.compare n (Z.of_nat (length re)) re)
              (root_positions d) [] in
  map_set Z.compare null_root (-1) re.
Definition finalize_map (d : ds) (m : emap) : emap :=
  map (fun '(e, (c, s)) =>
    let root := match ds_root d c with Some r => r | None => c end in
    (e, (match map_find Z.compare root (finalize_reindexer d) with Some k => k | None => 0 end, s))) m.
Definition finalize (x : fcol) : fcol := mkFC (finalize_map (fc_ds x) (fc_map x)) (fc_ds x) (fc_deg x).

(** face_collapser.hpp:104-112, bake(V, nonsimple_faces = false) *)
Definition bake_simple (lnk : ds -> Z -> Z -> bool) (ord : Z -> list Z -> list Z) (edges rm : list edge) : fcol :=
  let m := init_map edges in
  finalize (unify lnk ord m (init_ops edges) (flat_map (removal_ops_edge m) rm)).

(** face_collapser.cpp:104-107 / 158-161, inc; None = dereferencing end() *)
Definition inc (deg : list (edge * edge)) (e : edge) : option edge := map_find edge_cmp e deg.
Definition edge_eqb (e f : edge) : bool := (fst e =? fst f) && (snd e =? snd f).
(** face_collapser.cpp:131-145 / 185-196: the slow/fast pointer loop; returns the edges visited after the first *)
Fixpoint trace (fuel : nat) (deg : list (edge * edge)) (it it1 it2 : edge) : option (list edge) :=
  match fuel with
  | O => None
  | S k =>
      if edge_eqb it1 it || edge_eqb it1 it2 then Some []
      else match inc deg it1, (match inc deg it2 with Some x => inc deg x | None => None end) with
           | Some it1', Some it2' => option_map (cons it1) (trace k deg it it1' it2')
           | _, _ => None
           end
  end.
Definition trace_from (deg : list (edge * edge)) (it : edge) : option (list edge) :=
  match inc deg it with
  | Some it1 => match inc deg it1 with
                | Some it2 => option_map (cons it) (trace (S (length deg)) deg it it1 it2)
                | None => None
                end
  | None => None
  end.
(** face_collapser.cpp:151-195, faces(): the loop over dual_edge_graph with the set of available edges.
    Result: the list of (face id, loop of half-edges) in discovery order; the code stores the first vertices
    of the half-edges of a loop in ret[face]. *)
Fixpoint faces_loop (m : emap) (deg todo : list (edge * edge)) (avail : list edge) : option (list (Z * list edge)) :=
  match todo with
  | [] => Some []
  | (e, _) :: t =>
      if existsb (edge_eqb e) avail then
        match face_of m e with
        | None => None
        | Some f =>
            if f <? 0 then faces_loop m deg t (filter (fun x => negb (edge_eqb e x)) avail)
            else match trace_from deg e with
                 | None => None
                 | Some l => option_map (cons (f, l))
                     (faces_loop m deg t (filter (fun x => negb (existsb (edge_eqb x) l)) avail))
                 end
        end
      else faces_loop m deg t avail
  end.
Definition face_loops (x : fcol) : option (list (Z * list edge)) :=
  faces_loop (fc_map x) (fc_deg x) (fc_deg x) (map fst (fc_deg x)).
(** face_collapser.cpp:151-195: std::map<int, std::set<std::vector<int>>> *)
Definition faces (x : fcol) : option (list (Z * list (list Z))) :=
  option_map (fun ls => fold_left (fun ret '(f, l) =>
      let old := match map_find Z.compare f ret with Some s => s | None => [] end in
      map_set Z.compare f (set_insert zlex (map fst l) old) ret) ls []) (face_loops x).
(** face_collapser.cpp:91-149, faces_no_holes: ret[myface] = face, later loops overwrite *)
Definition faces_no_holes (x : fcol) : option (list (Z * list Z)) :=
  option_map (fun ls => fold_left (fun ret '(f, l) => map_set Z.compare f (map fst l) ret) ls []) (face_loops x).
