(** Model of construction::CellCollapser (src/construction/cell_collapser.cpp,
    include/mandoline/construction/cell_collapser.hpp).  Face ids and vertex ids are assumed non-negative where stated. *)
From Verif Require Import Base Num SmallestEdge DisjointSet FaceCollapser.
Set Implicit Arguments.
Local Open Scope Z_scope.

(** cell_collapser.hpp:23: HalfFace = tuple<int, Edge> *)
Definition hface := (Z * edge)%type.
Definition hf_cmp : hface -> hface -> comparison := pair_cmp Z.compare edge_cmp.
Definition hfmap := list (hface * (Z * bool)).
Definition loop := list Z.
Definition mem_edge (e : edge) (l : list edge) : bool := existsb (edge_eqb e) l.

(** cell_collapser.cpp:84-97: the edges of C that also occur reversed, both directions *)
Definition reversed_edges (C : loop) : list edge :=
  flat_map (fun '(a, b) => if mem_edge (b, a) (cyc_pairs C) then [(b, a); (a, b)] else []) (cyc_pairs C).
(** cell_collapser.cpp:101-107: next[C[i]] = C[j] for the edges not in invalid_edges *)
Definition next_map (invalid : list edge) (C : loop) : list (Z * Z) :=
  fold_left (fun nx '(a, b) => if mem_edge (a, b) invalid then nx else map_set Z.compare a b nx) (cyc_pairs C) [].
(** cell_collapser.cpp:127-131: follow next (operator[] gives 0 for a missing key) until a seen vertex *)
Fixpoint follow (fuel : nat) (nx : list (Z * Z)) (seen : list Z) (cur : Z) : list Z :=
  match fuel with
  | O => []
  | S k => if existsb (Z.eqb cur) seen then []
           else cur :: follow k nx (cur :: seen) (match map_find Z.compare cur nx with Some n => n | None => 0 end)
  end.
(** cell_collapser.cpp:117-133. The loop over next runs over the keys present at the start: a key 0 inserted by
    operator[] is the smallest one (ids are non-negative) and so is never visited later. *)
Fixpoint split_loops (nx todo : list (Z * Z)) (seen : list Z) : list loop :=
  match todo with
  | [] => []
  | (start, n) :: t =>
      if existsb (Z.eqb start) seen then split_loops nx t seen
      else let tail := follow (2 * length nx + 2) nx (start :: seen) n in
           (start :: tail) :: split_loops nx t (tail ++ start :: seen)
  end.
(** cell_collapser.cpp:73-140, clean_unmanifold: result, flap edges, new invalid_edges *)
Definition clean_unmanifold (invalid : list edge) (C : loop) : list loop * list edge * list edge :=
  let rev := reversed_edges C in
  let flaps := set_of_list edge_cmp (filter (fun e => snd e <? fst e) rev) in
  let invalid' := fold_left (fun s e => set_insert edge_cmp e s) rev invalid in
  let nx := next_map invalid' C in
  (match invalid' with
   | [] => [C]
   | _ => if (length nx <? length C)%nat then set_of_list zlex (split_loops nx nx []) else [C]
   end, flaps, invalid').

Record ccol := mkCC { cc_hf : hfmap; cc_faces : list (Z * list loop); cc_invalid : list edge; cc_ops : list ds_op }.
(** cell_collapser.cpp:33-56, add_halfface (base is always 0) *)
Definition add_halfface (fid : Z) (x : hfmap * list ds_op) (e : edge) : hfmap * list ds_op :=
  (map_set hf_cmp (fid, swap_edge e) (100 * fid + 1, false) (map_set hf_cmp (fid, e) (100 * fid, true) (fst x)),
   snd x ++ [OpAdd (100 * fid); OpAdd (100 * fid + 1)]).
(** cell_collapser.cpp:20-30: clean every loop of a face; the flap set is overwritten by each loop *)
Definition clean_face (invalid : list edge) (loops : list loop) : list loop * list edge * list edge :=
  fold_left (fun '(acc, _, inv) C2 =>
    let '(Cs, flaps, inv') := clean_unmanifold inv C2 in
    (fold_left (fun s C => if (length C <? 3)%nat then s else set_insert zlex C s) Cs acc, flaps, inv'))
    loops ([], [], invalid).
(** cell_collapser.cpp:9-71, constructor *)
Definition add_face (x : ccol) (fl : Z * list loop) : ccol :=
  let '(fid, loops) := fl in
  let '(cs, flaps, inv) := clean_face (cc_invalid x) loops in
  match cs with
  | [] => mkCC (cc_hf x) (cc_faces x) inv (cc_ops x)
  | _ => let y := fold_left (add_halfface fid) (flat_map cyc_pairs cs ++ flaps) (cc_hf x, cc_ops x) in
         mkCC (fst y) (map_set Z.compare fid cs (cc_faces x)) inv (snd y)
  end.
Definition cc_build (faces : list (Z * list loop)) : ccol := fold_left add_face faces (mkCC [] [] [] []).

(** cell_collapser.cpp:156-165, collect_halffaces: faces having a half-face on e (a set of pointers: order unspecified) *)
Definition faces_at (m : hfmap) (e : edge) : list Z := map (fun x => fst (fst x)) (filter (fun x => edge_eqb e (snd (fst x))) m).
Definition collected_edges (x : ccol) : list edge :=
  filter (fun e => negb (mem_edge e (cc_invalid x))) (set_of_list edge_cmp (map (fun y => snd (fst y)) (cc_hf x))).
(** cell_collapser.cpp:173-175, cell: at() *)
Definition cell_id (m : hfmap) (h : hface) : option Z := option_map fst (map_find hf_cmp h m).
(** cell_collapser.hpp:140-152, the join loop of merge_around_edge. [ord e fs] is the cyclic order of the faces around e
    (mtao::geometry::cyclic_order, external, applied to projected normals). dual_cell swaps the edge (cell_collapser.cpp:166-172) *)
Definition around_ops (ord : edge -> list Z -> list Z) (m : hfmap) (e : edge) : list ds_op :=
  flat_map (fun '(f, f1) => match cell_id m (f, e), cell_id m (f1, swap_edge e) with
                            | Some i, Some j => [OpJoin i j] | _, _ => [] end) (cyc_pairs (ord e (faces_at m e))).
(** cell_collapser.hpp:154-166, merge: every collected edge once *)
Definition merge_ops (ord : edge -> list Z -> list Z) (open : bool) (x : ccol) : list ds_op :=
  flat_map (fun e => if (fst e <? snd e) && (open || (1 <? length (faces_at (cc_hf x) e))%nat) then around_ops ord (cc_hf x) e else [])
    (collected_edges x).
(** cell_collapser.cpp:275-293, fill_cell_boundaries *)
Definition cell_reindexer (d : ds) : list (Z * Z) :=
  fold_left (fun re n => map_set Z.compare n (Z.of_nat (length re)) re) (ds_roots d) [].
Definition final_hf (d : ds) (m : hfmap) : hfmap :=
  map (fun '(h, (c, b)) =>
    (h, (if 0 <=? c then match map_find Z.compare (match ds_root d c with Some r => r | None => c end) (cell_reindexer d) with
                         | Some k => k | None => 0 end else c, b))) m.
(** one cell's map<int,bool>: m_cell_boundaries[c][fid] = b in half-face order *)
Definition boundary_of (m : hfmap) (c : Z) : list (Z * bool) :=
  fold_left (fun acc '((f, _), (c', b)) => if c' =? c then map_set Z.compare f b acc else acc) m [].
Record cells := mkCells { cl_hf : hfmap; cl_bnd : list (list (Z * bool)) }.
Definition collapse (lnk : ds -> Z -> Z -> bool) (ord : edge -> list Z -> list Z) (open : bool) (faces : list (Z * list loop)) : cells :=
  let x := cc_build faces in
  let d := ds_run lnk (cc_ops x ++ merge_ops ord open x) in
  let m := final_hf d (cc_hf x) in
  mkCells m (map (boundary_of m) (zrange 0 (length (cell_reindexer d)))).
(** cell_collapser.cpp:143-152, folded_faces *)
Definition folded_faces (m : hfmap) : list Z :=
  set_of_list Z.compare (flat_map (fun '((f, e), (c, _)) =>
    match cell_id m (f, swap_edge e) with Some c' => if c' =? c then [f] else [] | None => [] end) m).

(** *** removal of boundary cells; a cell is its face map *)
Definition cellb := list (Z * bool).
(** cell_collapser.cpp:192-202, remove_boundary_cells_from_faces *)
Definition remove_from_faces (bf : list Z) (cs : list cellb) : list cellb :=
  filter (fun m => negb (forallb (fun '(i, _) => existsb (Z.eqb i) bf) m)) cs.
(** cell_collapser.cpp:203-228, remove_boundary_cells_from_vertices *)
Definition remove_from_vertices (faces : list (Z * list loop)) (bv : list Z) (cs : list cellb) : list cellb :=
  remove_from_faces (set_of_list Z.compare
    (map fst (filter (fun '(_, ls) => forallb (forallb (fun v => existsb (Z.eqb v) bv)) ls) faces))) cs.
(** cell_collapser.cpp:229-243, remove_boundary_cells; [ext f] = face f has external_boundary set *)
Definition remove_boundary_cells (ext : Z -> bool) (cs : list cellb) : list cellb :=
  filter (fun m => negb (forallb (fun '(f, _) => ext f) m)) cs.
(** cell_collapser.cpp:244-264, remove_grid_boundary_cells; [mask f] lists the bound axes of face f with their values:
    count() == 1, bound_axis() and the value on it *)
Definition on_grid_boundary (shape : list Z) (mask : list (nat * Z)) : bool :=
  match mask with
  | [(ba, bv)] => (bv =? 0) || match nth_error shape ba with Some s => bv =? s | None => false end
  | _ => false
  end.
Definition remove_grid_boundary_cells (shape : list Z) (mask : Z -> list (nat * Z)) (cs : list cellb) : list cellb :=
  filter (fun m => negb (forallb (fun '(f, _) => on_grid_boundary shape (mask f)) m)) cs.
(** cell_collapser.cpp:266-273, remove_boundary_cells_by_volume *)
Definition cell_vol (vol : Z -> Qc) (m : cellb) : Qc :=
  fold_left (fun (v : Qc) (fb : Z * bool) => let (f, b) := fb in (v + (if b then 1 else - (1)) * vol f)%Qc) m 0%Qc.
Definition remove_by_volume (vol : Z -> Qc) (cs : list cellb) : list cellb :=
  filter (fun m => negb (qltb (cell_vol vol m) 0)) cs.
