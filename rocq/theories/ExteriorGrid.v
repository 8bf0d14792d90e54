(** Model of ExteriorGrid<D> (include/mandoline/exterior_grid_impl.hpp) and DomainBoundary (src/domain_boundary.cpp,
    src/operators/boundary.cpp).  Coordinates are lists of length D; GridData is a function on in-range coordinates,
    iterated in row-major order (mtao's GridData / multi_loop). *)
From Verif Require Import Base Num CoordMask Grid SmallestEdge.
Set Implicit Arguments.
Local Open Scope Z_scope.

(** v[i] = x on std::array *)
Fixpoint upd (A : Type) (l : list A) (i : nat) (x : A) : list A :=
  match l, i with
  | [], _ => []
  | _ :: t, O => x :: t
  | a :: t, S k => a :: upd t k x
  end.
Definition at0 (l : list Z) (i : nat) : Z := nth i l 0.
Definition coord_eqb (a b : coord) : bool := if list_eq_dec Z.eq_dec a b then true else false.
(** exterior_grid_impl.hpp:12-19: transform with a running counter; mask true = outside the stencil *)
Fixpoint number_cells (mask : coord -> bool) (cs : list coord) (counter : Z) : list (coord * Z) * Z :=
  match cs with
  | [] => ([], counter)
  | c :: t =>
      if mask c then let '(r, n) := number_cells mask t (counter + 1) in ((c, counter) :: r, n)
      else let '(r, n) := number_cells mask t counter in ((c, -1) :: r, n)
  end.
Definition cell_table (shape : list Z) (mask : coord -> bool) : list (coord * Z) := fst (number_cells mask (all_coords shape) 0).
Definition ext_num_cells (shape : list Z) (mask : coord -> bool) : Z := snd (number_cells mask (all_coords shape) 0).
(** m_cell_indices(c) for c in range *)
Definition table_get (t : list (coord * Z)) (c : coord) : Z := match find (fun p => coord_eqb (fst p) c) t with Some (_, i) => i | None => -1 end.
Definition cell_ix (shape : list Z) (mask : coord -> bool) (c : coord) : Z := table_get (cell_table shape mask) c.
(** exterior_grid_impl.hpp:117-123, cell_index: valid_index test first *)
Definition ext_cell_index (shape : list Z) (mask : coord -> bool) (c : coord) : Z :=
  if negb (in_shape shape c) then -1 else cell_ix shape mask c.
(** exterior_grid_impl.hpp:21-26: resize(counter), then coords[idx] = c for idx >= 0 *)
Definition cell_coords (shape : list Z) (mask : coord -> bool) : list coord :=
  fold_left (fun l '(c, i) => if 0 <=? i then upd l (Z.to_nat i) c else l) (cell_table shape mask)
    (repeat (repeat 0 (length shape)) (Z.to_nat (ext_num_cells shape mask))).
(** exterior_grid_impl.hpp:31-71: the facets of axis i in order *)
Definition axis_facets (shape : list Z) (ix : coord -> Z) (i : nat) : list edge :=
  flat_map (fun v => let pi := ix v in if 0 <=? pi then [(-2, pi)] else []) (all_coords (upd shape i 1)) ++
  (let s := upd shape i (at0 shape i - 1) in
   if at0 s i <? 1 then []
   else
     flat_map (fun v => let v2 := upd v i (at0 v i + 1) in let ni := ix v in let pi := ix v2 in
                        if (ni =? -1) || (pi =? -1) then [] else [(ni, pi)]) (all_coords s) ++
     flat_map (fun v => let v' := upd v i (at0 shape i - 1) in let ni := ix v' in if 0 <=? ni then [(ni, -2)] else [])
       (all_coords (upd s i 1))).
(** m_boundary_facet_axes / m_boundary_facet_pairs in parallel *)
Definition facets (shape : list Z) (mask : coord -> bool) : list (nat * edge) :=
  flat_map (fun i => map (pair i) (axis_facets shape (cell_ix shape mask) i)) (seq 0 (length shape)).
Definition facet_pairs (shape : list Z) (mask : coord -> bool) : list edge := map snd (facets shape mask).

(** domain_boundary.hpp:33 *)
Definition is_boundary_facet (p : edge) : bool := (fst p =? -2) || (snd p =? -2).
(** domain_boundary.cpp:9-11: at(idx) *)
Definition is_boundary_facet_at (ps : list edge) (i : Z) : option bool :=
  if i <? 0 then None else option_map is_boundary_facet (nth_error ps (Z.to_nat i)).
(** domain_boundary.cpp:32-49: the loop destructures the pair itself, so [idx] is the first and [pr] the second cell of the facet;
    None = std::out_of_range *)
Fixpoint query_facets (want : bool) (ps l : list edge) (acc : list Z) : option (list Z) :=
  match l with
  | [] => Some acc
  | (idx, pr) :: t =>
      match is_boundary_facet_at ps pr with
      | None => None
      | Some b => query_facets want ps t (if Bool.eqb b want then set_insert Z.compare idx acc else acc)
      end
  end.
Definition boundary_facets (ps : list edge) : option (list Z) := query_facets true ps ps [].
Definition interior_facets (ps : list edge) : option (list Z) := query_facets false ps ps [].
(** src/operators/boundary.cpp:5-13, grid_boundary_faces(DomainBoundary) *)
Definition db_grid_boundary_faces (ps : list edge) (offset : Z) : list Z :=
  set_of_list Z.compare (flat_map (fun '(i, p) => if is_boundary_facet p then [Z.of_nat i + offset] else []) (combine (seq 0 (length ps)) ps)).
(** src/operators/boundary.cpp:14-23, boundary_triplets(DomainBoundary) *)
Definition db_boundary_triplets (ps : list edge) (include_domain_boundary : bool) : list (Z * Z * Z) :=
  flat_map (fun '(i, p) =>
      if include_domain_boundary || negb (is_boundary_facet p) then
        (if 0 <=? fst p then [(Z.of_nat i, fst p, -1)] else []) ++ (if 0 <=? snd p then [(Z.of_nat i, snd p, 1)] else [])
      else [])
    (combine (seq 0 (length ps)) ps).
(** exterior_grid_impl.hpp:74-104, boundary_facet_to_staggered_grid: row and the grid face (coordinate of its low corner, normal axis) that
    staggered_index encodes; None where cell_coord throws *)
Definition facet_face (coords : list coord) (axis : nat) (p : edge) : option (coord * nat) :=
  let at_ i := if i <? 0 then None else nth_error coords (Z.to_nat i) in
  let '(ai, bi) := p in
  if ai =? -2 then option_map (fun b => (b, axis)) (at_ bi)
  else if bi =? -2 then option_map (fun a => (upd a axis (at0 a axis + 1), axis)) (at_ ai)
  else if (0 <=? ai) && (0 <=? bi) then match at_ ai, at_ bi with Some _, Some b => Some (b, axis) | _, _ => None end
  else None.
Definition facets_to_grid (shape : list Z) (mask : coord -> bool) (offset : Z) : list (Z * option (coord * nat)) :=
  map (fun '(i, (axis, p)) => (Z.of_nat i + offset, facet_face (cell_coords shape mask) axis p)) (combine (seq 0 (length (facets shape mask))) (facets shape mask)).
