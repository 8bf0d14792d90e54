(** Model of grid edge subdivision: get_per_axis_crossing_indices and bake_edges
    (include/mandoline/construction/generator_impl.hpp:477-503, 734-795). *)
From Verif Require Import Base Num CoordMask Vertex VertexTypes Grid.
Set Implicit Arguments.
Local Open Scope Z_scope.

(** generator_impl.hpp:487-501: does this crossing land in per_axis[j][c]?
    gv.clamped_indices.count() == D-1, first unclamped axis is j, same coord. *)
Definition on_grid_edge (D : nat) (j : nat) (c : coord) (v : vertex) : bool :=
  (length (filter (fun b => b) (v_clamped v)) =? D - 1)%nat
  && (find_unbound v =? Z.of_nat j)
  && match zlex (v_coord v) c with Eq => true | _ => false end.

(** generator_impl.hpp:494: per_axis[j][coord].emplace(crossing) into a set ordered by
    EdgeCrossing::operator< (vertex_types_impl.hpp:187-192) i.e. by edge_coord() = quot(axis); the first
    crossing inserted with a coordinate stays.  The set is modelled as the sorted list of
    (edge_coord, index).  Crossings with no such component (impossible here) are skipped. *)
Definition edge_store (D j : nat) (c : coord) (crs : list (vertex * Z)) : list (Qc * Z) :=
  fold_left (fun s '(v, i) =>
      if on_grid_edge D j c v then
        match nth_error (v_quot v) j with Some t => map_emplace qcmp t i s | None => s end
      else s) crs [].

(** generator_impl.hpp:746-750, map<double,int> with entries 0 and 1, then std::inserter of (edge_coord, index):
    existing keys are kept *)
Definition edge_points (e0 e1 : Z) (cs : list (Qc * Z)) : list (Qc * Z) :=
  fold_left (fun m '(t, i) => map_emplace qcmp t i m) cs
    (map_set qcmp 1%Qc e1 (map_set qcmp 0%Qc e0 [])).

(** generator_impl.hpp:760-766: consecutive pairs, degenerate ones skipped *)
Fixpoint chain_edges (vec : list Z) : list (Z * Z) :=
  match vec with
  | a :: (b :: _) as t => if a =? b then chain_edges t else (a, b) :: chain_edges t
  | _ => []
  end.
(** generator_impl.hpp:742-767, add_edges without the masks *)
Definition subdivide (e0 e1 : Z) (cs : list (Qc * Z)) : list (Z * Z) :=
  chain_edges (map snd (edge_points e0 e1 cs)).

(** c[type]++ *)
Fixpoint coord_inc (j : nat) (c : coord) : coord :=
  match c, j with
  | [], _ => []
  | x :: t, O => (x + 1) :: t
  | x :: t, S j' => x :: coord_inc j' t
  end.
(** generator_impl.hpp:734-739, get_grid_edge; s is the vertex shape *)
Definition get_grid_edge (s : list Z) (c : coord) (j : nat) : Z * Z := (ravel s c, ravel s (coord_inc j c)).
(** all the sub-edges generated for the grid edge (c, j) *)
Definition grid_edge_pieces (D : nat) (s : list Z) (crs : list (vertex * Z)) (j : nat) (c : coord) : list (Z * Z) :=
  subdivide (fst (get_grid_edge s c j)) (snd (get_grid_edge s c j)) (edge_store D j c crs).
