(** Model of the grid cell mask: CutCellEdgeGenerator<D>::active_cells, bake_active_grid_cell_mask and is_active_cell
    (include/mandoline/construction/generator_impl.hpp:274-329, 690-733, 1088-1090) and
    per_boundary_cell_vertex_looper (include/mandoline/construction/generator.hpp:147-161).
    A mask is a function on coordinates; only the coordinates inside the cell shape are ever read. *)
From Verif Require Import Base Num CoordMask Vertex VertexTypes Grid GridEdges.
Set Implicit Arguments.
Local Open Scope Z_scope.

(** generator_impl.hpp:284-297 (the recursion mac): on each axis the cell itself, and also the previous one when quot is exactly 0.
    The array myc is shared by the recursion but every entry is rewritten before it is used. *)
Fixpoint touched_cells (c : coord) (q : list Qc) : list coord :=
  match c, q with
  | x :: c', y :: q' =>
      let rest := touched_cells c' q' in
      if qeqb y 0%Qc then map (cons x) rest ++ map (cons (x - 1)) rest else map (cons x) rest
  | _, _ => [[]]
  end.
(** generator_impl.hpp:278-317 add_cells: mycells also holds c itself *)
Definition add_cells (c : coord) (q : list Qc) : list coord := c :: touched_cells c q.
(** generator_impl.hpp:274-329: a std::set, so sorted and without duplicates *)
Definition active_cells (crossings : list vertex) : list coord :=
  set_of_list zlex (flat_map (fun v => add_cells (v_coord v) (v_quot v)) crossings).

(** std::bitset<D>(i) for i = 0 .. 2^D-1 (as a list; the order of the loop does not matter below) *)
Fixpoint all_bitsets (D : nat) : list (list bool) :=
  match D with
  | O => [[]]
  | S d => map (cons false) (all_bitsets d) ++ map (cons true) (all_bitsets d)
  end.
(** generator.hpp:148-161 per_boundary_cell_vertex_looper(N, _, c): cc = c + bs for every bitset whose bit N is 0 *)
Definition cell_edge_bases (N : nat) (c : coord) : list coord :=
  map (fun bs => zipwith (fun x (b : bool) => if b then x + 1 else x) c bs)
      (filter (fun bs => negb (nth N bs false)) (all_bitsets (length c))).

(** The writes of bake_active_grid_cell_mask: mask(c) = false, and m_per_axis_crossings[i][a] (operator[] creates the entry) *)
Inductive write := MaskFalse (c : coord) | TouchEdge (i : nat) (a : coord).
(** generator_impl.hpp:719-731: what the iteration i of the parallel loop does, in its own order *)
Definition axis_writes (s : list Z) (cells : list coord) (i : nat) : list write :=
  flat_map (fun c => if in_shape s c then MaskFalse c :: map (TouchEdge i) (cell_edge_bases i c) else []) cells.

(** the mask and the keys of m_per_axis_crossings *)
Record mask_state := mkMS { ms_mask : coord -> bool; ms_edges : nat -> list coord }.
Definition ceqb (a b : coord) : bool := match zlex a b with Eq => true | _ => false end.
Definition do_write (st : mask_state) (w : write) : mask_state :=
  match w with
  | MaskFalse c => mkMS (fun x => if ceqb x c then false else ms_mask st x) (ms_edges st)
  | TouchEdge i a => mkMS (ms_mask st) (fun j => if (j =? i)%nat then set_insert zlex a (ms_edges st j) else ms_edges st j)
  end.
(** generator_impl.hpp:692-700: mask = Constant(true), stores filled from the crossings *)
Definition initial (D : nat) (crossings : list vertex) : mask_state :=
  mkMS (fun _ => true)
       (fun j => set_of_list zlex (map v_coord (filter (fun v => on_grid_edge D j (v_coord v) v) crossings))).
Definition run_writes (D : nat) (crossings : list vertex) (ws : list write) : mask_state :=
  fold_left do_write ws (initial D crossings).

(** #pragma omp parallel for over the axes: every interleaving of the per-axis write sequences may happen. *)
Inductive interleaving : list (list write) -> list write -> Prop :=
| il_nil ls : Forall (fun l => l = []) ls -> interleaving ls []
| il_step ls1 w l ls2 ws : interleaving (ls1 ++ l :: ls2) ws -> interleaving (ls1 ++ (w :: l) :: ls2) (w :: ws).
Definition schedule (D : nat) (s : list Z) (crossings : list vertex) (ws : list write) : Prop :=
  interleaving (map (axis_writes s (active_cells crossings)) (seq 0 D)) ws.
(** generator_impl.hpp:1088-1090 *)
Definition is_active_cell (s : list Z) (m : coord -> bool) (c : coord) : bool := in_shape s c && m c.
