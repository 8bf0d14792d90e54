(** Model of the edge part of construction::AdaptiveGridFactory (src/construction/adaptive_grid_factory.cpp:45-306): the edge masks, get_edges, compute_axial_edges,
    compute_edges and make_edges.  width = 2, logwidth = 1.  A mask is kept as the list of the writes to it in program order; mtao's grids are functions on their index range.
    The prints and the unused counter edge_coverage are left out. *)
From Verif Require Import Base Num Grid SmallestEdge AdaptiveGrid AdaptiveFactory.
Set Implicit Arguments.
Local Open Scope Z_scope.

(** :142-144, the other two axes *)
Definition axis_x (d : nat) : nat := Nat.modulo (d + 1) 3.
Definition axis_y (d : nat) : nat := Nat.modulo (d + 2) 3.
(** :231-241, make_edge_shapes *)
Definition eshape (d : nat) (s : c3) : c3 := add3 (add3 s (axis_x d) 1) (axis_y d) 1.
(** a write to edge_masks[axis](position) *)
Definition ewrite := (nat * c3 * bool)%type.
(** :134-160, set_edge_masks *)
Definition clear_writes (shape corner : c3) (acc : c3 -> bool) : list ewrite :=
  flat_map (fun abc => if acc abc then
      flat_map (fun d => map (fun ij => (d, add3 (add3 (plus3 abc corner) (axis_x d) (fst ij)) (axis_y d) (snd ij), false)) [(0, 0); (0, 1); (1, 0); (1, 1)]) [0; 1; 2]%nat
    else []) (loop3 (0, 0, 0) shape).
(** :264-273, the edges of a block *)
Definition fill_writes (b : c3) : list ewrite := flat_map (fun k => map (fun c => (k, c, true)) (loop3 (scale3 2 b) (eshape k (2, 2, 2)))) [0; 1; 2]%nat.
(** :256-283, make_edge_mask(GridData3b) *)
Definition block_writes (shape : c3) (bits : c3 -> c3 -> bool) : list ewrite :=
  flat_map (fun b => if any (bits b) then fill_writes b ++ clear_writes (2, 2, 2) (scale3 2 b) (bits b) else []) (loop3 (0, 0, 0) shape).
(** what a mask holds after its writes *)
Definition emask := nat -> c3 -> bool.
Definition mask_value (start : bool) (ws : list ewrite) : emask := fun d c => fold_left (fun v '(k, x, b) => if Nat.eqb k d && c3_eqb x c then b else v) ws start.
Definition block_mask (shape : c3) (bits : c3 -> c3 -> bool) : emask := mask_value false (block_writes shape bits).
(** :284-298, make_edge_mask(GridData3) *)
Definition grid_mask (shape : c3) (mask : c3 -> bool) : emask := mask_value true (clear_writes shape (0, 0, 0) mask).
(** :346-350, the vertex indexer: (size + 1)^3 *)
Definition side (shape : c3) : Z := pow2 (lg shape).
Definition vidx (shape : c3) (p : c3) : Z := index3 (cube3 (side shape + 1)) p.
(** :226-230, get_edge *)
Definition get_edge (shape : c3) (start : c3) (jump : Z) (d : nat) : edge := (vidx shape start, vidx shape (add3 start d jump)).
(** a level: its number, the cells of its masks, its edge masks *)
Record elevel := mkEl { el_n : nat; el_shape : c3; el_mask : emask }.
(** :169-225, get_edges, the sets of edges *)
Definition level_edges (shape : c3) (L : elevel) (d : nat) : list edge :=
  flat_map (fun abc => if el_mask L d abc then [get_edge shape (scale3 (pow2 (el_n L)) abc) (pow2 (el_n L)) d] else []) (loop3 (0, 0, 0) (eshape d (el_shape L))).
(** levels_mask[l] and its shape (:320 and :351-381) *)
Definition lmask (shape : c3) (original : c3 -> bool) (l : nat) : c3 -> bool := match l with O => original | S k => fun b => any (level_bits shape original k b) end.
Definition lmask_shape (shape : c3) (l : nat) : c3 := match l with O => shape | S k => cube3 (level_side shape k) end.
(** :50-133, the masks get_edges sees, by level *)
Fixpoint edge_levels (shape : c3) (original : c3 -> bool) (max_level : option Z) (levels : list nat) : list elevel :=
  match levels with
  | [] => []
  | l :: t =>
      if match max_level with Some m => m =? Z.of_nat l | None => false end
      then [mkEl l (lmask_shape shape l) (grid_mask (lmask_shape shape l) (lmask shape original l))]
      else mkEl l (scale3 2 (cube3 (level_side shape l))) (block_mask (cube3 (level_side shape l)) (level_bits shape original l)) :: edge_levels shape original max_level t
  end.
Definition all_levels (shape : c3) (original : c3 -> bool) (max_level : option Z) : list elevel := edge_levels shape original max_level (seq 0 (level_count shape)).
(** :50-133, compute_axial_edges, and :161-168, compute_edges: std::set of index pairs *)
Definition axial_edges (shape : c3) (original : c3 -> bool) (max_level : option Z) (d : nat) : list edge :=
  set_of_list edge_cmp (flat_map (fun L => level_edges shape L d) (all_levels shape original max_level)).
Definition compute_edges (shape : c3) (original : c3 -> bool) (max_level : option Z) : list edge :=
  set_of_list edge_cmp (flat_map (axial_edges shape original max_level) [0; 1; 2]%nat).
(** :192-218, the boundary edges of one edge: axis, coordinate and edge of each insertion; None = a mask of levels_mask[level] read outside its range.
    :181-185 [at_border]: the first or the last index of an axis of the mask's grid *)
Definition at_border (d a : nat) (s c : c3) : bool := (get3 c a =? 0) || (get3 c a =? get3 (eshape d s) a - 1).
Definition nears (d : nat) (c : c3) : list c3 := flat_map (fun j => map (fun k => add3 c (Nat.modulo (d + j + 1) 3) (2 * k - 1)) [0; 1]) [0; 1]%nat.
Fixpoint near_hole (g : c3 -> bool) (og : c3 -> option bool) (xs : list c3) : option bool :=
  match xs with
  | [] => Some false
  | x :: t => if g x then near_hole g og t else match og x with Some true => Some true | Some false => near_hole g og t | None => None end
  end.
Definition border_entries (shape : c3) (L : elevel) (og : nat -> c3 -> option bool) (d : nat) (c : c3) : option (list (nat * Z * edge)) :=
  let e := get_edge shape (scale3 (pow2 (el_n L)) c) (pow2 (el_n L)) d in
  let b0 := at_border d (axis_x d) (el_shape L) c in let b1 := at_border d (axis_y d) (el_shape L) c in
  let both := [(axis_x d, get3 c (axis_x d), e); (axis_y d, get3 c (axis_y d), e)] in
  if b0 || b1
  then Some ((if b0 then [(axis_x d, get3 c (axis_x d), e)] else []) ++ (if b0 then [(axis_y d, get3 c (axis_y d), e)] else []))
  else option_map (fun h : bool => if h then both else []) (near_hole (el_mask L d) (og d) (nears d c)).
(** the mask of levels_mask[level] *)
Definition og_mask (shape : c3) (original : c3 -> bool) (l : nat) : nat -> c3 -> option bool :=
  fun d c => if in3 (eshape d (lmask_shape shape l)) c then Some (grid_mask (lmask_shape shape l) (lmask shape original l) d c) else None.
Fixpoint all_lists (A : Type) (l : list (option (list A))) : option (list A) :=
  match l with [] => Some [] | o :: t => match o, all_lists t with Some a, Some r => Some (a ++ r) | _, _ => None end end.
(** the insertions into AxialBEdgeMap of one level *)
Definition level_border (shape : c3) (original : c3 -> bool) (L : elevel) : option (list (nat * Z * edge)) :=
  all_lists (flat_map (fun d => map (fun c => if el_mask L d c then border_entries shape L (og_mask shape original (el_n L)) d c else Some []) (loop3 (0, 0, 0) (eshape d (el_shape L)))) [0; 1; 2]%nat).
