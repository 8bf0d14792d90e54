(** Model of construction::AdaptiveGridFactory (src/construction/adaptive_grid_factory.cpp), cell part. width = 2, logwidth = 1. *)
From Verif Require Import Base Grid AdaptiveGrid.
Set Implicit Arguments.
Local Open Scope Z_scope.
(** the eight offsets of a block: cmask_indexer *)
Definition offsets : list c3 := loop3 (0, 0, 0) (2, 2, 2).
(** adaptive_grid_factory.cpp:287-318: levels[0](b)[o] = original(2b+o) inside the mask, 0 outside.
    320-352: levels[l+1](b)[o] = levels[l](2b+o).any() *)
Fixpoint level_bits (shape : c3) (original : c3 -> bool) (l : nat) (b o : c3) : bool :=
  let x := plus3 (scale3 2 b) o in
  match l with
  | O => in3 shape x && original x
  | S k => existsb (level_bits shape original k x) offsets
  end.
(** adaptive_grid_factory.cpp:288-293: size = 2^ceil(log2(max side)), level_count = max(1, ceil(log2)); exact log2 assumed *)
Definition max_side (s : c3) : Z := let '(n, m, k) := s in Z.max n (Z.max m k).
Definition lg (shape : c3) : nat := Z.to_nat (Z.log2_up (max_side shape)).
Definition level_count (shape : c3) : nat := Nat.max 1 (lg shape).
Definition pow2 (n : nat) : Z := 2 ^ Z.of_nat n.
(** shape of levels[l]: size / 2, then halved *)
Definition level_side (shape : c3) (l : nat) : Z := pow2 (lg shape) / pow2 (S l).
Definition any (bits : c3 -> bool) : bool := existsb bits offsets.
(** adaptive_grid_factory.cpp:403-421, make_cells(ActiveMask, level, coord): corners and widths passed to add_cell *)
Definition block_cells (bits : c3 -> bool) (level : nat) (coord : c3) : list acell :=
  flat_map (fun o => if bits o then [] else [(plus3 (scale3 (pow2 level) o) (scale3 (pow2 (S level)) coord), pow2 level)]) offsets.
(** adaptive_grid_factory.cpp:422-441, make_cells(GridData3, level) *)
Definition mask_cells (mshape : c3) (mask : c3 -> bool) (level : nat) : list acell :=
  flat_map (fun c => if mask c then [] else [(scale3 (pow2 level) c, pow2 level)]) (loop3 (0, 0, 0) mshape).
(** adaptive_grid_factory.cpp:354-387, make_cells(max_level): the add_cell calls, in order *)
Definition cube3 (n : Z) : c3 := (n, n, n).
Fixpoint emit_levels (shape : c3) (original : c3 -> bool) (max_level : option Z) (levels : list nat) : list acell :=
  match levels with
  | [] => []
  | l :: t =>
      if match max_level with Some m => m =? Z.of_nat l | None => false end then
        match l with
        | O => mask_cells shape original 0
        | S k => mask_cells (cube3 (level_side shape k)) (fun b => any (level_bits shape original k b)) l
        end
      else
        flat_map (fun b => if any (level_bits shape original l b) then block_cells (level_bits shape original l b) l b else [])
          (loop3 (0, 0, 0) (cube3 (level_side shape l)))
        ++ emit_levels shape original max_level t
  end.
Definition emit_cells (shape : c3) (original : c3 -> bool) (max_level : option Z) : list acell :=
  emit_levels shape original max_level (seq 0 (level_count shape)).
(** adaptive_grid_factory.cpp:397-401, add_cell: cells[original.index(abc)] = (abc, jump) (the assert is compiled out in release) *)
Definition factory_cells (shape : c3) (original : c3 -> bool) (max_level : option Z) : acells :=
  fold_left (fun m c => map_set Z.compare (index3 shape (fst c)) c m) (emit_cells shape original max_level) [].
