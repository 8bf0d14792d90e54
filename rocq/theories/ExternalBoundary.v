(** Model of the external boundary of cut facets:
    CutCellGenerator<3>::compute_faces (src/construction/generator3_make_faces.cpp:298-361), the signs filled in by bake_cells
    (src/construction/generator3.cpp:286-300) and make_boundary_pair of CutCellGenerator<2>::generate
    (src/construction/generator2.cpp:256-294).
    Assumed: StaggeredGrid::cell_index is the row-major index of the cell grid ([ravel]), is_valid_cell_coord its valid_index. *)
From Verif Require Import Base Num CoordMask Vertex Grid ActiveMask.
Set Implicit Arguments.
Local Open Scope Z_scope.

(** generator3_make_faces.cpp:313-318: first axis on which the two cells differ (the length when there is none) *)
Fixpoint first_diff (a b : coord) : nat :=
  match a, b with
  | x :: a', y :: b' => if x =? y then S (first_diff a' b') else O
  | _, _ => O
  end.

(** I.size() == 1 && I.begin()->size() == 4 *)
Definition single_quad (C : list (list Z)) : bool :=
  match C with [l] => (length l =? 4)%nat | _ => false end.

(** generator3_make_faces.cpp:300-359, one face: m its mask, C its loops.  The outer None is an out-of-bounds access.
    The sign written here is always 0 and is replaced in bake_cells. *)
Definition external3 (s : list Z) (act : coord -> bool) (V : Z -> vertex) (m : mask) (C : list (list Z)) : option (option Z) :=
  if (mask_count m =? 1)%nat then
    match gen_possible_cells2 V C with
    | None => None
    | Some [a; b] =>
        let idx := first_diff a b in
        match nth_error a idx, nth_error b idx, nth_error s idx with
        | Some x, Some y, Some n =>
            if x <? 0 then Some (Some (-2))
            else if n <=? y then Some (Some (-2))
            else if single_quad C then
              let pa := is_active_cell s act a in
              let na := is_active_cell s act b in
              if xorb na pa then
                if pa then (if in_shape s a then Some (Some (ravel s a)) else Some (Some (-2)))
                else (if in_shape s b then Some (Some (ravel s b)) else Some (Some (-2)))
              else Some None
            else Some None
        | _, _, _ => None
        end
    | Some _ => Some None
    end
  else Some None.

(** generator3.cpp:289-299: for every kept cell in order, and every (face, sign) of it, the external boundary of the face, if any,
    gets sign !sgn.  Cells are maps from face to sign. *)
Definition bake_sign (cells : list (list (Z * bool))) (f : Z) (start : bool) : bool :=
  fold_left (fun acc cell => match map_find Z.compare f cell with Some sgn => negb sgn | None => acc end) cells start.

(** generator2.cpp:256-294; geometry_possible_cells is possible_cells of the cut edge (coord_masked_geometry_impl.hpp:120-125);
    m_active_grid_cell_mask.get(index) reads the mask at the coordinate with that index. *)
Definition boundary_pair2 (s : list Z) (act : coord -> bool) (V : Z -> vertex) (e : list Z) : option (option (Z * bool)) :=
  match geometry_possible_cells V e with
  | None => None
  | Some [a; b] =>
      let idx := first_diff a b in
      match nth_error a idx, nth_error b idx, nth_error s idx with
      | Some x, Some y, Some n =>
          if x <? 0 then Some (Some (-2, true))
          else if n <=? y then Some (Some (-2, false))
          else
            let pi := ravel s a in
            let ni := ravel s b in
            let pa := act (unravel s pi) in
            let na := act (unravel s ni) in
            let sign := (Z.of_nat idx mod 2 =? 1) in
            if xorb na pa then
              if pa then Some (Some (pi, sign)) else Some (Some (ni, negb sign))
            else Some None
      | _, _, _ => None
      end
  | Some _ => Some None
  end.
