(** Model of TriangleIntersections<D> (include/mandoline/construction/facet_intersections.hpp:169-470 and
    facet_intersections_impl.hpp:239-455): the crossings of one input triangle with the grid planes.
    The triangle's edges are given by the pair of its vertex numbers they join (bary_indices) and their baked crossings.
    Sets of pointers are ordered by address in the code; the model keeps lists and the properties do not depend on their order. *)
From Verif Require Import Base Num CoordMask Vertex VertexTypes EdgeBake.
Set Implicit Arguments.
Local Open Scope Qc_scope.

Record tedge := mkTE { te_a : nat; te_b : nat; te_isects : list edge_isect }.
Record tri := mkTri { t_v : list vertex; t_edges : list tedge; t_index : Z }.
Definition tv (T : tri) (i : nat) : vertex := nth i (t_v T) (mkVertex [] [] []).
Definition te_gv (T : tri) (e : tedge) : list crossing := gvertices (tv T (te_a e)) (tv T (te_b e)) (te_isects e).

(** facet_intersections_impl.hpp:427-455, boundary_vptr_loop *)
Definition te_reverse (e : tedge) : bool := ((te_a e + 1) mod 3 =? te_b e)%nat.
Definition te_slot (e : tedge) : nat := (2 - (if te_reverse e then te_b e else te_a e))%nat.
(** std::array assignment in the loop: the last edge with that slot wins; None is a default-constructed (null) entry *)
Definition slot_edge (T : tri) (k : nat) : option tedge := find (fun e => (te_slot e =? k)%nat) (rev (t_edges T)).
Definition slot_part (T : tri) (k : nat) : option (list crossing) :=
  match slot_edge T k with
  | Some e => Some (if te_reverse e then tl (rev (te_gv T e)) else tl (te_gv T e))
  | None => None
  end.
Definition boundary_loop (T : tri) : option (list crossing) :=
  match slot_part T 0, slot_part T 1, slot_part T 2 with Some a, Some b, Some c => Some (a ++ b ++ c) | _, _, _ => None end.
(** :412-425, boundary_vptr_edge *)
Definition boundary_edge (T : tri) : option (crossing * crossing) :=
  match t_edges T with
  | e :: _ => match te_gv T e with
              | x :: y :: _ => Some (if te_reverse e then (y, x) else (x, y))
              | _ => None
              end
  | [] => None
  end.

(** barycentric coordinates: facet_intersections.hpp:398-404, edge_bary *)
Definition unit_bary (i : nat) : list Qc := map (fun j => if (j =? i)%nat then 1 else 0) (seq 0 3).
Definition edge_bary (i j : nat) (t : Qc) : list Qc := put (put [0; 0; 0] i (1 - t)) j t.
Definition bary_lerp (t : Qc) (x y : list Qc) : list Qc := zipwith (fun a b => (1 - t) * a + t * b) x y.
(** facet_intersections_impl.hpp:334-346, the clamping loop: step i, true = break *)
Definition clamp_step (i : nat) (v : list Qc) : list Qc * bool :=
  let j := ((i + 1) mod 3)%nat in
  let k := ((i + 2) mod 3)%nat in
  if qltb (qat v i) 0 then
    let v := put v i 0 in
    let d := qat v j + qat v k in
    (put (put v j (qat v j / d)) k (qat v k / d), false)
  else if qltb 1 (qat v i) then (unit_bary i, true)
  else (v, false).
Fixpoint clamp_loop (is : list nat) (v : list Qc) : list Qc :=
  match is with
  | [] => v
  | i :: t => let '(v', stop) := clamp_step i v in if stop then v' else clamp_loop t v'
  end.
Definition clamp_bary (v : list Qc) : list Qc := clamp_loop [0; 1; 2]%nat v.

(** :246-270: the boundary points of the triangle.  TE carries the slot of its edge. *)
Inductive tpoint := TE (s : nat) (e : edge_isect) | TV (i : nat).
Definition tp_vertex (T : tri) (p : tpoint) : vertex := match p with TE _ e => ei_v e | TV i => tv T i end.
Definition tp_bary (T : tri) (p : tpoint) : list Qc :=
  match p with
  | TE s e => match nth_error (t_edges T) s with Some ed => edge_bary (te_a ed) (te_b ed) (ei_coord e) | None => [] end
  | TV i => unit_bary i
  end.
Definition is_tv (p : tpoint) : bool := match p with TV _ => true | TE _ _ => false end.
Definition boundary_points (T : tri) : list tpoint :=
  flat_map (fun '(s, ed) => map (TE s) (te_isects ed)) (combine (seq 0 (length (t_edges T))) (t_edges T)) ++ map TV (seq 0 (length (t_v T))).
(** bins[d][k] *)
Definition bin (T : tri) (d : nat) (k : Z) : list tpoint :=
  filter (fun p => nth d (v_clamped (tp_vertex T p)) false && (zat (v_coord (tp_vertex T p)) d =? k)%Z) (boundary_points T).
(** :274-303: the segment cut out by plane k of axis d (its two ends in either order) *)
Definition segment (T : tri) (d : nat) (k : Z) : option (tpoint * tpoint) :=
  let gvs := bin T d k in
  if (length (filter is_tv gvs) =? 2)%nat then None
  else match gvs with
       | [p; q] => if negb (is_tv p) || negb (is_tv q) then Some (p, q) else None
       | _ => None
       end.
(** :297-298: the segment baked against the grid *)
Definition segment_isects (grid : option (list Z)) (T : tri) (p q : tpoint) : list edge_isect :=
  bake_edge grid (tp_vertex T p) (tp_vertex T q) (-1)%Z.
(** :325-349: the barycentric coordinates of its crossings *)
Definition isect_bary (T : tri) (p q : tpoint) (e : edge_isect) : list Qc := clamp_bary (bary_lerp (ei_coord e) (tp_bary T p) (tp_bary T q)).

(** :374-408, convex_grid_condensation; A is what a pointer points to, mk its mask *)
Section Condense.
Variables (A : Type) (mk : A -> mask).
Definition cmap := list (mask * list A).
Definition cmap_add (x : A) (m : cmap) : cmap :=
  map_set mask_cmp (mk x) (match map_find mask_cmp (mk x) m with Some l => l | None => [] end ++ [x]) m.
Definition cond_levels (D : nat) (V : list A) : list cmap :=
  fold_left (fun ls x => put ls (mask_count (mk x)) (cmap_add x (nth (mask_count (mk x)) ls []))) V (repeat [] (D + 1)).
Definition cond_axis (c : mask) (st : cmap * list A) (k : nat) : cmap * list A :=
  match nth_error c k with
  | Some (Some _) =>
      match map_find mask_cmp (put c k None) (fst st) with
      | Some o => (map_erase mask_cmp (put c k None) (fst st), snd st ++ o)
      | None => st
      end
  | _ => st
  end.
Definition cond_entry (Vi : cmap) (c : mask) (vs : list A) : cmap * list A := fold_left (cond_axis c) (seq 0 (length c)) (Vi, vs).
Definition cond2 (Vi Vip : cmap) : cmap * cmap :=
  fold_left (fun '(Vi, out) '(c, vs) => let '(Vi', vs') := cond_entry Vi c vs in (Vi', out ++ [(c, vs')])) Vip (Vi, []).
Fixpoint cond_from (V0 : cmap) (rest : list cmap) : list cmap :=
  match rest with
  | [] => [V0]
  | V1 :: t => let '(V0', V1') := cond2 V0 V1 in V0' :: cond_from V1' t
  end.
Definition condense (D : nat) (V : list A) : cmap :=
  match cond_levels D V with [] => [] | L :: t => concat (cond_from L t) end.
End Condense.
(** :356-368: one triangle intersection per group: the mean of the barycentric coordinates *)
Definition bary_sum (l : list (list Qc)) : list Qc := fold_left (zipwith Qcplus) l [0; 0; 0].
Definition bary_mean (l : list (list Qc)) : list Qc := map (fun x => x / Z2Qc (Z.of_nat (length l))) (bary_sum l).
