(** Model of CutCellEdgeGenerator<2>::generate_faces (src/construction/generator2.cpp:184-327, without the classification of the cut
    edges at 256-297, which is ExternalBoundary.v, and without the copies at 318-325).
    The half-edge mesh is library code: m_hem.cells_multi_component_map() is given, a map from cell ids to sets of vertex loops. *)
From Verif Require Import Base Num CoordMask Vertex Grid SmallestEdge Interp.
Set Implicit Arguments.
Local Open Scope Z_scope.

(** mtao::geometry::curve_volume(VV, v), external: the signed area of the polygon, in grid space *)
Definition loop_area (V : Z -> vertex) (l : list Z) : Qc := shoelace (map (fun i => (nth 0 (pos (V i)) 0%Qc, nth 1 (pos (V i)) 0%Qc)) l).
(** :211-214 *)
Definition face_area2 (V : Z -> vertex) (loops : list (list Z)) : Qc := fold_left (fun s l => (s + loop_area V l)%Qc) loops 0%Qc.
(** :192, 247: possible_cells of a CutFace<2> whose mask was never computed (:208-209: default constructed, then only the indices are
    assigned), so no axis is bound; None = *begin() of an empty loop *)
Definition face_cells2 (V : Z -> vertex) (loops : list (list Z)) : option (list coord) :=
  option_map (possible_cells [None; None]) (min_coord2 (fun i => v_coord (V i)) loops).
(** :191-202; s, act: shape and entries of m_active_grid_cell_mask; None = the mask read outside its shape *)
Definition is_boundary_facet2 (s : list Z) (act : coord -> bool) (V : Z -> vertex) (loops : list (list Z)) : option bool :=
  match face_cells2 V loops with
  | None => None
  | Some [] => Some true
  | Some [a] => if in_shape s a then Some (act a) else None
  | Some _ => Some false
  end.
(** :207-241 *)
Definition keep_face2 (s : list Z) (act : coord -> bool) (V : Z -> vertex) (loops : list (list Z)) : option bool :=
  match loops with
  | [] => Some false
  | _ => match is_boundary_facet2 s act V loops with
         | Some b => Some (negb (qltb (face_area2 V loops) (- qhalf)%Qc) && negb b)
         | None => None
         end
  end.
Fixpoint gen_faces2 (s : list Z) (act : coord -> bool) (V : Z -> vertex) (mf : list (Z * list (list Z))) : option (list (list (list Z))) :=
  match mf with
  | [] => Some []
  | (_, f) :: t =>
      match keep_face2 s act V f, gen_faces2 s act V t with
      | Some b, Some r => Some (if b then f :: r else r)
      | _, _ => None
      end
  end.
(** :246-254, cell_grid_ownership *)
Definition own_step (s : list Z) (V : Z -> vertex) (acc : option (list (Z * list Z))) (p : Z * list (list Z)) : option (list (Z * list Z)) :=
  match acc, face_cells2 V (snd p) with
  | Some m, Some (a :: _) =>
      let k := ravel s a in
      Some (map_set Z.compare k (set_insert Z.compare (fst p) (match map_find Z.compare k m with Some l => l | None => [] end)) m)
  | _, _ => None
  end.
Definition ownership2 (s : list Z) (V : Z -> vertex) (fs : list (list (list Z))) : option (list (Z * list Z)) :=
  fold_left (own_step s V) (combine (zrange 0 (length fs)) fs) (Some []).
(** :295-303, diredge_to_edge_orientation; es = the indices of m_cut_edges *)
Definition diredge_step (m : list (edge * (Z * bool))) (p : Z * edge) : list (edge * (Z * bool)) :=
  let '(i, (u, v)) := p in map_set edge_cmp (v, u) (i, true) (map_set edge_cmp (u, v) (i, false) m).
Definition diredges (es : list edge) : list (edge * (Z * bool)) := fold_left diredge_step (combine (zrange 0 (length es)) es) [].
(** :305-315, one loop; None = .at throws *)
Definition side (c : list Z) (j : nat) : edge := (vat c j, vat c ((j + 1) mod length c)).
Definition fm_step (d : list (edge * (Z * bool))) (acc : option (list (Z * bool))) (me : edge) : option (list (Z * bool)) :=
  match acc, map_find edge_cmp me d with
  | Some fm, Some (e, sgn) => Some (map_emplace Z.compare e sgn fm)
  | _, _ => None
  end.
Definition sides (c : list Z) : list edge := map (side c) (seq 0 (length c)).
Definition face_map2 (es : list edge) (f : list (list Z)) : option (list (Z * bool)) :=
  fold_left (fm_step (diredges es)) (flat_map sides f) (Some []).
(** :304-316, m_face_boundary_map: an entry for every face with a loop *)
Fixpoint fbm_from (es : list edge) (i : Z) (fs : list (list (list Z))) : option (list (Z * list (Z * bool))) :=
  match fs with
  | [] => Some []
  | f :: t => match face_map2 es f, fbm_from es (i + 1) t with
              | Some fm, Some r => Some (match f with [] => r | _ => (i, fm) :: r end)
              | _, _ => None
              end
  end.
Definition face_boundary_map2 (es : list edge) (fs : list (list (list Z))) : option (list (Z * list (Z * bool))) := fbm_from es 0 fs.
