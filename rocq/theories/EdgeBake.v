(** Model of EdgeIntersections<D> (include/mandoline/construction/facet_intersections.hpp:73-160 and
    facet_intersections_impl.hpp:6-239): the crossings of one input edge with the grid planes.
    Exact rationals instead of doubles.  Arrays of length D are lists; [nth] defaults are never reached on well-formed vertices.
    vptr_edge points at the two end points, modelled by their values. *)
From Verif Require Import Base Num CoordMask Vertex VertexTypes.
Set Implicit Arguments.
Local Open Scope Qc_scope.

Definition zat (l : coord) (d : nat) : Z := nth d l 0%Z.
Definition qat (l : list Qc) (d : nat) : Qc := nth d l 0.
(** a[d] = x on a std::array *)
Fixpoint put (A : Type) (l : list A) (d : nat) (x : A) : list A :=
  match l, d with
  | [], _ => []
  | _ :: t, O => x :: t
  | a :: t, S k => a :: put t k x
  end.

(** facet_intersections.hpp:50-65, get_container_mask of the two end points *)
Definition edge_mask (a b : vertex) : mask := mask_and (v_mask a) (v_mask b).

(** facet_intersections_impl.hpp:25-32 *)
Definition reflection (a b : vertex) (d : nat) : bool :=
  negb ((zat (v_coord a) d <? zat (v_coord b) d)%Z
        || ((zat (v_coord b) d =? zat (v_coord a) d)%Z && qltb (qat (v_quot a) d) (qat (v_quot b) d))).
(** :34-48, reflect_axis (its last two branches are the same) *)
Definition reflect_axis (r : bool) (c : Z) (q : Qc) : Z * Qc :=
  if r then if qeqb q 0 then ((- c)%Z, q) else ((- (c + 1))%Z, 1 - q) else (c, q).
Definition qceil (x : Qc) : Z := (- qfloor (- x))%Z.
(** :62-66, 85-99, 107-116: the planes of axis d visited by the loop that pass the test 0 < t < 1, with t.
    The plane written to np.coord[d] is i + b, negated when the axis is reflected (both branches of :109-114 do that). *)
Definition axis_crossings (a b : vertex) (d : nat) : list (Z * Qc) :=
  let r := reflection a b d in
  let '(c0, q0) := reflect_axis r (zat (v_coord a) d) (qat (v_quot a) d) in
  let '(c1, q1) := reflect_axis r (zat (v_coord b) d) (qat (v_quot b) d) in
  let bg := (c0 + qceil q0)%Z in
  let en := (c1 + qfloor q1)%Z in
  let dir := qabs (qat (pos b) d - qat (pos a) d) in
  if qeqb dir 0 then []
  else
    let offset := Z2Qc (qceil q0) - q0 in
    flat_map (fun i =>
        let t := (offset + Z2Qc i) / dir in
        if qleb t 0 || qleb 1 t then []
        else [((if r then - (i + bg) else i + bg)%Z, t)])
      (zrange 0 (Z.to_nat (en - bg + 1))).
(** :101-120: the new vertex; the change of clamped_indices in :123-132 comes after the copy into sect *)
Definition crossing_sect (M : mask) (a b : vertex) (idx : Z) (d : nat) (k : Z) (t : Qc) : edge_isect :=
  let np := clamp_vertex M (v_add (v_scale (1 - t) a) (v_scale t b)) in
  let np := mkVertex (put (v_coord np) d k) (put (v_quot np) d 0) (put (v_clamped np) d true) in
  mkEI (clamp_vertex M np) t idx.
Definition raw_sects (M : mask) (a b : vertex) (idx : Z) : list edge_isect :=
  flat_map (fun d => map (fun '(k, t) => crossing_sect M a b idx d k t) (axis_crossings a b d)) (seq 0 (length (v_coord a))).
(** :71-80, invalid_isect; the test of :139-146 (i >= 0) never fails *)
Definition invalid_isect (M : mask) (a b : vertex) (e : edge_isect) : bool :=
  let m := mask_sub (v_mask (ei_v e)) M in
  mask_active (mask_and (mask_sub (v_mask a) M) m) || mask_active (mask_and (mask_sub (v_mask b) M) m).
(** :134-160 *)
Definition kept_sects (grid : bool) (M : mask) (a b : vertex) (idx : Z) : list edge_isect :=
  filter (fun e => negb (grid && invalid_isect M a b e)) (raw_sects M a b idx).

(** std::optional<int> and std::array compare lexicographically, nullopt first *)
Definition opt_cmp (a b : option Z) : comparison :=
  match a, b with None, None => Eq | None, Some _ => Lt | Some _, None => Gt | Some x, Some y => Z.compare x y end.
Definition mask_cmp : mask -> mask -> comparison := lex_cmp opt_cmp.
(** std::set<EdgeIsect>: all members have this edge's index and a parameter > 0, so EdgeIntersection::operator<
    (VertexTypes.ei_ltb) compares the parameters *)
Definition tset := list (Qc * edge_isect).
Definition emap := list (mask * tset).
Definition tset_emplace (e : edge_isect) (s : tset) : tset := map_emplace qcmp (ei_coord e) e s.
(** edges[mask.count() - 1][mask].emplace(sect) *)
Definition emap_add (e : edge_isect) (E : emap) : emap :=
  let m := v_mask (ei_v e) in
  map_set mask_cmp m (tset_emplace e (match map_find mask_cmp m E with Some s => s | None => [] end)) E.
Definition levels_add (ls : list emap) (e : edge_isect) : list emap :=
  let j := (mask_count (v_mask (ei_v e)) - 1)%nat in
  put ls j (emap_add e (nth j ls [])).
Definition build_levels (D : nat) (es : list edge_isect) : list emap := fold_left levels_add es (repeat [] D).

(** :163-188: one entry (c, es) of level i+1 swallows the entries of level i that lack one of its planes *)
Fixpoint map_erase (K V : Type) (cmp : K -> K -> comparison) (k : K) (m : list (K * V)) : list (K * V) :=
  match m with
  | [] => []
  | (k', v) :: t => match cmp k k' with Eq => t | _ => (k', v) :: map_erase cmp k t end
  end.
Definition clamp_isect (c : mask) (e : edge_isect) : edge_isect := mkEI (clamp_vertex c (ei_v e)) (ei_coord e) (ei_index e).
Definition merge_axis (c : mask) (st : emap * tset) (k : nat) : emap * tset :=
  match nth_error c k with
  | Some (Some _) =>
      match map_find mask_cmp (put c k None) (fst st) with
      | Some o => (map_erase mask_cmp (put c k None) (fst st),
                   fold_left (fun s '(_, e) => tset_emplace (clamp_isect c e) s) o (snd st))
      | None => st
      end
  | _ => st
  end.
Definition merge_entry (Ei : emap) (c : mask) (es : tset) : emap * tset := fold_left (merge_axis c) (seq 0 (length c)) (Ei, es).
Definition merge2 (Ei Eip : emap) : emap * emap :=
  fold_left (fun '(Ei, out) '(c, es) => let '(Ei', es') := merge_entry Ei c es in (Ei', out ++ [(c, es')])) Eip (Ei, []).
Fixpoint merge_from (E : emap) (rest : list emap) : list emap :=
  match rest with
  | [] => [E]
  | E1 :: t => let '(E', E1') := merge2 E E1 in E' :: merge_from E1' t
  end.
Definition merge_levels (ls : list emap) : list emap := match ls with [] => [] | E :: t => merge_from E t end.

(** :191-209: one representative per set, at the average parameter; a map entry that does not exist yet is default-made with
    edge_index -1.  An empty set would dereference a null pointer; no set is empty. *)
Definition qsum (l : list Qc) : Qc := fold_left Qcplus l 0.
Definition mm_step (mm : tset) (entry : mask * tset) : tset :=
  let es := snd entry in
  match rev es with
  | [] => mm
  | (_, e) :: _ =>
      let lc := qsum (map (fun p => ei_coord (snd p)) es) / Z2Qc (Z.of_nat (length es)) in
      match map_find qcmp lc mm with
      | Some v =>
          if (ei_index v =? -1)%Z then map_set qcmp lc (mkEI (ei_v e) lc (ei_index e)) mm
          else map_set qcmp lc
                 (mkEI (repair (mkVertex (v_coord (ei_v v)) (v_quot (ei_v v)) (bitset_or (v_clamped (ei_v v)) (v_clamped (ei_v e)))))
                       (ei_coord v) (ei_index v)) mm
      | None => map_set qcmp lc (mkEI (ei_v e) lc (ei_index e)) mm
      end
  end.
Definition mm_of (ls : list emap) : tset := fold_left mm_step (concat ls) [].
(** :211-218; grid is the vertex_shape() of the grid, if there is one.  1e-10 is taken to be exactly 10^-10. *)
Definition bake_threshold (grid : option (list Z)) : Qc :=
  match grid with
  | None => 1
  | Some s => Z2Qc (2 * Z.max 1 (fold_right Z.max (hd 0%Z s) s))%Z * Q2Qc (1 # 10000000000)
  end.
(** :219-224 *)
Definition finish_isect (M : mask) (th : Qc) (e : edge_isect) : edge_isect :=
  mkEI (apply_thresholding th (clamp_vertex M (ei_v e))) (ei_coord e) (ei_index e).
(** :225-232: one per mask, the last one wins; then std::sort by the parameter (any sort: the parameters are distinct) *)
Definition cem_of (es : list edge_isect) : list (mask * edge_isect) :=
  fold_left (fun m e => map_set mask_cmp (v_mask (ei_v e)) e m) es [].
Fixpoint insert_by_coord (e : edge_isect) (l : list edge_isect) : list edge_isect :=
  match l with
  | [] => [e]
  | x :: t => if qltb (ei_coord e) (ei_coord x) then e :: l else x :: insert_by_coord e t
  end.
Definition sort_by_coord (l : list edge_isect) : list edge_isect := fold_right insert_by_coord [] l.
(** the whole of bake *)
Definition bake_edge (grid : option (list Z)) (a b : vertex) (idx : Z) : list edge_isect :=
  let M := edge_mask a b in
  let ls := merge_levels (build_levels (length (v_coord a)) (kept_sects (match grid with Some _ => true | None => false end) M a b idx)) in
  let mm := mm_of ls in
  sort_by_coord (map snd (cem_of (map (fun p => finish_isect M (bake_threshold grid) (snd p)) mm))).

(** facet_intersections.hpp:118-140, gvertices: the end points with the intersections between them, keyed by their parameter *)
Definition gvertices (a b : vertex) (es : list edge_isect) : list crossing :=
  let im := fold_left (fun m e => if qltb 0 (ei_coord e) && qltb (ei_coord e) 1 then map_set qcmp (ei_coord e) e m else m) es [] in
  CV a :: map (fun p => CE (snd p)) im ++ [CV b].
(** :149-159, vptr_edges: consecutive pairs (a std::set of pointer pairs) *)
Fixpoint consecutive (A : Type) (l : list A) : list (A * A) :=
  match l with
  | x :: ((y :: _) as t) => (x, y) :: consecutive t
  | _ => []
  end.
(** :142-148, from_coord, get_coord *)
Definition from_coord (a b : vertex) (idx : Z) (t : Qc) : edge_isect := mkEI (clamp_vertex (edge_mask a b) (v_lerp a b t)) t idx.
Definition qdot (x y : list Qc) : Qc := qsum (zipwith Qcmult x y).
Definition get_coord (a b v : vertex) : Qc :=
  let ba := zipwith Qcminus (pos b) (pos a) in qdot (zipwith Qcminus (pos v) (pos a)) ba / qdot ba ba.
(** :113, is_cut *)
Definition is_cut (es : list edge_isect) : bool := match es with [] => true | _ => false end.
