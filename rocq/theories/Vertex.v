(** Model of mandoline::Vertex<D> (include/mandoline/vertex.hpp:17-85,
    include/mandoline/vertex_impl.hpp).  quot entries are exact rationals (Qc) instead of doubles:
    no rounding, NaN or infinity.  Arrays are lists; a well-formed vertex has all three lists of
    length D. *)
From Verif Require Import Base Num CoordMask.
Set Implicit Arguments.
Local Open Scope Qc_scope.

(** vertex.hpp:29-32 *)
Record vertex := mkVertex { v_coord : coord; v_quot : list Qc; v_clamped : bitset }.

Definition v_wf (D : nat) (v : vertex) : Prop :=
  length (v_coord v) = D /\ length (v_quot v) = D /\ length (v_clamped v) = D.

(** vertex_impl.hpp:30-38, bs_from_quot. *)
Definition bs_from_quot (q : list Qc) : bitset := map (fun x => qeqb x 0) q.

(** vertex_impl.hpp:9-10, Vertex(coord): clamped_indices((1<<D)-1), quot zero. *)
Definition vertex_of_coord (c : coord) : vertex :=
  mkVertex c (repeat 0 (length c)) (repeat true (length c)).

(** vertex_impl.hpp:12-14, Vertex(coord,quot). *)
Definition vertex_cq (c : coord) (q : list Qc) : vertex := mkVertex c q (bs_from_quot q).

(** vertex_impl.hpp:186-192, repair. (The cast of the floor to int is exact here; in C++ it is
    undefined outside the int range.) *)
Definition repair (v : vertex) : vertex :=
  mkVertex (zipwith (fun c q => c + qfloor q)%Z (v_coord v) (v_quot v))
           (map (fun q => q - Z2Qc (qfloor q)) (v_quot v))
           (v_clamped v).

(** vertex_impl.hpp:21-28, from_vertex: coord {} (zeros), quot p, repair, flags from quot. *)
Definition from_vertex (p : list Qc) : vertex :=
  let r := repair (vertex_cq (repeat 0%Z (length p)) p) in
  mkVertex (v_coord r) (v_quot r) (bs_from_quot (v_quot r)).

(** vertex_impl.hpp:41-44, operator==. *)
Definition v_eqb (a b : vertex) : bool :=
  match lex_cmp qcmp (v_quot a) (v_quot b), zlex (v_coord a) (v_coord b) with
  | Eq, Eq => true
  | _, _ => false
  end.

(** vertex_impl.hpp:57-67: the loop of operator< over quot. *)
Fixpoint quot_lt (a b : list Qc) : bool :=
  match a, b with
  | x :: a', y :: b' => if qltb x y then true else if qeqb x y then quot_lt a' b' else false
  | _, _ => false
  end.
(** vertex_impl.hpp:51-70, operator<. *)
Definition v_ltb (a b : vertex) : bool :=
  match zlex (v_coord a) (v_coord b) with
  | Lt => true
  | Eq => quot_lt (v_quot a) (v_quot b)
  | Gt => false
  end.

(** vertex.hpp:15, threshold_epsilon = sqrt(2^-52) = 2^-26. *)
Definition threshold_epsilon : Qc := Q2Qc (1 # 67108864).

(** vertex_impl.hpp:74-105: one axis of approx. *)
Definition approx_axis (eps : Qc) (c : Z) (q : Qc) (oc : Z) (oq : Qc) : bool :=
  if qltb q qhalf then
    if (oc =? c)%Z then negb (qltb eps (qabs (q - oq)))
    else if (oc + 1 =? c)%Z then negb (qltb eps (qabs (q - (oq + 1))))
    else false
  else
    if (oc =? c)%Z then negb (qltb eps (qabs (q - oq)))
    else if (oc - 1 =? c)%Z then negb (qltb eps (qabs (oq - (q + 1))))
    else false.
(** vertex_impl.hpp:72-106, approx. *)
Fixpoint approx_loop (eps : Qc) (cs : coord) (qs : list Qc) (ocs : coord) (oqs : list Qc) : bool :=
  match cs, qs, ocs, oqs with
  | c :: cs', q :: qs', oc :: ocs', oq :: oqs' =>
      if approx_axis eps c q oc oq then approx_loop eps cs' qs' ocs' oqs' else false
  | _, _, _, _ => true
  end.
Definition approx (eps : Qc) (a b : vertex) : bool :=
  approx_loop eps (v_coord a) (v_quot a) (v_coord b) (v_quot b).

(** vertex_impl.hpp:109-112, p() = coord + quot. *)
Definition pos (v : vertex) : list Qc := zipwith (fun c q => Z2Qc c + q) (v_coord v) (v_quot v).

(** vertex_impl.hpp:114-123, optional_index. *)
Definition optional_index (v : vertex) : mask :=
  zipwith (fun c (b : bool) => if b then Some c else None) (v_coord v) (v_clamped v).

(** vertex_impl.hpp:125-134, mask(): bound where quot == 0 (clamped_indices is not consulted). *)
Definition v_mask (v : vertex) : mask :=
  zipwith (fun c q => if qeqb q 0 then Some c else None) (v_coord v) (v_quot v).

(** vertex_impl.hpp:159-162, is_grid_vertex. *)
Definition is_grid_vertex (v : vertex) : bool := forallb (fun b => b) (v_clamped v).

(** vertex_impl.hpp:164-166, possible_cells. *)
Definition v_possible_cells (v : vertex) : list coord := possible_cells (v_mask v) (v_coord v).

(** vertex_impl.hpp:199-217: one axis of apply_thresholding(thresh). *)
Definition threshold_axis (thresh : Qc) (c : Z) (q : Qc) (b : bool) : Z * Qc * bool :=
  if qltb q qhalf then
    if qltb q thresh then (c, 0, true) else (c, q, b)
  else
    if qltb (- thresh * qabs (q + 1)) (q - 1) then ((c + 1)%Z, 0, true) else (c, q, b).
Fixpoint threshold_loop (thresh : Qc) (cs : coord) (qs : list Qc) (bs : bitset)
  : coord * list Qc * bitset :=
  match cs, qs, bs with
  | c :: cs', q :: qs', b :: bs' =>
      let '(c1, q1, b1) := threshold_axis thresh c q b in
      let '(cs1, qs1, bs1) := threshold_loop thresh cs' qs' bs' in
      (c1 :: cs1, q1 :: qs1, b1 :: bs1)
  | _, _, _ => ([], [], [])
  end.
Definition apply_thresholding (thresh : Qc) (v : vertex) : vertex :=
  let '(c, q, b) := threshold_loop thresh (v_coord v) (v_quot v) (v_clamped v) in mkVertex c q b.

(** vertex_impl.hpp:220-233, operator+. *)
Definition v_add (a b : vertex) : vertex :=
  repair (mkVertex (zipwith Z.add (v_coord a) (v_coord b))
                   (zipwith Qcplus (v_quot b) (v_quot a))
                   (bitset_and (v_clamped a) (v_clamped b))).

(** vertex_impl.hpp:235-248, operator-. *)
Definition v_sub (a b : vertex) : vertex :=
  repair (mkVertex (zipwith Z.sub (v_coord a) (v_coord b))
                   (zipwith Qcminus (v_quot a) (v_quot b))
                   (bitset_and (v_clamped a) (v_clamped b))).

(** vertex_impl.hpp:250-259, operator*(double). *)
Definition v_scale (s : Qc) (a : vertex) : vertex :=
  let r := from_vertex (map (fun c => s * Z2Qc c) (v_coord a)) in
  let r2 := repair (mkVertex (v_coord r) (zipwith (fun x q => x + s * q) (v_quot r) (v_quot a)) (v_clamped r)) in
  mkVertex (v_coord r2) (v_quot r2) (repeat false (length (v_coord a))).

(** vertex_impl.hpp:265-269: the flag loop of lerp. *)
Fixpoint lerp_flags (ca cb : coord) (ba bb br : bitset) : bitset :=
  match ca, cb, ba, bb, br with
  | x :: ca', y :: cb', a :: ba', b :: bb', r :: br' =>
      (if (x =? y)%Z && a && b then true else r) :: lerp_flags ca' cb' ba' bb' br'
  | _, _, _, _, _ => []
  end.
(** vertex_impl.hpp:261-272, lerp. *)
Definition v_lerp (a b : vertex) (t : Qc) : vertex :=
  let r := v_add (v_scale (1 - t) a) (v_scale t b) in
  mkVertex (v_coord r) (v_quot r)
           (lerp_flags (v_coord a) (v_coord b) (v_clamped a) (v_clamped b) (v_clamped r)).

(** coord_mask_impl.hpp:207-217, clamp(Vertex&). *)
Definition clamp_vertex (m : mask) (v : vertex) : vertex :=
  mkVertex (clamp_coord m (v_coord v))
           (zipwith (fun q (t : option Z) => match t with Some _ => 0 | None => q end) (v_quot v) m)
           (bitset_or (v_clamped v) (as_bitset m)).

(** ** Masked geometry: include/mandoline/coord_masked_geometry_impl.hpp *)

(** :21-42, get_container_mask over a container of integers; None = dereferencing begin() of an empty
    container (UB). *)
Definition container_mask (f : Z -> mask) (C : list Z) : option mask :=
  match C with
  | [] => None
  | i :: t => Some (fold_left (fun m j => mask_and m (f j)) t (f i))
  end.
(** :21-42 for a container of containers (faces with several loops). *)
Definition container_mask2 (f : Z -> mask) (C : list (list Z)) : option mask :=
  match C with
  | [] => None
  | l :: t =>
      fold_left (fun acc l' => match acc, container_mask f l' with
                               | Some m, Some m' => Some (mask_and m m')
                               | _, _ => None end)
                t (container_mask f l)
  end.

(** :50-76, get_min_coord. *)
Definition coord_min (a b : coord) : coord := zipwith Z.min a b.
Definition min_coord (f : Z -> coord) (C : list Z) : option coord :=
  match C with
  | [] => None
  | i :: t => Some (fold_left (fun c j => coord_min c (f j)) t (f i))
  end.
Definition min_coord2 (f : Z -> coord) (C : list (list Z)) : option coord :=
  match C with
  | [] => None
  | l :: t =>
      fold_left (fun acc l' => match acc, min_coord f l' with
                               | Some m, Some m' => Some (coord_min m m')
                               | _, _ => None end)
                t (min_coord f l)
  end.

(** :120-125, possible_cells of an element built from vertices [V] (mask computed by
    get_container_mask from V[i].mask(), minimum coordinate from V[i].coord). *)
Definition geometry_possible_cells (V : Z -> vertex) (C : list Z) : option (list coord) :=
  match container_mask (fun i => v_mask (V i)) C, min_coord (fun i => v_coord (V i)) C with
  | Some m, Some c => Some (possible_cells m c)
  | _, _ => None
  end.
Definition geometry_possible_cells2 (V : Z -> vertex) (C : list (list Z)) : option (list coord) :=
  match container_mask2 (fun i => v_mask (V i)) C, min_coord2 (fun i => v_coord (V i)) C with
  | Some m, Some c => Some (possible_cells m c)
  | _, _ => None
  end.

(** ** Incident cells as computed by the generator:
    include/mandoline/construction/generator_impl.hpp:956-1014 *)

(** std::set_intersection of two std::sets, by its contract (elements of the first that are in the
    second, in order). *)
Definition set_intersection (a b : list coord) : list coord :=
  filter (fun x => existsb (fun y => match zlex x y with Eq => true | _ => false end) b) a.

(** The loop body shared by the possible_cells functions, with the early exit on empty. *)
Fixpoint intersect_loop (possibles : list coord) (ss : list (list coord)) : list coord :=
  match ss with
  | [] => possibles
  | s :: t => match set_intersection possibles s with
              | [] => []
              | i => intersect_loop i t
              end
  end.

(** generator_impl.hpp:956-972, possible_cells(vector<int>). *)
Definition gen_possible_cells (GV : Z -> vertex) (face : list Z) : list coord :=
  match face with
  | [] => []
  | f0 :: _ => intersect_loop (v_possible_cells (GV f0)) (map (fun f => v_possible_cells (GV f)) face)
  end.

(** generator_impl.hpp:974-992, possible_cells(set<vector<int>>); None = indexing an empty first loop (UB). *)
Definition gen_possible_cells2 (GV : Z -> vertex) (faces : list (list Z)) : option (list coord) :=
  match faces with
  | [] => Some []
  | [] :: _ => None
  | (f0 :: _) :: _ =>
      Some (intersect_loop (v_possible_cells (GV f0))
              (map (fun f => v_possible_cells (GV f)) (concat faces)))
  end.
