(** The validation tools (tools/validation/*.cpp), run on a loaded CutCellMesh<3>.  The per-face double vectors hold integers, so they are modelled exactly by Z;
    printing is left out. *)
From Verif Require Import Base Num CoordMask Vertex Grid SmallestEdge AdaptiveGrid Mesh Sparse Volume Mesh2 Boundary3 Interp Queries3.
Set Implicit Arguments.
Local Open Scope Z_scope.

(** a sequence of tests, left at the first one that returns false; None = the test itself is undefined behaviour *)
Fixpoint all_checks (l : list (option bool)) : option bool :=
  match l with
  | [] => Some true
  | None :: _ => None
  | Some false :: _ => Some false
  | Some true :: t => all_checks t
  end.

(** ** paired_boundary.cpp *)
(** v[f] += x on an Eigen vector; None = out of range *)
Definition bump (l : list Z) (f x : Z) : option (list Z) :=
  if (0 <=? f) && (f <? Z.of_nat (length l)) then Some (zput l (Z.to_nat f) (nth (Z.to_nat f) l 0 + x)) else None.
Notation vecs := (list Z * list Z)%type (only parsing).              (* counts, boundaries of one region *)
(** :21-24 *)
Definition tally_faces (fs : list (Z * bool)) (p : vecs) : option vecs :=
  fold_left (fun acc '(f, s) => match acc with
    | None => None
    | Some (n, b) => match bump n f 1, bump b f (if s : bool then 1 else -1) with Some n', Some b' => Some (n', b') | _, _ => None end
    end) fs (Some p).
(** :17-25, one cell; a region without vectors would get empty ones, which are then indexed or added to vectors of another size (undefined, None) *)
Definition tally_cell (acc : option (list (Z * vecs))) (c : cut_cell) : option (list (Z * vecs)) :=
  match acc with
  | None => None
  | Some M => match map_find Z.compare (ce_region c) M with
              | None => None
              | Some p => match tally_faces (ce_faces c) p with None => None | Some p' => Some (map_set Z.compare (ce_region c) p' M) end
              end
  end.
(** :8-25 *)
Definition region_tally (m : mesh3) : option (list (Z * vecs)) :=
  match regions3 m with
  | None => None
  | Some R => let z := repeat 0 (length (m_faces m)) in
              fold_left tally_cell (m_cells m) (Some (fold_left (fun M r => map_emplace Z.compare r (z, z) M) R []))
  end.
(** :29 and :42: !is_mesh_face(i) && indices.begin()->size() != 4 is the failure; None = a face without loop *)
Definition mesh_or_quad (m : mesh3) (i : Z) : option bool :=
  if is_mesh_face m i then Some true
  else match nth_error (m_faces m) (Z.to_nat i) with
       | Some f => match cf_loops f with l :: _ => Some (Nat.eqb (length l) 4) | [] => None end
       | None => None
       end.
(** :27-35 and :40-46 (which tests the index, std::abs(i) == 1) *)
Definition count_checks (m : mesh3) (counts : list Z) : list (option bool) :=
  map (fun i => let n := nth (Z.to_nat i) counts 0 in if n =? 1 then mesh_or_quad m i else Some (n <=? 2)) (zrange 0 (length counts)).
Definition boundary_checks (m : mesh3) (bs : list Z) : list (option bool) :=
  map (fun i => if Z.abs i =? 1 then mesh_or_quad m i else Some true) (zrange 0 (length bs)).
(** possible_cells.cpp:5-29; a vertex that is no grid vertex has no possible cell *)
Definition loop_cells (m : mesh3) (face : list Z) : list coord :=
  let p i := if i <? shape_size (list3 (m_vshape m)) then v_possible_cells (vertex_of_coord (unravel (list3 (m_vshape m)) i)) else [] in
  match face with [] => [] | i :: _ => intersect_loop (p i) (map p face) end.
(** :65-72: the first axis on which the two cells differ, and the second cell's coordinate there *)
Fixpoint first_diff (a b : coord) (k : nat) : option (nat * Z) :=
  match a, b with x :: a, y :: b => if x =? y then first_diff a b (S k) else Some (k, y) | _, _ => None end.
(** :59-77, one loop *)
Definition loop_check (m : mesh3) (l : list Z) : option bool :=
  match loop_cells m l with
  | [a; b] => match first_diff a b 0 with
              | Some (k, v) => Some ((v =? 0) || (v =? nth k (list3 (m_vshape m)) 0 - 1))
              | None => None
              end
  | _ => Some true
  end.
(** :49-84, face i with FB(i) = b and FC(i) = n; the C++ precedence of || and && is kept *)
Definition face_check (m : mesh3) (i n b : Z) : option bool :=
  if (b <? -1) || ((1 <? b) && (n <? 0)) || (2 <? n) then Some false
  else if (n =? 1) && negb (is_flap m i) then
    match nth_error (m_faces m) (Z.to_nat i) with
    | None => None
    | Some f => match cf_ext f with Some _ => Some true | None => all_checks (map (loop_check m) (cf_loops f)) end
    end
  else Some true.
Definition column (M : list (Z * vecs)) (pick : vecs -> list Z) (i : Z) : Z := fold_left Z.add (map (fun e => nth (Z.to_nat i) (pick (snd e)) 0) M) 0.
Definition paired_boundary (m : mesh3) : option bool :=
  match region_tally m with
  | None => None
  | Some M => all_checks (flat_map (fun e => count_checks m (fst (snd e))) M ++ flat_map (fun e => boundary_checks m (snd (snd e))) M ++
      map (fun i => face_check m i (column M fst i) (column M snd i)) (zrange 0 (length (m_faces m))))
  end.

(** ** grid_cells.cpp *)
(** :15-20, try_emplace and += *)
Definition add_volume (M : list (c3 * Qc)) (g : c3) (v : Qc) : list (c3 * Qc) :=
  match map_find c3_cmp g M with Some w => map_set c3_cmp g (w + v)%Qc M | None => map_set c3_cmp g v M end.
Definition grid_cell_volumes (m : mesh3) (vols : list Qc) : list (c3 * Qc) :=
  fold_left (fun M '(c, v) => add_volume M (ce_grid c) v) (combine (m_cells m) vols) [].
(** mesh.hpp:62 and :125: the mask's container, one bool per grid cell *)
Definition all_cells3 (m : mesh3) : list c3 := loop3 (0, 0, 0) (cshape m).
Definition cell_active (m : mesh3) (c : c3) : bool := in_c3 (cshape m) c && m_active m c.
Definition tol5 : Qc := Q2Qc (1 # 100000).
Definition bad_volume (m : mesh3) (v : Qc) : bool := qltb tol5 (qabs (1 - v / prod3 (m_dx m))).
(** :24-45: {bad_vols, unused_cells} *)
Definition grid_cells_count (m : mesh3) (vols : list Qc) : Z * Z :=
  let M := grid_cell_volumes m vols in
  let unused := Z.of_nat (length (filter (m_active m) (all_cells3 m))) - Z.of_nat (length M) in
  (Z.of_nat (length (filter (fun e => bad_volume m (snd e)) M)),
   unused + Z.of_nat (length (filter (fun e => negb (bad_volume m (snd e)) && negb (cell_active m (fst e))) M))).
(** :47-50 *)
Definition grid_cells_fully_utilized (m : mesh3) (vols : list Qc) : bool :=
  let '(a, b) := grid_cells_count m vols in (a =? 0) && (b =? 0).

(** ** region_volumes.cpp *)
(** :82-87: labels in order of first appearance *)
Definition unindex_step (M : list (Z * Z)) (r : Z) : list (Z * Z) :=
  match map_find Z.compare r M with Some _ => M | None => map_set Z.compare r (Z.of_nat (length M)) M end.
Definition unindexer (R : list Z) : list (Z * Z) := fold_left unindex_step R [].
Definition addq (l : list Qc) (i : Z) (x : Qc) : list Qc := zput l (Z.to_nat i) (nth (Z.to_nat i) l 0 + x)%Qc.
(** :89-94; unindexer[R[i]] always finds its label *)
Definition region_sums (R : list Z) (V : list Qc) : list Qc :=
  let U := unindexer R in
  fold_left (fun s '(r, v) => addq s (match map_find Z.compare r U with Some k => k | None => 0 end) v) (combine R V) (repeat 0%Qc (length U)).
(** :95-99: vols[b] = vol(a) for every (a, b); None = a label out of the vector's range *)
Definition region_volumes (R : list Z) (V : list Qc) : option (list (Z * Qc)) :=
  let s := region_sums R V in
  fold_left (fun acc '(a, b) => match acc with
      | None => None
      | Some vs => if (0 <=? a) && (a <? Z.of_nat (length s)) then Some (map_set Z.compare b (nth (Z.to_nat a) s 0%Qc) vs) else None
      end) (unindexer R) (Some []).
(** :43-61, from the triangles' determinants v and their two labels (libigl's extract_cells, external); None = a label out of range *)
Definition brep_step (acc : option (list Qc)) (t : Qc * (Z * Z)) : option (list Qc) :=
  match acc with
  | None => None
  | Some s => let '(v, (a, b)) := t in
      let ok i := (0 <=? i) && (i <? Z.of_nat (length s)) in
      if ok a && ok b then Some (addq (addq s a (- v)%Qc) b v) else None
  end.
Definition brep_region_volumes (ts : list (Qc * (Z * Z))) : option (list Qc) :=
  match ts with
  | [] => None                                                    (* maxCoeff of an empty matrix *)
  | (_, (a0, b0)) :: _ =>
      let k := fold_left (fun k '(_, (a, b)) => Z.max (Z.max k a) b) ts (Z.max a0 b0) + 1 in
      option_map (map (fun x => x / Z2Qc 6)%Qc) (fold_left brep_step ts (if k <? 0 then None else Some (repeat 0%Qc (Z.to_nat k))))
  end.
(** :121-158: the loop over region_volumes; state = (IMV, external_boundary_used), None = returned or undefined *)
Definition tol3 : Qc := Q2Qc (1 # 1000).
Definition far (total imv vol : Qc) : bool := qltb tol3 (qabs ((imv - vol) / total)).        (* the variable called "near" *)
Fixpoint volume_loop (total : Qc) (vols : list (Z * Qc)) (IMV : list Qc) (used : bool) : option bool :=
  match vols with
  | [] => Some true
  | (r, v) :: t =>
      if r <? 0 then volume_loop total t IMV used
      else if Z.of_nat (length IMV) <? r then Some false
      else match nth_error IMV (Z.to_nat r) with
           | None => None
           | Some x =>
               if negb (far total x v) && negb used then
                 if far total (x + total)%Qc v then volume_loop total t (addq IMV r total) true else Some false
               else if far total x v then volume_loop total t IMV used else Some false
           end
  end.
Definition volume_check (m : mesh3) (V IMV : list Qc) : option bool :=
  match regions3 m with
  | None => None
  | Some R => match region_volumes R V with None => None | Some vols => volume_loop (prod3 (bb_sizes m)) vols IMV false end
  end.
(** :24-36: {number of labels of the mesh, number of labels of the input} *)
Definition region_counts (R C : list Z) : Z * Z := (Z.of_nat (length (set_of_list Z.compare R)), Z.of_nat (length (set_of_list Z.compare C))).

(** ** external_cell_valences.cpp *)
Definition incr (M : list (Z * Z)) (k : Z) : list (Z * Z) := match map_find Z.compare k M with Some n => map_set Z.compare k (n + 1) M | None => map_set Z.compare k 1 M end.
(** :7-48; [own] = cell_ownership_grid, read at a linear index; None = an index out of its range *)
Definition own_at (m : mesh3) (i : Z) : option Z := if (0 <=? i) && (i <? shape_size (list3 (cshape m))) then Some (own_get (cshape m) (m_cubes m) i) else None.
Definition valence_keys (m : mesh3) (own : Z -> option Z) : option (list Z) :=
  sequence (map own (filter (fun i => 0 <=? i)
    (flat_map (fun f => match cf_ext f with Some (c, _) => [c] | None => [] end) (m_faces m) ++ flat_map (fun f => [fst (af_dual f); snd (af_dual f)]) (m_afaces m)))).
Definition exterior_grid_valences (m : mesh3) (own : Z -> option Z) : option (list (Z * Z)) := option_map (fun ks => fold_left incr ks []) (valence_keys m own).
(** :54-64 *)
Definition exterior_cell_valence_counts (m : mesh3) (own : Z -> option Z) : option bool :=
  option_map (fun M => forallb (fun e => snd e =? 6) M) (exterior_grid_valences m own).

(** ** pcwn_count.cpp: triangulated_cell(true, true) converts its first argument to the cell index 1; [wn] = the winding number test (libigl, external);
    [tri] = triangulated_cell(index, true, true) *)
Definition pcwn_count (m : mesh3) (tri : Z -> option (list q3 * list c3)) (wn : list q3 * list c3 -> bool) : option (Z * Z) :=
  fold_left (fun acc _ => match acc, tri 1 with
      | Some (a, b), Some T => Some (if wn T then (a + 1, b) else (a, b + 1))
      | _, _ => None end) (m_cells m) (Some (0, 0)).
Definition pcwn_check (m : mesh3) (tri : Z -> option (list q3 * list c3)) (wn : list q3 * list c3 -> bool) : option bool := option_map (fun '(_, b) => b =? 0) (pcwn_count m tri wn).

(** ** faces_fully_utilized.cpp *)
(** :10-22: the barycentric part; None = minCoeff of an empty matrix *)
Definition within5 (x : Qc) : bool := negb (qltb tol5 (qabs (x - 1))).
Definition col_sum (A : list triplet) (c : Z) : Qc := lsum (fun '(_, k, v) => if (k =? c)%Z then v else 0)%Qc A.
Definition bary_utilized (m : mesh3) : option bool :=
  let B := face_bary_volumes (map (fun '(f, b) => (f, (bf_barys b, bf_parent b))) (m_bary m)) in
  match B with
  | [] => None
  | _ => Some (forallb (fun '(_, _, v) => negb (qltb v 0)) B && forallb (fun c => within5 (col_sum B c)) (zrange 0 (length (m_origF m))))
  end.
(** adaptive_grid.cpp:442-455: the unit squares of the square with low corner c, normal axis k and width w *)
Definition unit_squares (c : c3) (k : nat) (w : Z) : list c3 :=
  flat_map (fun i => map (fun j => add3 (add3 c (Nat.modulo (k + 1) 3) i) (Nat.modulo (k + 2) 3) j) (zrange 0 (Z.to_nat w))) (zrange 0 (Z.to_nat w)).
(** adaptive_grid.cpp:424-460, grid_face_projection; a column staggered_index<2>(a, k) is kept as the pair (a, k) *)
Notation gface := (c3 * nat)%type (only parsing).
Definition grid_face_projection (cells : acells) (fs : list aface) (offset : Z) : list (Z * gface * Qc) :=
  flat_map (fun '(i, f) => match dual_edge_pair cells f with
      | None => []
      | Some (ca, cb) => let k := proj_axis ca cb in let w := Z.min (snd ca) (snd cb) in
                         map (fun a => (offset + i, (a, k), (1 / (Z2Qc w * Z2Qc w))%Qc)) (unit_squares (proj_corner ca cb) k w)
      end) (enum fs).
(** interpolation3.cpp:101-122; None = a cut face without vertices or with a vertex index out of range; [FV] = face_volumes() *)
Definition cut_face_entries (m : mesh3) (include_mesh : bool) (FV : list Qc) : option (list (Z * gface * Qc)) :=
  option_map (@concat _) (sequence (map (fun '(i, (f, fv)) =>
    match face_grid_entry m include_mesh f fv with
    | None => Some []
    | Some (Some ([x; y; z], d, v)) => Some [(i, ((x, y, z), Z.to_nat d), v)]
    | Some _ => None
    end) (enum (combine (m_faces m) FV)))).
(** interpolation3.cpp:88-128, face_grid_volume_matrix before setFromTriplets, which adds up entries of the same place *)
Definition face_grid_volume3 (m : mesh3) (include_mesh : bool) (FV : list Qc) : option (list (Z * gface * Qc)) :=
  option_map (fun c => grid_face_projection (m_cubes m) (m_afaces m) (Z.of_nat (length (m_faces m))) ++ c) (cut_face_entries m include_mesh FV).
(** all grid faces, in staggered order: axis by axis *)
Definition grid_faces3 (m : mesh3) : list gface := flat_map (fun d => map (fun c => (c, d)) (loop3 (0, 0, 0) (add3 (cshape m) d 1))) [0; 1; 2]%nat.
Definition gface_eqb (a b : gface) : bool := c3_eqb (fst a) (fst b) && Nat.eqb (snd a) (snd b).
Definition face_sum (G : list (Z * gface * Qc)) (q : gface) : Qc := lsum (fun '(_, k, v) => if gface_eqb k q then v else 0%Qc) G.
(** :23-36: the grid part; None = an entry outside the matrix.  (An entry outside its own axis' grid but inside the matrix is also None here; the code would count it for another grid face.) *)
Definition grid_utilized (m : mesh3) (FV : list Qc) : option bool :=
  match face_grid_volume3 m true FV with
  | None => None
  | Some G => if forallb (fun '(_, k, _) => existsb (gface_eqb k) (grid_faces3 m)) G then Some (forallb (fun q => within5 (face_sum G q)) (grid_faces3 m)) else None
  end.
Definition faces_fully_utilized (m : mesh3) (FV : list Qc) : option bool :=
  match bary_utilized m, grid_utilized m FV with Some a, Some b => Some (a && b) | _, _ => None end.
