(** Triangulation of cut faces: src/cutface3.cpp:7-193, src/mesh3.cpp:407-440 and 598-618, include/mandoline/cutface.hpp:149-178.
    Exact rationals.  The Triangle library, ear clipping and the winding number are external and appear as parameters (record externals);
    None = a column outside its matrix, a failed assertion or maxCoeff() of an empty matrix. *)
From Verif Require Import Base Num SmallestEdge AdaptiveGrid Mesh Sparse Volume Queries3.
Set Implicit Arguments.
Local Open Scope Z_scope.

Definition q2 := (Qc * Qc)%type.
Definition q2_add (a b : q2) : q2 := ((fst a + fst b)%Qc, (snd a + snd b)%Qc).
Definition q2_third (a : q2) : q2 := ((fst a / Z2Qc 3)%Qc, (snd a / Z2Qc 3)%Qc).
Record externals := mkExt {
  te_tri : list q2 -> list (Z * Z) -> list q2 * list c3;     (* triangle_wrapper(m, "pcePzQYY"): points and triangles *)
  te_ear : list q2 -> list (list Z) -> list c3;              (* mtao::geometry::mesh::earclipping *)
  te_wn : list q2 -> list Z -> q2 -> Qc }.                   (* mtao::geometry::winding_number(V, curve, p) *)
(** column i of a matrix *)
Definition col (A : Type) (V : list A) (i : Z) : option A := if i <? 0 then None else nth_error V (Z.to_nat i).
Definition tri_cols (A : Type) (V : list A) (t : c3) : option (A * A * A) :=
  let '(a, b, c) := t in match col V a, col V b, col V c with Some x, Some y, Some z => Some (x, y, z) | _, _, _ => None end.

(** mtao triangle_fan(loop): (l0, l_i, l_i+1), one column less than two vertices (external); cutface3.cpp:53-56, the assertion allows one loop only *)
Definition fan_tris (l : list Z) : option (list c3) :=
  match l with i0 :: i1 :: rest => Some (map (fun '(a, b) => (i0, a, b)) (combine (i1 :: rest) rest)) | _ => None end.
Definition triangulate_fan (loops : list (list Z)) : option (list c3) := match loops with [l] => fan_tris l | _ => None end.

(** cutface3.cpp:73-78 *)
Definition used_vertices (loops : list (list Z)) : list Z := set_of_list Z.compare (concat loops).
(** :84-92, reindexer and unreindexer *)
Definition reindexer (loops : list (list Z)) : list (Z * Z) := let u := used_vertices loops in combine u (zseq (Z.of_nat (length u))).
Definition unreindexer (loops : list (list Z)) : list (Z * Z) := let u := used_vertices loops in combine (zseq (Z.of_nat (length u))) u.
(** map::operator[]: a missing key gets the value 0 *)
Definition map_at (m : list (Z * Z)) (k : Z) : Z := match map_find Z.compare k m with Some v => v | None => 0 end.
(** :98-104 *)
Definition curve_edges (r : list (Z * Z)) (curve : list Z) : list (Z * Z) :=
  map (fun i => (map_at r (nth i curve 0), map_at r (nth (Nat.modulo (i + 1) (length curve)) curve 0))) (seq 0 (length curve)).
(** :86-105, what is handed to the Triangle library *)
Definition tri_input (V : list q2) (loops : list (list Z)) : option (list q2 * list (Z * Z)) :=
  option_map (fun P => (P, flat_map (curve_edges (reindexer loops)) loops)) (sequence (map (col V) (used_vertices loops))).
Definition tri_entries (F : list c3) : list Z := flat_map (fun '(a, b, c) => [a; b; c]) F.
Definition tri_map (g : Z -> Z) (t : c3) : c3 := let '(a, b, c) := t in (g a, g b, g c).
(** :148-158 *)
Definition tri_bary (P : list q2) (t : c3) : option q2 :=
  option_map (fun '(x, y, z) => q2_third (q2_add (q2_add x y) z)) (tri_cols P t).
(** :159-167 *)
Definition inside (X : externals) (V : list q2) (loops : list (list Z)) (B : q2) : bool :=
  qltb qhalf (qabs (fold_left (fun w c => (w + te_wn X V c B)%Qc) loops 0%Qc)).
(** :183-188, newV3 *)
Definition lift (axis coord : Z) (p : q2) : option q3 :=
  let '(x, y) := p in let c := Z2Qc coord in
  match axis with 0 => Some (c, x, y) | 1 => Some (y, c, x) | 2 => Some (x, y, c) | _ => None end.
(** :63-193 *)
Definition triangulate_triangle (X : externals) (V : list q2) (loops : list (list Z)) (axis coord : Z) (do_add : bool) : option (list q3 * list c3) :=
  match used_vertices loops with
  | [] => Some ([], [])
  | _ =>
    match tri_input V loops with
    | None => None
    | Some (P, E) =>
      let '(nV, nF) := te_tri X P E in
      let more := do_add && (length P <? length nV)%nat in
      let newV2 := if more then nV else [] in
      let added := more || existsb (fun f => match map_find Z.compare f (unreindexer loops) with Some _ => false | None => true end) (tri_entries nF) in
      let F := if added then nF else map (tri_map (map_at (unreindexer loops))) nF in
      match sequence (map (tri_bary (if added then newV2 else V)) F) with
      | None => None
      | Some Bs =>
        let interior := map fst (filter (fun tb => inside X V loops (snd tb)) (combine F Bs)) in
        let FF := match interior with [] => F | _ => interior end in
        if added && negb do_add then Some ([], [])
        else match FF, sequence (map (lift axis coord) newV2) with
             | _ :: _, Some W => Some (W, FF)
             | _, _ => None end
      end
    end
  end.

(** mesh3.cpp:407-420, compute_subVs, one axis *)
Definition sub_V (axis : Z) (V : list q3) : list q2 :=
  map (fun '(x, y, z) => match axis with 0 => (y, z) | 1 => (z, x) | _ => (x, y) end) V.
(** cutface3.cpp:25-37 *)
Definition triangulate (X : externals) (V : list q3) (f : cut_face) (add : bool) : option (list q3 * list c3) :=
  match cf_id f with
  | MeshFace _ => option_map (pair []) (triangulate_fan (cf_loops f))
  | AxialFace a c =>
    match cf_loops f with
    | [l] => Some ([], te_ear X (sub_V a V) [l])
    | ls => if (0 <=? a) && (a <? 3) then triangulate_triangle X (sub_V a V) ls a c add else None
    end
  end.
(** cutface3.cpp:12-21 *)
Definition keep_new (A : Type) (old : option (list A)) (l : list A) : option (list A) := match l with [] => old | _ => Some l end.
Definition set_tri (f : cut_face) (VF : list q3 * list c3) : cut_face :=
  mkCutFace (cf_mask f) (cf_loops f) (cf_id f) (cf_N f) (cf_ext f) (keep_new (cf_tri f) (snd VF)) (keep_new (cf_triV f) (fst VF)).
(** cutface3.cpp:8-11 *)
Definition cache_triangulation (X : externals) (V : list q3) (add : bool) (f : cut_face) : option cut_face :=
  option_map (set_tri f) (triangulate X V f add).
Definition with_faces (m : mesh3) (fs : list cut_face) : mesh3 :=
  mkMesh (m_origin m) (m_dx m) (m_vshape m) (m_verts m) (m_cut_edges m) (m_active m) (m_origV m) (m_origF m) fs (m_cells m) (m_folded m) (m_bary m) (m_cubes m) (m_afaces m) (m_regions m).
(** mesh3.cpp:432-441: the iterations of the parallel loop in the order ord *)
Definition cache_step (X : externals) (V : list q3) (add : bool) (acc : option (list cut_face)) (i : nat) : option (list cut_face) :=
  match acc with
  | Some fs => match nth_error fs i with
               | Some f => option_map (zput fs i) (cache_triangulation X V add f)
               | None => None end
  | None => None end.
Definition triangulate_faces (X : externals) (ord : list nat) (add : bool) (m : mesh3) : option mesh3 :=
  option_map (with_faces m) (fold_left (cache_step X (vertices3 m) add) ord (Some (m_faces m))).
(** mesh3.cpp:421-430 *)
Definition triangulate_face (X : externals) (m : mesh3) (i : Z) : option (list q3 * list c3) :=
  match col (m_faces m) i with
  | Some f => option_map (fun '(W, F) => (map (to_world m) W, F)) (triangulate X (vertices3 m) f true)
  | None => None end.
(** mesh3.cpp:598-618: vertex matrix and triangles handed to mtao compactify (external: keeps the corner positions of every triangle) *)
Definition compact_triangulated_face (m : mesh3) (i : Z) (flip : bool) : option (list q3 * list c3) :=
  match col (m_faces m) i with
  | Some f => match cf_tri f with
              | None => Some ([], [])
              | Some F => Some (vertices3 m ++ match cf_triV f with Some W => map (to_world m) W | None => [] end, orient (negb flip) F) end
  | None => None end.
(** cutface.hpp:149-178: the triangles whose solid angles are added up, by their corners *)
Definition solid_angle_triangles (V : list q3) (f : cut_face) : option (list (q3 * q3 * q3)) :=
  match cf_tri f with
  | Some F => sequence (map (tri_cols (match cf_triV f with Some W => W | None => V end)) F)
  | None => sequence (map (tri_cols V) (flat_map (fun l => match fan_tris l with Some F => F | None => [] end) (cf_loops f)))
  end.
(** cutface_impl.hpp:128-131, brep_volume(V, true) = mtao brep_volume(V, triangulation) (external: the sum of the signed tetrahedra) *)
Definition brep_volume_tri (V : Z -> q3) (F : list c3) : Qc := fold_left (fun v '(a, b, c) => (v + tet0 (V a) (V b) (V c))%Qc) F 0%Qc.
