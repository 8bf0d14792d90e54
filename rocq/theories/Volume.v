(** Volumes and centroids: include/mandoline/cutface_impl.hpp:99-152 (CutFace<3>::brep_centroid, brep_volume), src/cutcell.cpp:139-160 (CutCell::volume, moment),
    src/operators/volume3.cpp:7-25 (cell_volumes), src/mesh3.cpp:87-109 (cell_centroids).  Exact rational arithmetic. *)
From Verif Require Import Base Num SmallestEdge AdaptiveGrid FaceCollapser Mesh.
Set Implicit Arguments.
Local Open Scope Qc_scope.

Definition vadd (a b : q3) : q3 := let '(x, y, z) := a in let '(u, v, w) := b in (x + u, y + v, z + w).
Definition vneg (a : q3) : q3 := let '(x, y, z) := a in (- x, - y, - z).
Definition vscale (k : Qc) (a : q3) : q3 := let '(x, y, z) := a in (k * x, k * y, k * z).
Definition vzero : q3 := (0, 0, 0).
Definition dot (a b : q3) : Qc := let '(x, y, z) := a in let '(u, v, w) := b in x * u + y * v + z * w.
Definition cross (a b : q3) : q3 := let '(x, y, z) := a in let '(u, v, w) := b in (y * w - z * v, z * u - x * w, x * v - y * u).
Definition q6 : Qc := Z2Qc 6.
(** mtao::geometry::volume_signed of the simplex (a, b, c, origin): det(a,b,c)/6 (external; assumed up to a global sign) *)
Definition tet0 (a b c : q3) : Qc := dot a (cross b c) / q6.
(** cutface_impl.hpp:133-147, the loop of loop_volume: S.col(1) = S.col(2); S.col(2) = V.col( *it ) *)
Fixpoint fan (p0 p1 : q3) (rest : list q3) : Qc :=
  match rest with [] => 0 | p2 :: t => tet0 p0 p1 p2 + fan p0 p2 t end.
(** None = loop[0], loop[1] or begin()+2 past the end (undefined behaviour) *)
Definition loop_volume (V : Z -> q3) (loop : list Z) : option Qc :=
  match loop with i0 :: i1 :: rest => Some (fan (V i0) (V i1) (map V rest)) | _ => None end.
(** cutface_impl.hpp:126-152 without a cached triangulation *)
Definition oadd (a b : option Qc) : option Qc := match a, b with Some x, Some y => Some (x + y) | _, _ => None end.
Definition brep_volume (V : Z -> q3) (loops : list (list Z)) : option Qc := fold_left (fun acc l => oadd acc (loop_volume V l)) loops (Some 0).
(** cutcell.cpp:139-148 *)
Definition cell_volume (vols : Z -> Qc) (c : list (Z * bool)) : Qc := fold_left (fun v '(f, b) => v + (if b : bool then 1 else - (1)) * vols f) c 0.
(** volume3.cpp:7-21: all face volumes, then all cut cells *)
Fixpoint sequence (A : Type) (l : list (option A)) : option (list A) :=
  match l with [] => Some [] | None :: _ => None | Some x :: t => option_map (cons x) (sequence t) end.
Definition cut_cell_volumes (V : Z -> q3) (faces : list (list (list Z))) (cells : list (list (Z * bool))) : option (list Qc) :=
  option_map (fun fv => map (cell_volume (fun f => nth (Z.to_nat f) fv 0)) cells) (sequence (map (brep_volume V) faces)).

(** cutface_impl.hpp:99-123: vertex average; division by a zero count is NaN in C++ (None) *)
Definition vsum (l : list q3) : q3 := fold_left vadd l vzero.
Definition brep_centroid (V : Z -> q3) (loops : list (list Z)) : option q3 :=
  let vs := map V (concat loops) in
  match vs with [] => None | _ => Some (vscale (/ Z2Qc (Z.of_nat (length vs))) (vsum vs)) end.
(** cutcell.cpp:149-160; the sign is computed and not used.  Division by size() = 0 is NaN (None). *)
Definition mean (vs : list q3) : option q3 := match vs with [] => None | _ => Some (vscale (/ Z2Qc (Z.of_nat (length vs))) (vsum vs)) end.
(** mesh3.cpp:87-109, cell_centroids, one cut cell: brep_centroid of every face, then moment.  None = a face index out of range, or NaN *)
Definition cell_centroid (V : Z -> q3) (faces : list (list (list Z))) (c : list (Z * bool)) : option q3 :=
  match sequence (map (fun '(f, _) => if (f <? 0)%Z then None else match nth_error faces (Z.to_nat f) with Some ls => brep_centroid V ls | None => None end) c) with
  | Some cs => mean cs | None => None end.
