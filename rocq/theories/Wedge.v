(** The cyclic order of the faces around an edge: include/mandoline/construction/cell_collapser.hpp:72-139, the part of
    CellCollapser::merge_around_edge before the join loop (the join loop is CellCollapser.around_ops).  Exact rational arithmetic. *)
From Verif Require Import Base Num SmallestEdge AdaptiveGrid AngleSort FaceCollapser CellCollapser Volume.
Set Implicit Arguments.
Local Open Scope Qc_scope.

Definition vsub (a b : q3) : q3 := vadd a (vneg b).
(** Eigen's v(k) *)
Definition comp3 (v : q3) (k : Z) : Qc := let '(x, y, z) := v in if (k =? 0)%Z then x else if (k =? 1)%Z then y else z.
Definition sq (x : Qc) : Qc := x * x.
(** hpp:86,89-90,100-104: v.cwiseAbs().maxCoeff(&k): the first axis of largest absolute value (compared through squares) *)
Definition max_axis (v : q3) : Z :=
  let '(x, y, z) := v in
  if qltb (sq x) (sq y) then (if qltb (sq y) (sq z) then 2%Z else 1%Z) else (if qltb (sq x) (sq z) then 2%Z else 0%Z).
(** hpp:84, vba.norm() < 1e-8, compared through squares *)
Definition tiny_sq : Qc := Q2Qc (1 # 10000000000000000).
Definition tiny (v : q3) : bool := qltb (dot v v) tiny_sq.
(** hpp:81-106, maxcoeff. [eig] stands for Eigen::SelfAdjointEigenSolver on the sum of N N^T: None when it does not report Success,
    otherwise the axis of largest component of the eigenvector of the smallest eigenvalue *)
Definition edge_axis (eig : list q3 -> option Z) (vba : q3) (Ns : list q3) : Z :=
  if tiny vba then match eig Ns with Some k => k | None => max_axis vba end else max_axis vba.
(** hpp:123-130, the two kept components, in an order that depends on the direction of the edge *)
Definition project (k : Z) (flip : bool) (n : q3) : vec2 :=
  let p := comp3 n ((k + 1) mod 3) in let q := comp3 n ((k + 2) mod 3) in if flip then (p, q) else (q, p).
(** std::get<1>(m_halfface_to_cell.at({f, e})) *)
Definition face_sign (m : hfmap) (e : edge) (f : Z) : bool := match map_find hf_cmp (f, e) m with Some (_, b) => b | None => false end.
(** hpp:118-121, (sign ? 1 : -1) * F.N.normalized(); [nrm] is Eigen's normalized() *)
Definition oriented_normal (nrm : q3 -> q3) (N : Z -> q3) (m : hfmap) (e : edge) (f : Z) : q3 :=
  if face_sign m e f then nrm (N f) else vneg (nrm (N f)).
(** hpp:76-79: vba = va - vb *)
Definition edge_vba (V : Z -> q3) (e : edge) : q3 := vsub (V (fst e)) (V (snd e)).
(** hpp:72-139: ordered_faces. [shuffle] is the iteration order of std::set<const HalfFace*> (pointer order), [cyc] is
    mtao::geometry::cyclic_order (external): the indices of the columns of A in cyclic order *)
Definition around_order (shuffle : list Z -> list Z) (eig : list q3 -> option Z) (nrm : q3 -> q3) (cyc : list vec2 -> list nat)
    (V N : Z -> q3) (m : hfmap) (e : edge) (fs : list Z) : list Z :=
  let l := shuffle fs in
  let vba := edge_vba V e in
  let k := edge_axis eig vba (map N (filter (face_sign m e) l)) in
  let flip := qltb (comp3 vba k) 0 in
  let A := map (fun f => project k flip (oriented_normal nrm N m e f)) l in
  map (fun i => nth i l 0%Z) (cyc A).
