(** What "the next face around an edge" means in space.  Nothing here mentions axes, projections or sorting. *)
From Verif Require Import Base Num SmallestEdge AdaptiveGrid AngleSort AngleSortSpec FaceCollapser CellCollapser CellCollapserSpec Volume Wedge.
From Coq Require Import Relations Permutation Sorted.
Set Implicit Arguments.
Local Open Scope Qc_scope.
(** positive exactly when y is reached from x by a counter-clockwise turn about d of less than half a turn (x, y perpendicular to d) *)
Definition turn (d x y : q3) : Qc := dot d (Volume.cross x y).
Definition same_ray (x y : q3) : Prop := exists t, 0 < t /\ y = vscale t x.
(** turning the half-plane bounded by the axis d counter-clockwise from x until it reaches y (a full turn if x and y are the same
    half-plane) passes strictly through z *)
Definition swept (d x z y : q3) : Prop :=
  (same_ray x y /\ ~ same_ray x z) \/
  (~ same_ray x y /\ ((0 < turn d x y /\ 0 < turn d x z /\ 0 < turn d z y) \/ (turn d x y <= 0 /\ (0 < turn d x z \/ 0 < turn d z y)))).
(** The face f whose loop runs along the directed edge e lies to the left of e when seen against its normal: the direction from e into f *)
Definition into (V N : Z -> q3) (f : Z) (e : edge) : q3 := Volume.cross (N f) (vsub (V (snd e)) (V (fst e))).
Definition along (s : bool) (a b : Z) : edge := if s then (a, b) else (b, a).
(** Going about a->b counter-clockwise from face f one leaves f by its side s, and arrives at face g on its side t,
    with no other face in the wedge between them. (f runs along (a,b) if s is its front, along (b,a) if s is its back; g the other way.)
    With [open] = false, edges used by a single face are skipped. *)
Definition wedge_step (open : bool) (V N : Z -> q3) (faces : list (Z * list loop)) (x y : side) : Prop :=
  let '(f, s) := x in let '(g, t) := y in
  exists a b, face_edge faces f (along s a b) /\ face_edge faces g (along (negb t) a b) /\
    (open = true \/ exists h h' u u', h <> h' /\ face_edge faces h (along u a b) /\ face_edge faces h' (along u' a b)) /\
    forall h u, face_edge faces h (along u a b) ->
      ~ swept (vsub (V b) (V a)) (into V N f (along s a b)) (into V N h (along u a b)) (into V N g (along (negb t) a b)).
Definition share_a_wedge_chain open V N faces : side -> side -> Prop := clos_refl_sym_trans side (wedge_step open V N faces).
(** flat faces with edges of length at least 1e-8, and no two faces leaving an edge in the same direction *)
Definition flat_faces (V N : Z -> q3) (faces : list (Z * list loop)) : Prop :=
  (forall f a b, face_edge faces f (a, b) -> dot (N f) (vsub (V b) (V a)) = 0 /\ N f <> (0, 0, 0)) /\
  (forall f g a b s t, face_edge faces f (along s a b) -> face_edge faces g (along t a b) -> f <> g ->
     ~ same_ray (into V N f (along s a b)) (into V N g (along t a b))).
Definition long_edges (V : Z -> q3) (faces : list (Z * list loop)) : Prop :=
  forall f a b, face_edge faces f (a, b) -> tiny_sq <= dot (vsub (V b) (V a)) (vsub (V b) (V a)).
(** *** the external functions *)
(** Eigen normalized(): a positive multiple *)
Definition normalizes (nrm : q3 -> q3) : Prop := forall v, v <> (0, 0, 0) -> exists t, 0 < t /\ nrm v = vscale t v.
(** v in the frame in which r points straight up *)
Definition frame (r v : vec2) : vec2 := (fst v * snd r - snd v * fst r, fst v * fst r + snd v * snd r).
(** cyclic_order: the column indices, by counter-clockwise angle from some ray r *)
Definition sorts_cyclically (cyc : list vec2 -> list nat) : Prop :=
  forall A, Permutation (cyc A) (seq 0 (length A)) /\
    (Forall nonzero A -> exists r, nonzero r /\
      StronglySorted (fun i j => ~ ccw_before (frame r (nth j A (0, 0))) (frame r (nth i A (0, 0)))) (cyc A)).
