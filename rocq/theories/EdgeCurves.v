(** Model of tools::edge_to_plcurves (src/tools/edges_to_plcurves.cpp:11-47), which turns edges into drawable curves, and of FaceCollapser::face_edges
    (src/construction/face_collapser.cpp:146-155).  mtao's unique_simplices and edge_to_plcurves are the arguments [unique] and [curves_of];
    mtao's brep_volume and curve_volume of plane curves (external) are half the sum of the cross products of the ends of the edges.  Exact rationals. *)
From Verif Require Import Base Num SmallestEdge DisjointSet FaceCollapser.
Set Implicit Arguments.
Local Open Scope Z_scope.

(** face_collapser.cpp:146-155 *)
Definition face_edges (x : fcol) : list (Z * list edge) :=
  fold_left (fun ret '(e, (f, _)) =>
      let old := match map_find Z.compare f ret with Some s => s | None => [] end in
      map_set Z.compare f (set_insert edge_cmp e old) ret) (fc_map x) [].
Definition pt2 := (Qc * Qc)%type.
Definition cross2 (a b : pt2) : Qc := (fst a * snd b - snd a * fst b)%Qc.
Definition brep_volume (V : Z -> pt2) (E : list edge) : Qc := (fold_left (fun s e => s + cross2 (V (fst e)) (V (snd e))) E 0 * qhalf)%Qc.
Definition curve_volume (V : Z -> pt2) (c : list Z) : Qc := brep_volume V (cyc_pairs c).
(** 1e-10 *)
Definition tiny : Qc := Q2Qc (1 # 10000000000).
(** :28-43, the condition of remove_if *)
Definition dropped (V : Z -> pt2) (ovol : Qc) (pr : list Z * bool) : bool := if snd pr then qltb (curve_volume V (fst pr) * ovol) (- tiny) else false.
(** :12-46 *)
Definition edge_to_plcurves (lnk : ds -> Z -> Z -> bool) (ord : Z -> list Z -> list Z) (unique : list edge -> list edge) (curves_of : list edge -> bool -> list (list Z * bool))
    (V : Z -> pt2) (E : list edge) (closed_only : bool) : list (list Z * bool) :=
  flat_map (fun fe => let E' := unique (snd fe) in filter (fun pr => negb (dropped V (brep_volume V E') pr)) (curves_of E' closed_only)) (face_edges (bake_simple lnk ord E [])).
