(** Model of FaceCollapser::bake with nonsimple_faces = true: merge_faces (include/mandoline/construction/face_collapser.hpp:87-98, 189-313).
    Exact rational arithmetic.  mtao::geometry::interior_winding_number (external) is the argument [wind]; the two std::sort calls are arguments. *)
From Verif Require Import Base Num SmallestEdge DisjointSet FaceCollapser AngleSort.
Set Implicit Arguments.
Local Open Scope Z_scope.

(** :262-286, volumes: sum of determinants per face id, then halved *)
Definition det2 (V : Z -> vec2) (e : edge) : Qc := (fst (V (fst e)) * snd (V (snd e)) - fst (V (snd e)) * snd (V (fst e)))%Qc.
Definition volumes (V : Z -> vec2) (m : emap) : list (Z * Qc) :=
  map (fun '(f, v) => (f, v * qhalf)%Qc)
    (fold_left (fun ret '(e, (f, _)) => map_set Z.compare f (match map_find Z.compare f ret with Some v => (v + det2 V e)%Qc | None => det2 V e end) ret) m []).
Definition vol_of (vols : list (Z * Qc)) (f : Z) : Qc := match map_find Z.compare f vols with Some v => v | None => 0%Qc end.
(** :288-296 and :298-313, is_inside(V, a, b) *)
Definition is_inside (V : Z -> vec2) (wind : list Z -> vec2 -> bool) (a b : list Z) : bool := forallb (fun i => wind b (V i)) a.
(** :204-213 *)
Definition positive_areas (vols : list (Z * Qc)) : list Z := map fst (filter (fun '(f, v) => negb (f =? -1) && qltb 0 v) vols).
Definition negative_areas (vols : list (Z * Qc)) : list Z := map fst (filter (fun '(f, v) => negb (f =? -1) && qltb v 0) vols).
Fixpoint take_while (A : Type) (p : A -> bool) (l : list A) : list A := match l with [] => [] | a :: t => if p a then a :: take_while p t else [] end.
(** faces[fidx]: operator[] *)
Definition loop_of (fs : list (Z * list Z)) (f : Z) : list Z := match map_find Z.compare f fs with Some l => l | None => [] end.
(** :222-236: the loop over negative areas is left at the first one larger than the positive area *)
Definition merge_joins (inside : list Z -> list Z -> bool) (vols : list (Z * Qc)) (fs : list (Z * list Z)) (pos neg : list Z) : list ds_op :=
  flat_map (fun p => map (OpJoin p) (filter (fun n => inside (loop_of fs n) (loop_of fs p)) (take_while (fun n => negb (qltb (vol_of vols p) (- vol_of vols n)%Qc)) neg))) pos.
(** :247-253: reindexer[k] = reindexer.size() - 1, the right side first *)
Definition merge_reindexer (d : ds) : list (Z * Z) :=
  fold_left (fun re n => if n =? -1 then re else map_set Z.compare n (Z.of_nat (length re) - 1) re) (ds_roots d) [(-1, -1)].
Definition zfind (k : Z) (m : list (Z * Z)) : Z := match map_find Z.compare k m with Some v => v | None => 0 end.
(** :254-260 *)
Definition merge_map (d : ds) (m : emap) : emap :=
  map (fun '(e, (c, s)) => (e, (zfind (match ds_root d c with Some r => r | None => c end) (merge_reindexer d), s))) m.
Section Merge.
  Variables (lnk : ds -> Z -> Z -> bool) (sortp sortn : (Z -> Qc) -> list Z -> list Z) (V : Z -> vec2) (wind : list Z -> vec2 -> bool).
  Definition merge_ds (m : emap) (fs : list (Z * list Z)) : ds :=
    let vols := volumes V m in
    ds_run lnk (map OpAdd (keys vols) ++ merge_joins (is_inside V wind) vols fs (sortp (vol_of vols) (positive_areas vols)) (sortn (vol_of vols) (negative_areas vols))).
  (** :189-261 *)
  Definition merge_faces (x : fcol) : option fcol :=
    match faces_no_holes x with Some fs => Some (mkFC (merge_map (merge_ds (fc_map x) fs) (fc_map x)) (fc_ds x) (fc_deg x)) | None => None end.
  (** :87-98; the removal marks are those of set_edge_for_removal *)
  Definition bake_holes (ord : Z -> list Z -> list Z) (edges rm : list edge) : option fcol := merge_faces (bake_simple lnk ord edges rm).
End Merge.
