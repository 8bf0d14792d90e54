(** Specification vocabulary for vertices, independent of the implementation. *)
From Verif Require Import Base Num CoordMask Vertex.
Local Open Scope Qc_scope.

(** The closed unit cube at integer corner [c] contains the point [p]. *)
Definition in_closed_cell (c : coord) (p : list Qc) : Prop :=
  Forall2 (fun ci pi => Z2Qc ci <= pi /\ pi <= Z2Qc ci + 1) c p.

(** Fractional parts are in [0,1). *)
Definition normalised (v : vertex) : Prop := Forall (fun q => 0 <= q /\ q < 1) (v_quot v).

(** An axis flagged as clamped really lies on its grid plane. *)
Definition flags_sound (v : vertex) : Prop :=
  Forall2 (fun (b : bool) q => b = true -> q = 0) (v_clamped v) (v_quot v).
(** ... and conversely. *)
Definition flags_exact (v : vertex) : Prop :=
  Forall2 (fun (b : bool) q => b = true <-> q = 0) (v_clamped v) (v_quot v).

(** Point arithmetic on vectors. *)
Definition vec_add (a b : list Qc) : list Qc := zipwith Qcplus a b.
Definition vec_sub (a b : list Qc) : list Qc := zipwith Qcminus a b.
Definition vec_scale (s : Qc) (a : list Qc) : list Qc := map (Qcmult s) a.
