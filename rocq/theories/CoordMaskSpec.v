(** Specification vocabulary for masks, independent of the model's loops: a mask is the set of
    grid planes (axis, value) it binds. *)
From Verif Require Import Base CoordMask.
Local Open Scope Z_scope.

(** The mask binds axis [i] to value [v], i.e. the element lies on the plane x_i = v. *)
Definition binds (m : mask) (i : nat) (v : Z) : Prop := nth_error m i = Some (Some v).
(** Axis [i] is bound. *)
Definition bound (m : mask) (i : nat) : Prop := exists v, binds m i v.
(** Set inclusion of bound planes. *)
Definition planes_incl (a b : mask) : Prop := forall i v, binds a i v -> binds b i v.

(** [x] is [c] with some of the bound axes decremented: a grid cell incident to an element of minimum
    coordinate [c] that lies on the planes of [m]. *)
Definition incident (m : mask) (c x : coord) : Prop :=
  length x = length c /\
  forall i ci xi, nth_error c i = Some ci -> nth_error x i = Some xi ->
    xi = ci \/ (bound m i /\ xi = ci - 1).
