(** Counter-clockwise order of directions, starting just after straight up. Independent of quadrants. *)
From Verif Require Import Base Num AngleSort.
From Coq Require Import Permutation Sorted.
Local Open Scope Qc_scope.
Definition nonzero (a : vec2) : Prop := a <> (0, 0).
Definition cross (a b : vec2) : Qc := fst a * snd b - snd a * fst b.
(** the half turn of directions at angles in (90, 270] degrees *)
Definition first_half (a : vec2) : Prop := fst a < 0 \/ (fst a = 0 /\ snd a < 0).
(** a comes strictly before b on the counter-clockwise turn that starts just after 90 degrees *)
Definition ccw_before (a b : vec2) : Prop :=
  (first_half a /\ ~ first_half b) \/ ((first_half a <-> first_half b) /\ 0 < cross a b).
(** same direction: one is a positive multiple of the other *)
Definition same_dir (a b : vec2) : Prop := exists t, 0 < t /\ b = (t * fst a, t * snd a).
(** what std::sort guarantees for a strict weak order: a rearrangement in which no later element is before an earlier one *)
Definition sorts_by {A : Type} (lt : A -> A -> bool) (l l' : list A) : Prop :=
  Permutation l' l /\ StronglySorted (fun x y => lt y x = false) l'.
(** turning counter-clockwise from x to y passes strictly through z *)
Definition ccw_between (x z y : vec2) : Prop :=
  (ccw_before x z /\ ccw_before z y) \/ (~ ccw_before x y /\ (ccw_before x z \/ ccw_before z y)).
