From Verif Require Import Base SmallestEdge.
Local Open Scope Z_scope.

(** Specification: directed edges of a closed loop *)
Definition loop_edge (v : list Z) (e : edge) : Prop :=
  exists i, (i < length v)%nat /\ e = (nth i v 0, nth ((i + 1) mod length v) v 0).
Definition edge_le (e f : edge) : Prop := fst e < fst f \/ (fst e = fst f /\ snd e <= snd f).
(** rotation of a loop by k *)
Definition rotate (k : nat) (v : list Z) : list Z := skipn k v ++ firstn k v.

