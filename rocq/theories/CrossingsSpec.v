From Verif Require Import Base Num CoordMask Vertex VertexSpec Grid.
Local Open Scope Z_scope.

(** crossing precondition: exact flags, normalised, and grid vertices inside the vertex grid *)
Definition good_crossing (D : nat) (s : list Z) (v : vertex) : Prop :=
  v_wf D v /\ normalised v /\ flags_exact v /\ (is_grid_vertex v = true -> in_shape s (v_coord v) = true).

