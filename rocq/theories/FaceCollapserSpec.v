(** Vocabulary for the statements about FaceCollapser. *)
From Verif Require Import Base SmallestEdge FaceCollapser.
Local Open Scope Z_scope.
(** the half-edges of a set of undirected edges: each edge in both directions *)
Definition half_edge (edges : list edge) (e : edge) : Prop := In e edges \/ In (snd e, fst e) edges.
(** no self loops, no repeated undirected edge *)
Definition simple_edges (edges : list edge) : Prop :=
  NoDup edges /\ forall a b, In (a, b) edges -> a <> b /\ ~ In (b, a) edges.
(** [reach nxt e e']: following the successor map from e leads to e' *)
Inductive reach (nxt : edge -> option edge) : edge -> edge -> Prop :=
| reach_refl : forall e, reach nxt e e
| reach_step : forall e e1 e2, nxt e = Some e1 -> reach nxt e1 e2 -> reach nxt e e2.
(** l is one whole closed loop of the successor map, each half-edge once *)
Definition closed_loop (nxt : edge -> option edge) (l : list edge) : Prop :=
  l <> [] /\ NoDup l /\ forall i, (i < length l)%nat ->
    nxt (nth i l (0, 0)) = Some (nth ((i + 1) mod length l) l (0, 0)).
