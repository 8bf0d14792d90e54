(** Vocabulary for the statements about adaptive grids. *)
From Verif Require Import Base Num SmallestEdge AdaptiveGrid.
Local Open Scope Z_scope.
(** unit cell p lies in the cube with low corner c and width w *)
Definition in_box (b : acell) (p : c3) : Prop := forall d, (d < 3)%nat -> get3 (fst b) d <= get3 p d < get3 (fst b) d + snd b.
(** unit cell p lies in the grid *)
Definition in_grid (shape p : c3) : Prop := forall d, (d < 3)%nat -> 0 <= get3 p d < get3 shape d.
(** the cells cover exactly the unit cells of the grid satisfying P, each exactly once, and lie inside the grid *)
Definition tiles (shape : c3) (P : c3 -> Prop) (cells : acells) : Prop :=
  (forall id b p, In (id, b) cells -> in_box b p -> in_grid shape p /\ P p) /\
  (forall p, in_grid shape p -> P p -> exists! ib, In ib cells /\ in_box (snd ib) p).
(** aligned power-of-two cube *)
Definition dyadic (b : acell) : Prop := exists k, 0 <= k /\ snd b = 2 ^ k /\ forall d, (d < 3)%nat -> (2 ^ k | get3 (fst b) d).
Definition disjoint_cells (cells : acells) : Prop :=
  forall i a j b p, In (i, a) cells -> In (j, b) cells -> in_box a p -> in_box b p -> i = j.
(** consistent map: ids are unique (std::map) and non-negative, cubes are non-empty and inside the grid *)
Definition wf_cells (shape : c3) (cells : acells) : Prop :=
  ssorted Z.compare (map fst cells) /\ forall i b, In (i, b) cells -> 0 <= i /\ 0 < snd b /\ forall p, in_box b p -> in_grid shape p.
(** the cell that owns a unit cell *)
Definition owns (cells : acells) (i : Z) (p : c3) : Prop := exists b, In (i, b) cells /\ in_box b p.
(** the unit grid face of axis d whose upper unit cell is y lies on the square with the given low corner and width *)
Definition on_square (corner : c3) (d : nat) (w : Z) (y : c3) : Prop :=
  get3 y d = get3 corner d /\ forall i, (i < 3)%nat -> i <> d -> get3 corner i <= get3 y i < get3 corner i + w.
