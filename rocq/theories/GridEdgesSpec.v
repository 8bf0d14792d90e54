(** Vocabulary for the statements about subdivided grid edges. *)
From Verif Require Import Base Num.
Set Implicit Arguments.
(** consecutive elements of a list *)
Definition adjacent (A : Type) (l : list A) (a b : A) : Prop := exists p q, l = p ++ a :: b :: q.
(** edges walk from x to y, each starting where the previous one ended *)
Inductive walk : Z -> list (Z * Z) -> Z -> Prop :=
| walk_nil : forall x, walk x [] x
| walk_cons : forall x y es z, walk y es z -> walk x ((x, y) :: es) z.
(** p lies strictly inside the grid edge that leaves the grid vertex c along axis j, at parameter t *)
Definition on_open_edge (c : list Z) (j : nat) (t : Qc) (p : list Qc) : Prop :=
  length p = length c /\ (0 < t /\ t < 1)%Qc /\
  (exists x, nth_error c j = Some x /\ nth_error p j = Some (Z2Qc x + t)%Qc) /\
  (forall k x, k <> j -> nth_error c k = Some x -> nth_error p k = Some (Z2Qc x)).
