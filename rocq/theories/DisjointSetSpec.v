From Verif Require Import Base DisjointSet.
From Coq Require Import Relations.
Local Open Scope Z_scope.
(** history of an operation sequence: which nodes were added and which pairs were joined after both were added *)
Fixpoint added (ops : list ds_op) (x : Z) : Prop :=
  match ops with
  | [] => False
  | OpAdd y :: t => x = y \/ added t x
  | OpJoin _ _ :: t => added t x
  end.
(** pair (a,b) was joined at a moment when both had been added *)
Definition joined (ops : list ds_op) (a b : Z) : Prop :=
  exists p q, ops = p ++ OpJoin a b :: q /\ added p a /\ added p b.
Definition connected (R : Z -> Z -> Prop) : Z -> Z -> Prop := clos_refl_sym_trans Z R.
