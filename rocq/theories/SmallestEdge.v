(** Model of smallest_ordered_edge / smallest_ordered_edge_reverse (src/construction/generator.cpp:44-65).
    assert(v.size() >= 2) is a precondition of the statements; v[i] out of range reads as 0 in the model and
    never happens for non-empty loops of length >= 2. *)
From Verif Require Import Base.
Set Implicit Arguments.
Local Open Scope Z_scope.

Definition edge := (Z * Z)%type.
(** std::array<int,2> operator< *)
Definition edge_cmp : edge -> edge -> comparison := pair_cmp Z.compare Z.compare.
(** std::min(e, min): min if min < e, otherwise e *)
Definition edge_min (e m : edge) : edge := match edge_cmp m e with Lt => m | _ => e end.
Definition vat (v : list Z) (i : nat) : Z := nth i v 0.

(** generator.cpp:44-53 *)
Definition smallest_ordered_edge (v : list Z) : edge :=
  fold_left (fun m i => edge_min (vat v i, vat v ((i + 1) mod length v)) m) (seq 0 (length v)) (vat v 0, vat v 1).
(** generator.cpp:54-65 *)
Definition smallest_ordered_edge_reverse (v : list Z) : edge :=
  let m := fold_left (fun m i => edge_min (vat v ((i + 1) mod length v), vat v i) m) (seq 0 (length v)) (vat v 1, vat v 0) in
  (snd m, fst m).
