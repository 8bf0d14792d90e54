(** Model of construction::SubGridTransformer (include/mandoline/construction/subgrid_transformer.hpp:109-127,
    src/construction/subgrid_transformer.cpp).  Arrays are lists; None = out-of-range access or read of an
    unwritten component. *)
From Verif Require Import Base Num CoordMask Vertex Grid.
Set Implicit Arguments.

(** subgrid_transformer.hpp:109-117, _downgrade *)
Definition downgrade (A : Type) (axis : nat) (c3 : list A) : option (list A) :=
  match nth_error c3 ((0 + axis + 1) mod 3)%nat, nth_error c3 ((1 + axis + 1) mod 3)%nat with
  | Some a, Some b => Some [a; b]
  | _, _ => None
  end.

(** every component written *)
Fixpoint all_some (A : Type) (l : list (option A)) : option (list A) :=
  match l with
  | [] => Some []
  | Some a :: t => match all_some t with Some r => Some (a :: r) | None => None end
  | None :: _ => None
  end.
(** subgrid_transformer.hpp:118-127, _upgrade: an uninitialised array of 3 components, then three writes. *)
Definition upgrade (A : Type) (axis : nat) (c2 : list A) (v : A) : option (list A) :=
  match list_set [None; None; None] axis (Some v) with
  | None => None
  | Some s0 =>
      match nth_error c2 0, nth_error c2 1 with
      | Some a, Some b =>
          match list_set s0 ((0 + axis + 1) mod 3)%nat (Some a) with
          | None => None
          | Some s1 => match list_set s1 ((1 + axis + 1) mod 3)%nat (Some b) with
                       | None => None
                       | Some s2 => all_some s2
                       end
          end
      | _, _ => None
      end
  end.

(** subgrid_transformer.cpp:50-52 *)
Definition downgrade_vertex (axis : nat) (v : vertex) : option vertex :=
  match downgrade axis (v_coord v), downgrade axis (v_quot v), downgrade axis (v_clamped v) with
  | Some c, Some q, Some b => Some (mkVertex c q b)
  | _, _, _ => None
  end.
(** subgrid_transformer.cpp:53-55 (with :10-11 and :19 supplying c, 0 and true) *)
Definition upgrade_vertex (axis : nat) (c : Z) (v : vertex) : option vertex :=
  match upgrade axis (v_coord v) c, upgrade axis (v_quot v) 0%Qc, upgrade axis (v_clamped v) true with
  | Some c, Some q, Some b => Some (mkVertex c q b)
  | _, _, _ => None
  end.
(** subgrid_transformer.cpp:23-25; s2, s3 are the vertex shapes of g2, g3 *)
Definition downgrade_index (s2 s3 : list Z) (axis : nat) (i : Z) : option Z :=
  option_map (ravel s2) (downgrade axis (unravel s3 i)).
(** subgrid_transformer.cpp:26-31 *)
Definition upgrade_index (s2 s3 : list Z) (axis : nat) (c : Z) (i : Z) : option Z :=
  option_map (ravel s3) (upgrade axis (unravel s2 i) c).
