(** Model of the intersection types and their orders
    (include/mandoline/construction/vertex_types.hpp, vertex_types_impl.hpp). *)
From Verif Require Import Base Num CoordMask Vertex.
Set Implicit Arguments.
Local Open Scope Qc_scope.

(** vertex_types.hpp:26-52 *)
Record edge_isect := mkEI { ei_v : vertex; ei_coord : Qc; ei_index : Z }.
(** vertex_types.hpp:56-76 *)
Record tri_isect := mkTI { ti_v : vertex; ti_bary : list Qc; ti_index : Z }.

(** vertex_types_impl.hpp:56-66, EdgeIntersection::operator< *)
Definition ei_ltb (a b : edge_isect) : bool :=
  if qleb 0 (ei_coord a) && (ei_index a =? ei_index b)%Z
  then qltb (ei_coord a) (ei_coord b)
  else (ei_index a <? ei_index b)%Z && v_ltb (ei_v a) (ei_v b).

(** vertex_types.hpp:89, VertexVariant; pointers are modelled by the pointed-to values *)
Inductive crossing := CV (v : vertex) | CE (e : edge_isect) | CT (t : tri_isect).
Definition variant_index (c : crossing) : nat := match c with CV _ => 0 | CE _ => 1 | CT _ => 2 end.
(** vertex_types_impl.hpp:108-120, Crossing::vertex *)
Definition cr_vertex (c : crossing) : vertex :=
  match c with CV v => v | CE e => ei_v e | CT t => ti_v t end.
(** vertex_types_impl.hpp:74-91, Crossing::operator<; TriangleIntersection inherits Vertex::operator< *)
Definition cr_ltb (a b : crossing) : bool :=
  match a, b with
  | CV v, CV w => v_ltb v w
  | CE e, CE f => ei_ltb e f
  | CT s, CT t => v_ltb (ti_v s) (ti_v t)
  | _, _ => (variant_index a <? variant_index b)%nat
  end.

(** vertex_types_impl.hpp:164-174, EdgeCrossing::find_unbound: first axis that is not clamped, -1 if none *)
Fixpoint find_unbound_from (i : Z) (bs : bitset) : Z :=
  match bs with
  | [] => (-1)%Z
  | b :: t => if b then find_unbound_from (i + 1) t else i
  end.
Definition find_unbound (v : vertex) : Z := find_unbound_from 0 (v_clamped v).
(** vertex_types_impl.hpp:195-198, EdgeCrossing::edge_coord; None = out-of-range access *)
Definition ec_coord (v : vertex) : option Qc :=
  if (find_unbound v <? 0)%Z then None else nth_error (v_quot v) (Z.to_nat (find_unbound v)).
