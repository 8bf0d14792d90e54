(** Model of the cut edges of CutData (include/mandoline/construction/cutdata_impl.hpp:83-262 for the input edges,
    facet_intersections.hpp:40-52), and of get_edge_coord (cutdata_impl.hpp:296-318).
    Pointers to vertices are modelled by crossings; the indexer (a std::map from pointers to indices) by a function. *)
From Verif Require Import Base Num CoordMask Vertex VertexTypes EdgeBake.
Set Implicit Arguments.
Local Open Scope Z_scope.

Definition pair_cmp2 : Z * Z -> Z * Z -> comparison := pair_cmp Z.compare Z.compare.
(** std::sort of an array of two ints *)
Definition sorted_pair (x y : Z) : Z * Z := if y <? x then (y, x) else (x, y).
(** facet_intersections.hpp:40-52, IntersectionsBase::edges on the consecutive pairs (vptr_edges, :149-159) *)
Definition edges_of (ix : crossing -> Z) (gv : list crossing) : list (Z * Z) :=
  fold_left (fun s '(p, q) => if ix p =? ix q then s else set_insert pair_cmp2 (sorted_pair (ix p) (ix q)) s) (consecutive gv) [].

Definition cut_edge := (mask * (Z * Z) * Z)%type.
(** cutdata_impl.hpp:128-156: what the loop body adds for one input edge (i, j) with index eidx.  The trivial branch looks the two
    vertices up in m_crossings, whose first entries are the input vertices, so its indices are those of the vertices' crossings. *)
Definition cut_edges_of (ix : crossing -> Z) (grid : option (list Z)) (a b : vertex) (eidx : Z) : list cut_edge :=
  let R := bake_edge grid a b eidx in
  match R with
  | [] => [(edge_mask a b, (ix (CV a), ix (CV b)), eidx)]
  | _ => map (fun E => (edge_mask a b, E, eidx)) (edges_of ix (gvertices a b R))
  end.
(** #pragma omp parallel for with the emplace_back under a mutex: any interleaving of the per-edge sequences *)
Inductive interleaves (A : Type) : list (list A) -> list A -> Prop :=
| ilv_nil ls : Forall (fun l => l = []) ls -> interleaves ls []
| ilv_step ls1 x l ls2 out : interleaves (ls1 ++ l :: ls2) out -> interleaves (ls1 ++ (x :: l) :: ls2) (x :: out).
Definition numbered (A : Type) (l : list A) : list (Z * A) := combine (map Z.of_nat (seq 0 (length l))) l.
Definition cut_edges (ix : crossing -> Z) (grid : option (list Z)) (edges : list (vertex * vertex)) (out : list cut_edge) : Prop :=
  interleaves (map (fun '(i, (a, b)) => cut_edges_of ix grid a b i) (numbered edges)) out.

(** cutdata_impl.hpp:296-318; same_v i = the crossing is end point i of the edge (pointer comparison).  An EdgeIsect answers with its
    own parameter, whatever its edge is. *)
Definition get_edge_coord (a b : vertex) (is_a is_b : bool) (c : crossing) : Qc :=
  match c with
  | CV v => if is_a then 0%Qc else if is_b then 1%Qc else get_coord a b v
  | CE e => ei_coord e
  | CT t => get_coord a b (ti_v t)
  end.
