(** Model of crossing index assignment: CutData::compute_crossings
    (include/mandoline/construction/cutdata_impl.hpp:457-511) and its users. *)
From Verif Require Import Base Num CoordMask Vertex VertexTypes Grid.
Set Implicit Arguments.
Local Open Scope Z_scope.

(** std::map<VType,int> ordered by Vertex::operator< (coord, then quot; flags are not compared). *)
Definition vkey := (coord * list Qc)%type.
Definition vkey_of (v : vertex) : vkey := (v_coord v, v_quot v).
Definition vkey_cmp : vkey -> vkey -> comparison := pair_cmp zlex (lex_cmp qcmp).

(** cutdata_impl.hpp:488-502, the fusing loop; [s] is the vertex grid shape, [vs] the vertices of
    the concatenated crossings (vertices, edge and face intersections), the result their indices and the
    final counter. grid_index is cutdata.hpp:104. *)
Fixpoint fuse_loop (s : list Z) (m : list (vkey * Z)) (count : Z) (vs : list vertex) : list Z * Z :=
  match vs with
  | [] => ([], count)
  | v :: t =>
      if is_grid_vertex v then
        let i := ravel s (v_coord v) in
        let '(r, c) := fuse_loop s (map_set vkey_cmp (vkey_of v) i m) count t in (i :: r, c)
      else
        match map_find vkey_cmp (vkey_of v) m with
        | Some i => let '(r, c) := fuse_loop s m count t in (i :: r, c)
        | None => let '(r, c) := fuse_loop s (map_set vkey_cmp (vkey_of v) count m) (count + 1) t in
                  (count :: r, c)
        end
  end.
(** cutdata_impl.hpp:457-511 with fuse = true *)
Definition compute_crossings (s : list Z) (vs : list vertex) : list Z * Z := fuse_loop s [] (shape_size s) vs.
(** cutdata_impl.hpp:503-508, fuse = false *)
Definition compute_crossings_nofuse (vs : list vertex) : list Z := map Z.of_nat (seq 0 (length vs)).

(** cutdata_impl.hpp:339-345, cut_vertex_size *)
Definition cut_vertex_size (s : list Z) (idxs : list Z) : Z :=
  fold_left (fun size i => Z.max size (i + 1)) idxs (shape_size s).

(** generator_impl.hpp:160-186, bake_vertices: the slot array m_crossings, None = never assigned. Later
    crossings overwrite earlier ones with the same index. *)
Definition bake_vertices_size (s : list Z) (idxs : list Z) : Z :=
  Z.max (fold_left (fun mx i => Z.max i mx) idxs (-1) + 1 - shape_size s) 0.
Fixpoint slot_set (l : list (option vertex)) (i : nat) (v : vertex) : list (option vertex) :=
  match l, i with
  | [], _ => []
  | _ :: t, O => Some v :: t
  | a :: t, S i' => a :: slot_set t i' v
  end.
Definition bake_vertices (s : list Z) (cs : list (vertex * Z)) : list (option vertex) :=
  fold_left (fun slots '(v, i) => if 0 <=? i - shape_size s then slot_set slots (Z.to_nat (i - shape_size s)) v else slots)
    cs (repeat None (Z.to_nat (bake_vertices_size s (map snd cs)))).
(** generator.hpp:211-217, grid_vertex(idx): grid vertices by unindex, others from the slots; None = no such slot *)
Definition grid_vertex (s : list Z) (slots : list (option vertex)) (idx : Z) : option vertex :=
  if idx <? shape_size s then Some (vertex_of_coord (unravel s idx))
  else match nth_error slots (Z.to_nat (idx - shape_size s)) with Some o => o | None => None end.
