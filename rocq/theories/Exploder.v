(** Model of mandoline::tools::MeshExploder (src/tools/exploded_mesh.cpp, include/mandoline/tools/exploded_mesh.hpp).
    The per-cell meshes (Vs, Fs), region labels and centres are given; mtao zip stops at the shortest range; hstack concatenates columns. *)
From Verif Require Import Base Num AdaptiveGrid.
Set Implicit Arguments.
Local Open Scope Z_scope.

Record exploder := mkEx { ex_Vs : list (list q3); ex_Fs : list (list c3); ex_regions : list Z; ex_RCs : list q3; ex_GCs : list q3; ex_Cs : list q3; ex_O : q3 }.
Definition qadd3 (a b : q3) : q3 := let '(x, y, z) := a in let '(u, v, w) := b in (x + u, y + v, z + w)%Qc.
Definition qsub3 (a b : q3) : q3 := let '(x, y, z) := a in let '(u, v, w) := b in (x - u, y - v, z - w)%Qc.
Definition qscale3 (s : Qc) (a : q3) : q3 := let '(x, y, z) := a in (s * x, s * y, s * z)%Qc.
(** exploded_mesh.hpp:28-30 *)
Definition valid_region (r : Z) (used : list Z) : bool := match used with [] => true | _ => existsb (Z.eqb r) used end.
(** exploded_mesh.cpp:39-44 *)
Definition set_centers (s : Qc) (e : exploder) : exploder :=
  mkEx (ex_Vs e) (ex_Fs e) (ex_regions e) (ex_RCs e) (ex_GCs e) (map (fun '(rc, gc) => qadd3 (qscale3 (1 - s) gc) (qscale3 s rc)) (combine (ex_RCs e) (ex_GCs e))) (ex_O e).
(** exploded_mesh.cpp:59-71 *)
Definition offsets (e : exploder) (used : list Z) : list Z :=
  rev (snd (fold_left (fun '(off, acc) '(v, r) => let off' := if valid_region r used then off + Z.of_nat (length (v : list q3)) else off in (off', off' :: acc))
    (combine (ex_Vs e) (ex_regions e)) (0, [0]))).
(** exploded_mesh.cpp:104-112: V(index, scale) *)
Definition cell_V (e : exploder) (i : nat) (s : Qc) : list q3 :=
  map (fun v => qadd3 (qadd3 (qsub3 v (ex_O e)) (qscale3 (s - 1) (nth i (ex_Cs e) (0, 0, 0)%Qc))) (ex_O e)) (nth i (ex_Vs e) []).
Definition enum_nat (A : Type) (l : list A) : list (nat * A) := combine (seq 0 (length l)) l.
(** exploded_mesh.cpp:79-91 *)
Definition mesh_V (e : exploder) (s : Qc) (used : list Z) : list q3 :=
  flat_map (fun '(i, r) => if valid_region r used then cell_V e i s else []) (enum_nat (ex_regions e)).
Definition shift3 (o : Z) (f : c3) : c3 := let '(a, b, c) := f in (a + o, b + o, c + o).
(** exploded_mesh.cpp:92-103 *)
Definition mesh_F (e : exploder) (used : list Z) : list c3 :=
  flat_map (fun '(F, o, r) => if valid_region r used then map (shift3 o) F else []) (combine (combine (ex_Fs e) (offsets e used)) (ex_regions e)).
(** exploded_mesh.cpp:45-57: the block of every cell that has vertices takes the cell's colour; entries nobody writes stay uninitialised (None) *)
Definition write_block (A : Type) (l : list (option A)) (off n : nat) (c : A) : list (option A) := firstn off l ++ repeat (Some c) n ++ skipn (off + n) l.
Definition colors (A : Type) (e : exploder) (cc : nat -> A) (used : list Z) : list (option A) :=
  let offs := offsets e used in
  fold_left (fun C i => let off := nth i offs 0 in let size := nth (S i) offs 0 - off in
    if 0 <? size then write_block C (Z.to_nat off) (Z.to_nat size) (cc i) else C) (seq 0 (length (ex_Vs e))) (repeat None (Z.to_nat (last offs 0))).
