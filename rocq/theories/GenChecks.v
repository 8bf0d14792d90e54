(** Model of the self-checks of CutCellGenerator<3> (src/construction/generator3.cpp:490-575), which tools/make_cutmesh_from_cmdline.cpp:195-202 runs on request, and of the
    mask and containment helpers they use (include/mandoline/construction/generator_impl.hpp:985-1037, 1079-1091).  Exact rationals; printing is left out. *)
From Verif Require Import Base Num CoordMask Vertex Grid SmallestEdge AdaptiveGrid Volume Queries3 Mesh Hem Gen3.
Set Implicit Arguments.
Local Open Scope Z_scope.

(** generator3.cpp:490-503; [V] = the columns of all_GV() *)
Definition vsum (l : list q3) : q3 := fold_right vadd (0, 0, 0)%Qc l.
Definition area_normal (V : Z -> q3) (F : list Z) : q3 :=
  let n := length F in
  let at_ i := V (nth (Nat.modulo i n) F 0) in
  vscale (/ (1 + 1))%Qc (vsum (map (fun i => cross (vsub (at_ (i + 2)%nat) (at_ (i + 1)%nat)) (vsub (at_ i) (at_ (i + 1)%nat))) (seq 0 n))).
(** :504-510 *)
Definition area_normals (V : Z -> q3) (Fs : list (list Z)) : q3 := vsum (map (area_normal V) Fs).

(** the faces of the generator: m_faces : map<int, CutFace<3>>, read here as mask and loops *)
Notation gen_faces := (list (Z * (mask * list (list Z)))) (only parsing).
(** :516-526; [prim i] = axial_primal_faces[i] *)
Definition exempt (prim : nat -> list edge) (m : mask) (loops : list (list Z)) : bool :=
  existsb (fun v => existsb (fun i => match nth_error m i with Some (Some _) => edge_mem (smallest_ordered_edge v) (prim i) | _ => false end) [0; 1; 2]%nat) loops.
(** :514-534: the faces no cell uses *)
Definition unused_faces (prim : nat -> list edge) (fs : gen_faces) (cells : list (list (Z * bool))) : list Z :=
  fold_left (fun S e => filter (fun x => negb (x =? fst e)) S) (concat cells)
    (set_of_list Z.compare (map fst (filter (fun '(_, (m, loops)) => negb (exempt prim m loops)) fs))).
Definition check_face_utilization (prim : nat -> list edge) (fs : gen_faces) (cells : list (list (Z * bool))) : bool := match unused_faces prim fs cells with [] => true | _ => false end.
(** generator_impl.hpp:1079-1082; None = (faces.begin())->[0] of an empty loop *)
Definition is_in_cell2 (V : Z -> vertex) (loops : list (list Z)) : option bool := option_map (fun S => match S with [] => false | _ => true end) (gen_possible_cells2 V loops).
(** :552-575: ret is set to false in the loop that prints the face's loops *)
Definition check_cell_containment (V : Z -> vertex) (fs : gen_faces) : option bool :=
  fold_left (fun acc '(_, (_, loops)) => match acc, is_in_cell2 V loops with
    | Some r, Some true => Some r
    | Some r, Some false => Some (match loops with [] => r | _ => false end)
    | _, _ => None end) fs (Some true).
(** generator_impl.hpp:1026-1037 and :1013-1025; the default coord_mask<D> binds nothing *)
Definition gen_face_mask (D : nat) (M : Z -> mask) (f : list Z) : mask := match f with [] => repeat None D | i :: t => fold_left (fun m j => mask_and m (M j)) t (M i) end.
Definition gen_face_masks (D : nat) (M : Z -> mask) (fs : list (list Z)) : mask :=
  match fs with [] => repeat None D | f :: t => fold_left (fun m g => mask_and m (gen_face_mask D M g)) t (gen_face_mask D M f) end.
