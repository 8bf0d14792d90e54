(** Model of DeformingGeometryConstructor (src/construction/construct.cpp:33-115) on top of the state of CutCellGenerator<3> it drives.
    bake() after clear() is treated as a function [gen] of the generator's inputs at that moment: the grid, the grid-space vertices, the
    triangles and the adaptive level (generator3.cpp:165-186, generator_impl.hpp:621-635 and cutdata_impl.hpp:390-398 clear every other member, or bake overwrites it). *)
From Verif Require Import Base Num CoordMask Vertex.
Set Implicit Arguments.
Local Open Scope Z_scope.

Record grid := mkGrid { gr_origin : list Qc; gr_dx : list Qc; gr_shape : list Z }.   (* vertex_grid() *)
Definition pt := list Qc.
Definition tri := (Z * Z * Z)%type.
(** generator.hpp:101-110 *)
Definition get_vertex (g : grid) (p : pt) : vertex := from_vertex (zipwith Qcminus (zipwith Qcdiv p (gr_dx g)) (zipwith Qcdiv (gr_origin g) (gr_dx g))).
Definition get_world_vertex (g : grid) (v : vertex) : pt := zipwith Qcplus (gr_origin g) (zipwith Qcmult (pos v) (gr_dx g)).
(** generator_impl.hpp:48-54 *)
Definition default_threshold (g : grid) : Qc := (Z2Qc (2 * Z.max 1 (fold_right Z.max 0 (gr_shape g)))%Z * Q2Qc (1 # 10000000000))%Qc.
Definition mythresh (g : grid) (thr : option Qc) : Qc := match thr with Some t => if qltb t 0 then default_threshold g else t | None => default_threshold g end.
(** generator_impl.hpp:55-83 *)
Definition convert (g : grid) (thr : option Qc) (p : pt) : vertex :=
  match thr with Some _ => apply_thresholding (mythresh g thr) (get_vertex g p) | None => get_vertex g p end.
(** what a bake reads *)
Record inputs := mkIn { in_grid : grid; in_mV : list vertex; in_F : list tri; in_level : Z }.
Record dgc := mkD { d_in : inputs; d_origV : list pt; d_dirty : bool; d_baked : inputs }.
(** generator_impl.hpp:45-85: std::transform overwrites the first V.size() grid-space vertices (the assert demands equal sizes; a longer V is undefined behaviour) *)
Definition gen_update_vertices (i : inputs) (V : list pt) (thr : option Qc) : inputs :=
  mkIn (in_grid i) (map (convert (in_grid i) thr) V ++ skipn (length V) (in_mV i)) (in_F i) (in_level i).
(** construct.cpp:33-45 and generator_impl.hpp:34-42: the constructor passes the threshold on, the generator's constructor drops it and uses the default -1 *)
Definition ctor (V : list pt) (F : list tri) (g : grid) (level : Z) (threshold : option Qc) : dgc :=
  let i := gen_update_vertices (mkIn g (map (fun _ => vertex_of_coord []) V) F level) V (Some (Q2Qc (-1 # 1))) in mkD i V false i.
Inductive call := UpdVertices (V : list pt) (thr : option Qc) | UpdTopology (F : list tri) | UpdMesh (V : list pt) (F : list tri) (thr : option Qc)
  | UpdGrid (g : grid) | SetAdaptivity (n : Z) | Bake.
Definition upd_v (d : dgc) V thr : dgc := mkD (gen_update_vertices (d_in d) V thr) V true (d_baked d).            (* construct.cpp:54-57 *)
Definition upd_t (d : dgc) F : dgc := mkD (mkIn (in_grid (d_in d)) (in_mV (d_in d)) F (in_level (d_in d))) (d_origV d) (d_dirty d) (d_baked d).  (* 58-60: no _dirty *)
Definition set_dirty (d : dgc) : dgc := mkD (d_in d) (d_origV d) true (d_baked d).
Definition step (d : dgc) (c : call) : dgc :=
  match c with
  | UpdVertices V thr => upd_v d V thr
  | UpdTopology F => upd_t d F
  | UpdMesh V F thr => set_dirty (upd_t (upd_v d V thr) F)                                                          (* 61-66 *)
  | UpdGrid g => mkD (mkIn g (in_mV (d_in d)) (in_F (d_in d)) (in_level (d_in d))) (d_origV d) true (d_baked d)  (* 67-70; generator_impl.hpp:86-90: m_V untouched *)
  | SetAdaptivity n => mkD (mkIn (in_grid (d_in d)) (in_mV (d_in d)) (in_F (d_in d)) n) (d_origV d) true (d_baked d) (* 50-53 *)
  | Bake => if d_dirty d then mkD (d_in d) (d_origV d) false (d_in d) else d                                       (* 71-78 *)
  end.
Definition run (d : dgc) (h : list call) : dgc := fold_left step h d.
(** construct.cpp:79-97, generator3.cpp:33-158: emit reads the baked members, and the current grid, input vertices and triangles *)
Record emitted (M : Type) := mkEm { em_mesh : M; em_grid : grid; em_origV : list pt; em_origF : list tri }.
Definition emit (M : Type) (gen : inputs -> M) (d : dgc) : emitted M := mkEm (gen (d_baked d)) (in_grid (d_in d)) (d_origV d) (in_F (d_in d)).
(** construct_imgui.cpp:77-98: CutmeshGenerator_Imgui::update_vertices_and_bbox and update_mesh_and_bbox, with the grid they compute *)
Definition imgui_update_vertices_and_bbox (V : list pt) (g : grid) (thr : option Qc) : list call := [UpdVertices V thr; UpdGrid g].
Definition imgui_update_mesh_and_bbox (V : list pt) (F : list tri) (g : grid) (thr : option Qc) : list call := [UpdVertices V thr; UpdGrid g; UpdTopology F].
