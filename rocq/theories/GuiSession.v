(** Model of CutmeshGenerator_Imgui (src/construction/construct_imgui.cpp, include/mandoline/construction/construct_imgui.hpp) on top of
    DeformingGeometryConstructor (Deform.v), and of the window of tools/make_cutmesh_gui.cpp that drives it.
    StaggeredGrid3d::from_bbox, mtao::geometry::bounding_box and expand_bbox (mtao core) and the rounding of double to float are arguments.
    A frame of the window is the list of widgets the user changed; drawing and printing are left out. *)
From Verif Require Import Base Num CoordMask SmallestEdge Deform.
Set Implicit Arguments.
Local Open Scope Z_scope.

Definition box := (list Qc * list Qc)%type.   (* min(), max() *)
(** construct_imgui.hpp:24-28 *)
Record imgui := mkIm { im_d : dgc; im_box : box; im_N : list Z; im_cube : bool; im_level : Z }.
(** what the user typed into the widgets of CutmeshGenerator_Imgui::gui; None = untouched *)
Record frame := mkFr { fr_N : option (list Z); fr_min : option (list Qc); fr_max : option (list Qc); fr_cube : option bool; fr_level : option Z }.
Definition pick (A : Type) (o : option A) (a : A) : A := match o with Some x => x | None => a end.
Definition touched (A : Type) (o : option A) : bool := match o with Some _ => true | None => false end.
(** :35 and :39, the two select expressions *)
Definition sel_min (mn mx : list Qc) : list Qc := zipwith (fun a b => if qltb a b then a else b) mn mx.
Definition sel_max (mn mx : list Qc) : list Qc := zipwith (fun a b => if qltb b a then a else b) mn mx.

Section G.
  Variables (from_bbox : box -> list Z -> bool -> grid) (bounding : list pt -> box) (expand : box -> Qc -> box) (fl : Qc -> Qc).
  Definition cast (b : box) : box := (map fl (fst b), map fl (snd b)).
  (** :65-68 *)
  Definition staggered_grid (s : imgui) : grid := from_bbox (im_box s) (im_N s) (im_cube s).
  Definition with_d (s : imgui) (d : dgc) : imgui := mkIm d (im_box s) (im_N s) (im_cube s) (im_level s).
  (** :54-63 *)
  Definition update_grid (s : imgui) : imgui := with_d s (step (im_d s) (UpdGrid (staggered_grid s))).
  (** :28-53 *)
  Definition gui_min (f : frame) (b : box) : box := match fr_min f with Some m => (sel_min m (snd b), snd b) | None => b end.
  Definition gui_max (f : frame) (b : box) : box := match fr_max f with Some m => (fst b, sel_max (fst b) m) | None => b end.
  Definition gui_dirty (f : frame) : bool := touched (fr_N f) || touched (fr_min f) || touched (fr_max f) || touched (fr_cube f) || touched (fr_level f).
  Definition gui (s : imgui) (f : frame) : imgui * bool :=
    let d := match fr_level f with Some n => step (im_d s) (SetAdaptivity n) | None => im_d s end in
    let s' := mkIm d (gui_max f (gui_min f (im_box s))) (pick (fr_N f) (im_N s)) (pick (fr_cube f) (im_cube s)) (pick (fr_level f) (im_level s)) in
    (if gui_dirty f then update_grid s' else s', gui_dirty f).
  (** :14-19 and :83-90: thin boxes are padded; [r] is the rounding of the scalar type in use *)
  Definition thin : Qc := Q2Qc (1 # 100000).
  Definition pad_amount : Qc := Q2Qc (1 # 100).
  Definition pad_box (r : Qc -> Qc) (b : box) : box :=
    (zipwith (fun a c => if qltb (c - a)%Qc thin then r (a - pad_amount)%Qc else a) (fst b) (snd b),
     zipwith (fun a c => if qltb (c - a)%Qc thin then r (c + pad_amount)%Qc else c) (fst b) (snd b)).
  (** :5-7 the constructor (gbox, gshape = grid.bbox(), grid.vertex_shape()) and :8-21 create *)
  Definition construct (V : list pt) (F : list tri) (g : grid) (gbox : box) (level : Z) (thr : option Qc) : imgui :=
    mkIm (ctor V F g level thr) (cast gbox) (gr_shape g) false level.
  Definition create (grid_box : grid -> box) (V : list pt) (F : list tri) (scale : Qc) (N : list Z) (level : Z) (thr : option Qc) : imgui :=
    let g := from_bbox (pad_box (fun x => x) (expand (bounding V) scale)) N false in construct V F g (grid_box g) level thr.
  (** :23-27 *)
  Definition set_box (s : imgui) (b : box) : imgui := mkIm (im_d s) b (im_N s) (im_cube s) (im_level s).
  Definition set_bbox (s : imgui) (b : box) (scale : Qc) : imgui := update_grid (set_box s (expand b scale)).
  (** :74-92, the float box of new vertices *)
  Definition update_vertices_and_bbox (s : imgui) (V : list pt) (scale : Qc) (thr : option Qc) : imgui :=
    update_grid (set_box (with_d s (step (im_d s) (UpdVertices V thr))) (pad_box fl (expand (cast (bounding V)) (fl scale)))).
  (** :93-97 *)
  Definition update_mesh_and_bbox (s : imgui) (V : list pt) (F : list tri) (scale : Qc) (thr : option Qc) : imgui :=
    let s' := update_vertices_and_bbox s V scale thr in with_d s' (step (im_d s') (UpdTopology F)).
  Inductive iop := IGui (f : frame) | ISetBox (b : box) (scale : Qc) | IVertsBox (V : list pt) (scale : Qc) (thr : option Qc)
    | IMeshBox (V : list pt) (F : list tri) (scale : Qc) (thr : option Qc) | IUpdGrid | IVerts (V : list pt) (thr : option Qc) | IBake.
  Definition istep (s : imgui) (o : iop) : imgui :=
    match o with
    | IGui f => fst (gui s f)
    | ISetBox b c => set_bbox s b c
    | IVertsBox V c t => update_vertices_and_bbox s V c t
    | IMeshBox V F c t => update_mesh_and_bbox s V F c t
    | IUpdGrid => update_grid s
    | IVerts V t => with_d s (step (im_d s) (UpdVertices V t))
    | IBake => with_d s (step (im_d s) Bake)
    end.
  Definition irun (s : imgui) (os : list iop) : imgui := fold_left istep os s.

  (** ** tools/make_cutmesh_gui.cpp *)
  Variables (M : Type) (gen : inputs -> M) (cut_edges : M -> list edge) (vmask : M -> Z -> mask) (has_faces : M -> bool).
  Variables (V : list pt) (F : list tri).
  Definition emap2 := list (edge * list edge).
  Record viewer := mkVw { vw_im : imgui; vw_box : box; vw_orig : box; vw_ccm : option (emitted M); vw_choice : option (Z * Z);
    vw_edges : list edge; vw_mapped : emap2; vw_display : option (list edge); vw_saved : list (emitted M) }.
  Definition minus1 : option Qc := Some (Q2Qc (-1 # 1)).
  (** :128-137, update; :137 update_vertices(V) with the default threshold *)
  Definition vw_update (w : viewer) : viewer :=
    let s := update_grid (vw_im w) in
    mkVw (with_d s (step (im_d s) (UpdVertices V minus1))) (vw_box w) (vw_orig w) (vw_ccm w) (vw_choice w) (vw_edges w) (vw_mapped w) (vw_display w) (vw_saved w).
  (** :138-170, update_edges; None = dereference of the empty optional ccm *)
  Definition vw_update_edges (w : viewer) : option viewer :=
    match vw_ccm w with
    | None => None
    | Some _ =>
        let chosen := match vw_choice w with Some c => match map_find edge_cmp c (vw_mapped w) with Some l => l | None => [] end | None => [] end in
        let shown := match chosen with [] => match vw_edges w with [] => None | l => Some l end | l => Some l end in
        Some (mkVw (vw_im w) (vw_box w) (vw_orig w) (vw_ccm w) (vw_choice w) (vw_edges w) (vw_mapped w) shown (vw_saved w))
    end.
  (** :229-243: the planes shared by the two ends of an edge, with the index of the axis *)
  Fixpoint planes (i : Z) (m : mask) : list (Z * Z) := match m with [] => [] | Some k :: t => (i, k) :: planes (i + 1) t | None :: t => planes (i + 1) t end.
  Definition edge_mask (m : M) (e : edge) : mask := mask_and (vmask m (fst e)) (vmask m (snd e)).
  Definition plane_edges (m : M) : list edge := filter (fun e => mask_active (edge_mask m e)) (cut_edges m).
  Definition add_plane (e : edge) (r : emap2) (c : Z * Z) : emap2 := map_set edge_cmp c (match map_find edge_cmp c r with Some l => l ++ [e] | None => [e] end) r.
  Definition mapped_edges (m : M) : emap2 := fold_left (fun r e => fold_left (add_plane e) (planes 0 (edge_mask m e)) r) (plane_edges m) [].
  (** :172-247, make_ccm; CutmeshGenerator_Imgui::generate is bake and emit (construct_imgui.cpp:70-73) *)
  Definition vw_make (w : viewer) : option viewer :=
    let s := with_d (vw_im w) (step (im_d (vw_im w)) Bake) in
    let em := emit gen (im_d s) in
    let w' := mkVw s (vw_box w) (vw_orig w) (Some em) (vw_choice w) (vw_edges w) (vw_mapped w) (vw_display w) (vw_saved w) in
    if has_faces (em_mesh em)
    then vw_update_edges (mkVw s (vw_box w) (vw_orig w) (Some em) (vw_choice w) (plane_edges (em_mesh em)) (mapped_edges (em_mesh em)) (vw_display w) (vw_saved w))
    else Some w'.
  (** std::clamp *)
  Definition zclamp (v lo hi : Z) : Z := if v <? lo then lo else if hi <? v then hi else v.
  Definition set_choice (w : viewer) (c : option (Z * Z)) : viewer :=
    mkVw (vw_im w) (vw_box w) (vw_orig w) (vw_ccm w) c (vw_edges w) (vw_mapped w) (vw_display w) (vw_saved w).
  (** :259-262: the offset moves the window's own box *)
  Definition offset_box (o : box) (off : Qc) : box :=
    let C := zipwith (fun a b => (a + b) * qhalf)%Qc (fst o) (snd o) in let h := zipwith (fun a b => (b - a) * qhalf)%Qc (fst o) (snd o) in
    (zipwith (fun c x => c - (1 + off) * x)%Qc C h, zipwith (fun c x => c + (1 + off) * x)%Qc C h).
  Inductive event := EvOffset (o : Qc) | EvReset | EvGui (f : frame) | EvMake | EvCheck (b : bool) | EvChoice (axis plane : option Z) | EvSave.
  (** :249-306, gui; the widgets of one frame are handled in order, so a frame is a list of events *)
  Definition vw_event (w : viewer) (e : event) : option viewer :=
    match e with
    | EvOffset o => Some (vw_update (mkVw (vw_im w) (offset_box (vw_orig w) o) (vw_orig w) (vw_ccm w) (vw_choice w) (vw_edges w) (vw_mapped w) (vw_display w) (vw_saved w)))
    | EvReset => Some (vw_update (mkVw (vw_im w) (vw_orig w) (vw_orig w) (vw_ccm w) (vw_choice w) (vw_edges w) (vw_mapped w) (vw_display w) (vw_saved w)))
    | EvGui f =>
        let '(s, dirty) := gui (vw_im w) f in
        let w' := mkVw s (vw_box w) (vw_orig w) (vw_ccm w) (vw_choice w) (vw_edges w) (vw_mapped w) (vw_display w) (vw_saved w) in
        Some (if dirty then vw_update w' else w')
    | EvMake => vw_make w
    | EvCheck true => Some (set_choice w (Some (0, 0)))
    | EvCheck false => vw_update_edges (set_choice w None)
    | EvChoice a b =>
        match vw_choice w with
        | None => Some w                                        (* the two inputs are not drawn *)
        | Some (x, y) =>
            if touched a || touched b then
              match vw_ccm w with
              | None => None
              | Some em => let x' := zclamp (pick a x) 0 2 in
                  vw_update_edges (set_choice w (Some (x', zclamp (pick b y) 0 (nth (Z.to_nat x') (gr_shape (em_grid em)) 0 - 1))))
              end
            else Some w
        end
    | EvSave => match vw_ccm w with
        | Some em => Some (mkVw (vw_im w) (vw_box w) (vw_orig w) (vw_ccm w) (vw_choice w) (vw_edges w) (vw_mapped w) (vw_display w) (vw_saved w ++ [em]))
        | None => Some w
        end
    end.
  Fixpoint vw_run (w : viewer) (es : list event) : option viewer :=
    match es with [] => Some w | e :: t => match vw_event w e with Some w' => vw_run w' t | None => None end end.
  (** :73-127, the constructor of the window, with the vertices and faces after prune and preprocess_mesh; create's defaults are scale 1.1 and N = 5,5,5 *)
  Definition vw_init (grid_box : grid -> box) (b : box) : viewer :=
    vw_update (mkVw (create grid_box V F (Q2Qc (11 # 10)) [5; 5; 5] 0 None) b b None None [] [] None []).
End G.
