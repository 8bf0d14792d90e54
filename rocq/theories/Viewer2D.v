(** Model of the 2D viewer (examples/curve_drawing_2d/viewer2d_main.cpp): the window's state and its events, the highlighted and the filled cells, the colours,
    and the right-hand side of its pressure example.  The drawn curve is DrawCurve.v, the mesh Mesh2.v, the sliders' select expressions GuiSession.v.
    External and passed as arguments: the grid and generator behind "Make CCM" ([gen]; None = it does not return), ear clipping, stack_meshes, winding numbers, the random colours
    (as functions of the number of columns: successive calls give different colours in the code), the solver of the Harmonic colours, and the values of dual_hodge1.
    Floats are exact here; a NaN of the colour scaling (0 / 0) counts as 0, as the select of :523 makes it.  GL buffers are the data put into them. *)
From Verif Require Import Base Num CoordMask Vertex Grid SmallestEdge AdaptiveGrid Mesh ExteriorGrid Sparse Mesh2 PlCurve DrawCurve GuiSession.
Set Implicit Arguments.
Local Open Scope Z_scope.

Definition color := (Qc * Qc * Qc * Qc)%type.
Inductive cmode := CRandom | CRegions | CHarmonic | CRhs.
(** ** :451-483, get_rhs *)
(** :455-471: the flux of a cut edge; None = dir(-1) of an edge without an unbound axis *)
Definition edge_flux (dir : q2) (e : cut_edge2) : option Qc :=
  match e2_ext e with
  | Some (oc, b) => if oc =? -2 then (let a := unbound_axis (e2_mask e) in if (0 <=? a) && (a <? 2) then Some ((if b then - (1) else 1) * axis2 dir (Z.to_nat a))%Qc else None) else Some 0%Qc
  | None => Some 0%Qc
  end.
(** :472-479 *)
Definition facet_flux (dir : q2) (f : nat * edge) : Qc := if is_boundary_facet (snd f) then axis2 dir (fst f) else 0%Qc.
Fixpoint seq_all (A : Type) (l : list (option A)) : option (list A) :=
  match l with [] => Some [] | o :: t => match o, seq_all t with Some a, Some r => Some (a :: r) | _, _ => None end end.
Definition flux (m : mesh2) (dir : q2) : option (list Qc) :=
  option_map (fun us => us ++ map (facet_flux dir) (facets (m2_cells m) (m2_mask m))) (seq_all (map (edge_flux dir) (m2_edges m))).
(** :480-482; [h] = dual_hodge1 *)
Definition rhs (m : mesh2) (h : Z -> Qc) (dir : q2) : option (list Qc) :=
  match boundary2 m true, flux m dir with
  | Some B, Some u => Some (map (divergence2 B h (fun r => nth (Z.to_nat r) u 0%Qc)) (zseq (num_faces2 m)))
  | _, _ => None
  end.
(** ** :429-525, update_colors *)
Definition max_abs (x : list Qc) : Qc := fold_left (fun a v => let b := qabs v in if qltb a b then b else a) x 0%Qc.
(** :484-492 and :494-507, the scaled solution *)
Definition scaled (x : list Qc) : list color := let M := max_abs x in map (fun v => (v / M, 0, - (v / M), 0)%Qc) x.
(** :523-524 *)
Definition positive (v : Qc) : Qc := if qltb 0 v then v else 0%Qc.
Definition finish (c : color) : color := let '(r, g, b, _) := c in (positive r, positive g, positive b, 1%Qc).

Definition buffers := (list (option q2) * list c3 * list color)%type.
Record st2 := mkSt { s_ccm : option mesh2; s_browse : bool; s_cs : list curve; s_box : box; s_N : list Z; s_face : Z; s_mode : cmode; s_dir : q2; s_cursor : q2;
  s_hlV : list (option q2); s_hlT : option (list c3); s_fill : option buffers }.
Inductive event := EMove (p : q2) | EPress (main : bool) | EMode (browse : bool) | EColor (m : cmode) | EN (N : list Z) | EFace (i : Z) | EMin (v : list Qc) | EMax (v : list Qc)
  | EClosed | EMake | EClear | EReset | EDir (d : q2).
(** std::clamp (libstdc++: min(max(v, lo), hi)) *)
Definition clampz (v lo hi : Z) : Z := Z.min (Z.max v lo) hi.
Definition num_vertices2 (m : mesh2) : Z := shape_size (vshape2 m) + Z.of_nat (length (m2_verts m)).
(** ccm->vertices() *)
Definition verts2 (m : mesh2) : list (option q2) := map (vertex2 m) (zseq (num_vertices2 m)).

Section W.
  Variables (gen : box -> list Z -> list vtx -> list (Z * Z) -> option mesh2) (wn : list Z -> q2 -> Qc) (earclip : list (option q2) -> list Z -> list c3)
    (stack : list (option q2) -> list (list c3 * color) -> buffers) (random_columns : Z -> list color) (solve : mesh2 -> list Qc -> list Qc) (hodge : mesh2 -> Z -> Qc).
  (** :433-445; maxCoeff of an empty vector, a negative region = None; the columns beyond R.size() stay as they were (here: left out) *)
  Definition region_colors (m : mesh2) : option (list color) :=
    match regions2 m with
    | [] => None
    | r :: t => let C := random_columns (fold_left Z.max t r + 1) in seq_all (map (fun i => if i <? 0 then None else nth_error C (Z.to_nat i)) (r :: t))
    end.
  Definition update_colors (m : mesh2) (k : cmode) (dir : q2) : option (list color) :=
    option_map (map finish) (match k with
      | CRandom => Some (random_columns (num_faces2 m))
      | CRegions => region_colors m
      | CHarmonic => option_map (fun b => scaled (solve m b)) (rhs m (hodge m) dir)
      | CRhs => option_map scaled (rhs m (hodge m) dir)
      end).
  (** :376-389, update_face *)
  Definition update_face (s : st2) (idx : Z) : option st2 :=
    match s_ccm s with
    | None => Some s
    | Some m =>
        if (idx <? 0) || (num_faces2 m <=? idx) then Some s
        else match cell2 m idx with
             | None => None
             | Some [] => Some s
             | Some (d :: _) =>
                 if (length d <? 3)%nat then Some s
                 else Some (mkSt (s_ccm s) (s_browse s) (s_cs s) (s_box s) (s_N s) (s_face s) (s_mode s) (s_dir s) (s_cursor s) (verts2 m) (Some (earclip (verts2 m) d)) (s_fill s))
             end
    end.
  (** :391-428, update_faces: [cutcell_face_mesh.setVertexBuffer(V)] gives the highlighted triangles the stacked vertices *)
  Definition cell_fill (m : mesh2) (cols : list color) (idx : Z) : option (list c3 * color) :=
    match cell2 m idx with
    | None => None
    | Some [] => Some ([], (0, 0, 0, 0)%Qc)
    | Some (d :: _) => option_map (pair (earclip (verts2 m) d)) (nth_error cols (Z.to_nat idx))
    end.
  Definition update_faces (s : st2) : option st2 :=
    match s_ccm s with
    | None => Some s
    | Some m =>
        match update_colors m (s_mode s) (s_dir s) with
        | None => None
        | Some cols =>
            match seq_all (map (cell_fill m cols) (zseq (num_faces2 m))) with
            | None => None
            | Some FCs => let st := stack (verts2 m) FCs in
                Some (mkSt (s_ccm s) (s_browse s) (s_cs s) (s_box s) (s_N s) (s_face s) (s_mode s) (s_dir s) (s_cursor s) (fst (fst st)) (s_hlT s) (Some st))
            end
        end
    end.
  Definition with_cs (s : st2) (cs : list curve) : st2 := mkSt (s_ccm s) (s_browse s) cs (s_box s) (s_N s) (s_face s) (s_mode s) (s_dir s) (s_cursor s) (s_hlV s) (s_hlT s) (s_fill s).
  Definition with_box (s : st2) (b : box) : st2 := mkSt (s_ccm s) (s_browse s) (s_cs s) b (s_N s) (s_face s) (s_mode s) (s_dir s) (s_cursor s) (s_hlV s) (s_hlT s) (s_fill s).
  Definition with_face (s : st2) (i : Z) : st2 := mkSt (s_ccm s) (s_browse s) (s_cs s) (s_box s) (s_N s) i (s_mode s) (s_dir s) (s_cursor s) (s_hlV s) (s_hlT s) (s_fill s).
  Definition with_cursor (s : st2) (p : q2) : st2 := mkSt (s_ccm s) (s_browse s) (s_cs s) (s_box s) (s_N s) (s_face s) (s_mode s) (s_dir s) p (s_hlV s) (s_hlT s) (s_fill s).
  Definition with_browse (s : st2) (b : bool) : st2 := mkSt (s_ccm s) b (s_cs s) (s_box s) (s_N s) (s_face s) (s_mode s) (s_dir s) (s_cursor s) (s_hlV s) (s_hlT s) (s_fill s).
  Definition with_mode (s : st2) (k : cmode) (d : q2) : st2 := mkSt (s_ccm s) (s_browse s) (s_cs s) (s_box s) (s_N s) (s_face s) k d (s_cursor s) (s_hlV s) (s_hlT s) (s_fill s).
  Definition with_N (s : st2) (n : list Z) : st2 := mkSt (s_ccm s) (s_browse s) (s_cs s) (s_box s) n (s_face s) (s_mode s) (s_dir s) (s_cursor s) (s_hlV s) (s_hlT s) (s_fill s).
  Definition with_ccm (s : st2) (m : mesh2) : st2 := mkSt (Some m) (s_browse s) (s_cs s) (s_box s) (s_N s) (s_face s) (s_mode s) (s_dir s) (s_cursor s) (s_hlV s) (s_hlT s) (s_fill s).
  (** :223-233, reset_curve; is_closed and toggle_closed do nothing on no curves (plcurve2.hpp:31-32) *)
  Definition is_closed (cs : list curve) : bool := match rev cs with [] => false | c :: _ => snd c end.
  Definition q3_10 : Qc := Q2Qc (3 # 10).
  Definition reset_curve (cs : list curve) : option (list curve) :=
    match do_op Clear cs with
    | None => None
    | Some c0 => match (if is_closed c0 then Some c0 else do_op ToggleClosed c0) with
                 | None => None
                 | Some c1 => do_ops [AddPoint (- q3_10, - q3_10)%Qc; AddPoint (- q3_10, q3_10)%Qc; AddPoint (q3_10, q3_10); AddPoint (q3_10, - q3_10)%Qc] c1
                 end
    end.
  (** the events: :185-221, 235-312, 329-372; None = undefined behaviour (the empty optional ccm) or a call that does not return *)
  Definition step2 (s : st2) (e : event) : option st2 :=
    match e with
    | EMove p =>
        let s := with_cursor s p in
        if s_browse s then
          match s_ccm s with
          | None => None
          | Some m => let i := cell_index2 wn m p in if s_face s =? i then Some (with_face s i) else update_face (with_face s i) i
          end
        else Some s
    | EPress main =>
        if s_browse s then match s_ccm s with None => None | Some m => let i := cell_index2 wn m (s_cursor s) in if (0 <=? i) && (i <? num_faces2 m) then option_map (fun _ => s) (cell2 m i) else Some s end
        else if main then option_map (with_cs s) (do_op (AddPoint (s_cursor s)) (s_cs s)) else Some s
    | EMode b => Some (with_browse s b)
    | EColor k => update_faces (with_mode s k (s_dir s))
    | EDir d => update_faces (with_mode s (s_mode s) d)
    | EN n => Some (with_N s n)
    | EFace i => let i' := match s_ccm s with Some m => clampz i 0 (num_faces2 m - 1) | None => i end in update_face (with_face s i') i'
    | EMin v => Some (with_box s (sel_min v (snd (s_box s)), snd (s_box s)))
    | EMax v => Some (with_box s (fst (s_box s), sel_max (fst (s_box s)) v))
    | EClosed => option_map (with_cs s) (do_op ToggleClosed (s_cs s))
    | EMake => match gen (s_box s) (s_N s) (points (s_cs s)) (edges (s_cs s)) with Some m => update_faces (with_ccm s m) | None => None end
    | EClear => option_map (with_cs s) (do_op Clear (s_cs s))
    | EReset => option_map (with_cs s) (reset_curve (s_cs s))
    end.
  Fixpoint run2 (s : st2) (es : list event) : option st2 := match es with [] => Some s | e :: t => match step2 s e with Some s' => run2 s' t | None => None end end.
  (** :32-66, 72-113: the start without a file *)
  Definition start : option st2 :=
    option_map (fun cs => mkSt None false cs ([- (1); - (1)]%Qc, [1; 1]%Qc) [5; 5] (-1) CRandom (1, 0)%Qc (0, 0)%Qc [] None None) (reset_curve []).
  (** :114-138: the start with a file of curves [cs]; minCoeff of no points = None *)
  Definition col_min (l : list Qc) : option Qc := match l with [] => None | x :: t => Some (fold_left (fun a b => if qltb b a then b else a) t x) end.
  Definition col_max (l : list Qc) : option Qc := match l with [] => None | x :: t => Some (fold_left (fun a b => if qltb a b then b else a) t x) end.
  Definition tenth : Qc := Q2Qc (1 # 10).
  Definition qlow (a b : Qc) : Qc := if qltb b a then b else a.
  Definition qhigh (a b : Qc) : Qc := if qltb a b then b else a.
  Definition start_file (cs : list curve) : option st2 :=
    let P := points cs in
    match col_min (map fst P), col_min (map snd P), col_max (map fst P), col_max (map snd P) with
    | Some x0, Some y0, Some x1, Some y1 =>
        Some (mkSt None true cs ([qlow (- (1))%Qc x0 - tenth; qlow (- (1))%Qc y0 - tenth]%Qc, [qhigh 1%Qc x1 + tenth; qhigh 1%Qc y1 + tenth]%Qc) [5; 5] (-1) CRandom (1, 0)%Qc (0, 0)%Qc [] None None)
    | _, _, _, _ => None
    end.
End W.
