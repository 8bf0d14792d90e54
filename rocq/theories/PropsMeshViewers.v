(** C160: the windows and the tool of MeshViewers.v. *)
From Verif Require Import Base Num CoordMask Vertex Grid SmallestEdge AdaptiveGrid AdaptiveSpec Mesh Sparse Mesh2 Boundary3 Queries3 PropsQueries3 MeshViewers.
Set Implicit Arguments.
Local Open Scope Z_scope.

(** i is the number of 0 .. n - 1 nearest to v *)
Definition nearest (v n i : Z) : Prop := 0 <= i < n /\ forall j, 0 <= j < n -> Z.abs (v - i) <= Z.abs (v - j).
Lemma clamp_nearest v n : 0 < n -> nearest v n (clamp0 v n).
Proof. intros P. unfold nearest, clamp0. destruct (Z.ltb_spec v 0), (Z.ltb_spec (n - 1) v); split; try lia; intros j J; lia. Qed.
Lemma clamp_in v n : 0 <= v < n -> clamp0 v n = v.
Proof. intros P. unfold clamp0. destruct (Z.ltb_spec v 0), (Z.ltb_spec (n - 1) v); lia. Qed.

Section Viewer.
  Variables (face_of cell_of : Z -> tris) (m : mesh3) (sa : q3 -> Z -> Qc).
  Notation run := (vrun face_of cell_of m).
  Notation chase := (crun cell_of m sa).
  Lemma size_pos : m_cells m <> [] -> 0 < cell_size m.
  Proof. intros N. unfold cell_size, num_cut_cells. destruct (m_cells m); [congruence|]. cbn [length]. lia. Qed.
  Lemma faces_pos : m_faces m <> [] -> 0 < Z.of_nat (length (m_faces m)).
  Proof. intros N. destruct (m_faces m); [congruence|]. cbn [length]. lia. Qed.
  Lemma update_face_spec s : m_faces m <> [] -> let s' := update_face face_of m s in
    nearest (v_face s) (Z.of_nat (length (m_faces m))) (v_face s') /\ v_fbuf s' = Some (face_of (v_face s')) /\ v_cell s' = v_cell s /\ v_cbuf s' = v_cbuf s.
  Proof.
    intros N. assert (P := faces_pos N). cbn zeta. unfold update_face. destruct (m_faces m) as [|f l] eqn:E; [congruence|]. cbn [v_face v_fbuf v_cell v_cbuf]. split; [apply clamp_nearest; auto|auto].
  Qed.
  Lemma update_cell_spec s : m_cells m <> [] -> let s' := update_cell cell_of m s in
    nearest (v_cell s) (cell_size m) (v_cell s') /\ v_cbuf s' = Some (cell_of (v_cell s')) /\ v_face s' = v_face s /\ v_fbuf s' = v_fbuf s.
  Proof.
    intros N. assert (P := size_pos N). cbn zeta. unfold update_cell. destruct (m_cells m) as [|f l] eqn:E; [congruence|]. cbn [v_face v_fbuf v_cell v_cbuf]. split; [apply clamp_nearest; auto|auto].
  Qed.
  Lemma face_keeps_cell s : v_cell (update_face face_of m s) = v_cell s /\ v_cbuf (update_face face_of m s) = v_cbuf s.
  Proof. unfold update_face. destruct (m_faces m); auto. Qed.
  Lemma cell_keeps_face s : v_face (update_cell cell_of m s) = v_face s /\ v_fbuf (update_cell cell_of m s) = v_fbuf s.
  Proof. unfold update_cell. destruct (m_cells m); auto. Qed.
  (** what the slider asked for last: the number last typed or dragged to, 0 at first *)
  Definition asked_face (h : list vevent) : Z := fold_left (fun v e => match e with VFace i => i | VCell _ => v end) h 0.
  Definition asked_cell (h : list vevent) : Z := fold_left (fun v e => match e with VCell i => i | VFace _ => v end) h 0.
  Lemma nearest_fun v n i j : nearest v n i -> nearest v n j -> i = j.
  Proof. intros [I A] [J B]. assert (X := A j J). assert (Y := B i I). destruct (Z.lt_trichotomy i j) as [L|[E|L]]; auto; exfalso.
    - assert (E : Z.abs (v - i) = Z.abs (v - j)) by lia. assert (V : 2 * v = i + j) by lia. destruct (Z.eq_dec v i); [lia|]. assert (W := A v ltac:(lia)). lia.
    - assert (E : Z.abs (v - i) = Z.abs (v - j)) by lia. assert (V : 2 * v = i + j) by lia. destruct (Z.eq_dec v i); [lia|]. assert (W := A v ltac:(lia)). lia.
  Qed.
  (** after every history the viewer shows the face whose number is nearest to the one last asked for, and so for the cell: the window's contents, the slider's value and the selection agree *)
  Theorem c160_viewer : forall h,
    (m_faces m <> [] -> nearest (asked_face h) (Z.of_nat (length (m_faces m))) (v_face (run h)) /\ v_fbuf (run h) = Some (face_of (v_face (run h)))) /\
    (m_cells m <> [] -> nearest (asked_cell h) (cell_size m) (v_cell (run h)) /\ v_cbuf (run h) = Some (cell_of (v_cell (run h)))).
  Proof.
    intros h. induction h as [|e h IH] using rev_ind.
    - unfold vrun. cbn [fold_left]. unfold vstart. split; intros N.
      + destruct (update_face_spec (update_cell cell_of m (mkV 0 0 None None)) N) as (A & B & _). rewrite (proj1 (cell_keeps_face _)) in A. auto.
      + destruct (update_cell_spec (mkV 0 0 None None) N) as (A & B & _). destruct (face_keeps_cell (update_cell cell_of m (mkV 0 0 None None))) as [-> ->]. auto.
    - unfold vrun, asked_face, asked_cell in *. rewrite !fold_left_app. cbn [fold_left]. fold (run h) in *. destruct IH as [IF IC]. destruct e as [i|i]; cbn [vstep].
      + destruct (Z.eqb_spec i (v_face (run h))) as [->|NE].
        * split; [intros N; destruct (IF N) as [[R _] B]; split; auto; split; auto; intros j J; lia|auto].
        * split; [intros N; destruct (update_face_spec (mkV (v_cell (run h)) i (v_cbuf (run h)) (v_fbuf (run h))) N) as (A & B & _); auto|]. intros N. destruct (face_keeps_cell (mkV (v_cell (run h)) i (v_cbuf (run h)) (v_fbuf (run h)))) as [-> ->]. auto.
      + destruct (Z.eqb_spec i (v_cell (run h))) as [->|NE].
        * split; [auto|]. intros N; destruct (IC N) as [[R _] B]; split; auto; split; auto; intros j J; lia.
        * split; [|intros N; destruct (update_cell_spec (mkV i (v_face (run h)) (v_cbuf (run h)) (v_fbuf (run h))) N) as (A & B & _); auto]. intros N. destruct (cell_keeps_face (mkV i (v_face (run h)) (v_cbuf (run h)) (v_fbuf (run h)))) as [-> ->]. auto.
  Qed.
  (** in range the nearest number is the number itself *)
  Theorem c160_in_range : forall v n i, 0 <= v < n -> (nearest v n i <-> i = v).
  Proof. intros v n i R. split; [|intros ->; split; [auto|intros j J; lia]]. intros N. apply (nearest_fun N). split; [auto|intros j J; lia]. Qed.
  (** REFUTED: the viewer shows every cell of every mesh.  On a mesh without cut cells, whose cells are all grid cells, no history shows any *)
  Theorem c160_grid_cells_refuted : m_cells m = [] -> forall h, v_cbuf (run h) = None.
  Proof.
    intros N h. assert (UC : forall s, update_cell cell_of m s = s) by (intros s; unfold update_cell; rewrite N; auto). induction h as [|e h IH] using rev_ind.
    - unfold vrun. cbn [fold_left]. unfold vstart. rewrite UC. apply face_keeps_cell.
    - unfold vrun in *. rewrite fold_left_app. cbn [fold_left]. destruct e as [i|i]; cbn [vstep]; destruct (_ =? _); auto; [rewrite (proj2 (face_keeps_cell _)); auto|rewrite UC; auto].
  Qed.

  (** ** the point chaser *)
  (** a point in a cell brings up the cell the mesh reports for it *)
  Theorem c160_chaser : forall h p, m_cells m <> [] -> 0 <= get_cell_index3 sa m p < cell_size m ->
    v_cell (chase (h ++ [CPoint p])) = get_cell_index3 sa m p /\ v_cbuf (chase (h ++ [CPoint p])) = Some (cell_of (get_cell_index3 sa m p)).
  Proof.
    intros h p N R. unfold crun. rewrite fold_left_app. cbn [fold_left cstep]. set (s := fold_left _ h _). destruct (update_cell_spec (mkV (get_cell_index3 sa m p) (v_face s) (v_cbuf s) (v_fbuf s)) N) as (A & B & _).
    cbn [v_cell] in A. apply c160_in_range in A; auto. rewrite B, A. auto.
  Qed.
  (** after every history the window shows the selected cell, and the selection is a cell *)
  Theorem c160_chaser_shown : forall h, m_cells m <> [] -> 0 <= v_cell (chase h) < cell_size m /\ v_cbuf (chase h) = Some (cell_of (v_cell (chase h))).
  Proof.
    intros h N. unfold crun. induction h as [|e h IH] using rev_ind.
    - cbn [fold_left]. unfold cstart. destruct (update_cell_spec (mkV 0 0 None None) N) as ([A _] & B & _). auto.
    - rewrite fold_left_app. cbn [fold_left]. set (s := fold_left _ h _) in *. destruct e as [p|i]; cbn [cstep].
      + destruct (update_cell_spec (mkV (get_cell_index3 sa m p) (v_face s) (v_cbuf s) (v_fbuf s)) N) as ([A _] & B & _). auto.
      + destruct (i =? v_cell s); auto. destruct (update_cell_spec (mkV i (v_face s) (v_cbuf s) (v_fbuf s)) N) as ([A _] & B & _). auto.
  Qed.
  (** REFUTED: the cell shown for a point contains it.  For a point the mesh finds no cell for (outside the grid, or among cut cells none of which sees it) the chaser shows cell 0 *)
  Theorem c160_chaser_lost_refuted : forall h p, m_cells m <> [] -> get_cell_index3 sa m p < 0 -> v_cell (chase (h ++ [CPoint p])) = 0 /\ v_cbuf (chase (h ++ [CPoint p])) = Some (cell_of 0).
  Proof.
    intros h p N L. assert (P := size_pos N). unfold crun. rewrite fold_left_app. cbn [fold_left cstep]. set (s := fold_left _ h _). destruct (update_cell_spec (mkV (get_cell_index3 sa m p) (v_face s) (v_cbuf s) (v_fbuf s)) N) as ([A A'] & B & _).
    cbn [v_cell] in A'. set (s' := update_cell _ _ _) in *. assert (E : v_cell s' = 0) by (assert (X := A' 0 ltac:(lia)); lia). rewrite B, E. auto.
  Qed.
End Viewer.
(** the chaser on a mesh with a cut cell and a grid cell: a point in the grid cell brings up cell 1, one outside cell 0 *)
Example c160_chaser_ex : exists cell_of, let w p := crun cell_of ex_mesh ex_sa [CCell 7; CPoint p] in
  m_cells ex_mesh <> [] /\ get_cell_index3 ex_sa ex_mesh (Z2Qc 13, qhalf, qhalf)%Qc = 1 /\ cell_size ex_mesh = 2 /\ v_cell (w (Z2Qc 13, qhalf, qhalf)%Qc) = 1 /\
  get_cell_index3 ex_sa ex_mesh (Z2Qc 9, qhalf, qhalf)%Qc = -2 /\ v_cell (w (Z2Qc 9, qhalf, qhalf)%Qc) = 0.
Proof. exists (fun i => ([], [(i, i, i)])). split; [discriminate|]. vm_compute. auto 10. Qed.

(** ** the slicer *)
Section Slicer.
  Variables (slice_of : q3 -> q3 -> tris) (input : tris).
  Notation run := (srun slice_of input).
  (** the plane a history sets *)
  Definition set_plane : q3 * q3 -> sevent -> q3 * q3 :=
    fun '((x, y, z), d) e => match e with SX a => ((a, y, z), d) | SY a => ((x, a, z), d) | SZ a => ((x, y, a), d) | SDir a => ((x, y, z), a) | SSave => ((x, y, z), d) end.
  Definition plane_of (h : list sevent) : q3 * q3 := fold_left set_plane h (((0, 0, 0), (0, 0, 1))%Qc).
  Definition slice_at (h : list sevent) : tris := slice_of (fst (plane_of h)) (snd (plane_of h)).
  Lemma srun_spec h : s_org (run h) = fst (plane_of h) /\ s_dir (run h) = snd (plane_of h) /\ s_VF (run h) = slice_at h /\ (snd (slice_at h) <> [] -> s_buf (run h) = Some (slice_at h)).
  Proof.
    unfold slice_at. induction h as [|e h (A & B & C & D)] using rev_ind.
    - unfold srun, plane_of. cbn [fold_left]. unfold sstart, update_slice. cbn [s_org s_dir s_VF s_buf fst snd]. split; auto. split; auto. split; auto. intros N. destruct (snd (slice_of _ _)); [congruence|auto].
    - unfold srun, plane_of in *. rewrite !fold_left_app. cbn [fold_left]. set (s := fold_left (sstep slice_of) h _) in *. set (P := fold_left set_plane h (((0, 0, 0), (0, 0, 1))%Qc)) in *. destruct P as [[[x y] z] d]. cbn [fst snd] in A, B.
      destruct e; cbn [sstep set_plane fst snd]; unfold update_slice, with_plane; cbn [s_org s_dir s_VF s_buf]; rewrite ?A, ?B; cbn [fst snd s_org s_dir s_VF s_buf]; split; auto; split; auto; split; auto; clear C D; intros N; (destruct (snd (slice_of _ _)) eqn:E; [exfalso; apply N; auto|reflexivity]).
  Qed.
  (** after every history: the slice held is that of the plane last set, it is what Save writes, and it is in the window if it is not empty *)
  Theorem c160_slicer : forall h, s_VF (run h) = slice_at h /\ (snd (slice_at h) <> [] -> s_buf (run h) = Some (slice_at h)) /\ s_file (run (h ++ [SSave])) = Some (slice_at h) /\ plane_of (h ++ [SSave]) = plane_of h.
  Proof.
    intros h. destruct (srun_spec h) as (A & B & C & D). split; auto. split; auto. unfold srun, plane_of in *. rewrite !fold_left_app. cbn [fold_left sstep]. split.
    - unfold update_slice. cbn [s_file s_VF]. rewrite A, B. reflexivity.
    - destruct (fold_left set_plane h _) as [[[x y] z] d]. reflexivity.
  Qed.
  (** a file is only written by Save, and kept until the next *)
  Theorem c160_slicer_file : forall h e, e <> SSave -> s_file (run (h ++ [e])) = s_file (run h).
  Proof. intros h e N. unfold srun. rewrite fold_left_app. cbn [fold_left]. destruct e; cbn [sstep]; try congruence; reflexivity. Qed.
  (** REFUTED: the window shows the slice of the plane set.  When that slice is empty the window keeps what it showed, while Save writes the empty mesh *)
  Theorem c160_slicer_stale_refuted : forall h e, e <> SSave -> snd (slice_at (h ++ [e])) = [] -> s_buf (run (h ++ [e])) = s_buf (run h) /\ s_buf (run (h ++ [e; SSave])) = s_buf (run h) /\ s_file (run (h ++ [e; SSave])) = Some (slice_at (h ++ [e])).
  Proof.
    intros h e N E. assert (S1 : forall h e, snd (slice_at (h ++ [e])) = [] -> s_buf (run (h ++ [e])) = s_buf (run h)).
    { clear. intros h e E. assert (X := srun_spec (h ++ [e])). destruct X as (_ & _ & X & _). unfold srun in *. rewrite fold_left_app in *. cbn [fold_left] in *. rewrite <- X in E. destruct e; cbn [sstep] in *; unfold update_slice, with_plane in *; cbn [s_VF s_buf s_org s_dir] in *; rewrite E; reflexivity. }
    split; [apply S1; auto|]. replace (h ++ [e; SSave]) with ((h ++ [e]) ++ [SSave]) by (rewrite <- app_assoc; auto). destruct (c160_slicer (h ++ [e])) as (_ & _ & F & PL). split; [|auto]. rewrite S1; [apply S1; auto|]. unfold slice_at in *. rewrite PL. auto.
  Qed.
End Slicer.
(** a mesh whose slices below 0 are empty *)
Example c160_stale_ex : exists slice_of input, let run := srun slice_of input in snd (slice_at slice_of [SZ (- (1))%Qc]) = [] /\ s_buf (run [SZ (- (1))%Qc; SSave]) = s_buf (run []) /\ s_buf (run []) <> None /\ s_file (run [SZ (- (1))%Qc; SSave]) = Some ([], []).
Proof. exists (fun o _ => if qltb (snd o) 0 then ([], []) else ([(0, 0, 0)%Qc], [(0, 0, 0)])), ([], []). vm_compute. split; auto. split; auto. split; [discriminate|auto]. Qed.

(** ** the extractor *)
(** a reader of such files *)
Definition read_v (l : list oline) : list q3 := flat_map (fun x => match x with LV p => [p] | LF _ => [] end) l.
Definition read_f (l : list oline) : list c3 := flat_map (fun x => match x with LF (a, b, c) => [(a - 1, b - 1, c - 1)] | LV _ => [] end) l.
(** given an input and an output name the tool writes the input mesh the stored mesh was made from, vertices before faces, and reading it back gives that mesh *)
Theorem c160_extract : forall (Name : Type) (load : Name -> mesh3) i o rest, exists L, extract_main load (i :: o :: rest) = (0, Some (o, L)) /\ read_v L = m_origV (load i) /\ read_f L = m_origF (load i) /\
  exists vs fs, L = vs ++ fs /\ (forall x, In x vs -> exists p, x = LV p) /\ (forall x, In x fs -> exists t, x = LF t).
Proof.
  intros Name load i o rest. exists (extract_lines (load i)). split; [reflexivity|]. unfold extract_lines, read_v, read_f. rewrite !flat_map_app. set (V := m_origV (load i)). set (F := m_origF (load i)).
  assert (A : flat_map (fun x => match x with LV p => [p] | LF _ => [] end) (map LV V) = V) by (induction V as [|v V IH]; cbn; congruence).
  assert (B : flat_map (fun x => match x with LV p => [p] | LF _ => [] end) (map (fun '(a, b, c) => LF (a + 1, b + 1, c + 1)) F) = []) by (induction F as [|((a, b), c) F IH]; cbn; congruence).
  assert (C : flat_map (fun x => match x with LF (a, b, c) => [(a - 1, b - 1, c - 1)] | LV _ => [] end) (map LV V) = []) by (clear A; induction V as [|v V IH]; cbn [map flat_map app]; auto).
  assert (D : flat_map (fun x => match x with LF (a, b, c) => [(a - 1, b - 1, c - 1)] | LV _ => [] end) (map (fun '(a, b, c) => LF (a + 1, b + 1, c + 1)) F) = F).
  { clear B; induction F as [|((a, b), c) F IH]; [reflexivity|]. cbn [map flat_map app]. rewrite IH. f_equal. f_equal; [f_equal|]; ring. }
  rewrite A, B, C, D, app_nil_r. split; auto. split; auto. exists (map LV V), (map (fun '(a, b, c) => LF (a + 1, b + 1, c + 1)) F). split; auto. split.
  - intros x I. apply in_map_iff in I as (p & <- & _). eauto.
  - intros x I. apply in_map_iff in I as (((a, b), c) & <- & _). eauto.
Qed.
(** REFUTED: the exit status tells whether a file was written.  Called without an output name the tool writes nothing and exits with 0 all the same *)
Theorem c160_extract_status_refuted : forall (Name : Type) (load : Name -> mesh3) args, fst (extract_main load args) = 0 /\ (snd (extract_main load args) = None <-> (length args < 2)%nat).
Proof. intros Name load [|i [|o rest]]; cbn; split; auto; split; intros; try lia; try discriminate; auto. Qed.
Example c160_extract_ex : fst (extract_main (fun _ : Z => ex_mesh) [0; 1]) = 0 /\ snd (extract_main (fun _ : Z => ex_mesh) [0]) = None.
Proof. split; reflexivity. Qed.
