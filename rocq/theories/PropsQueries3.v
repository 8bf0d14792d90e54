(** C82-C88: queries on a CutCellMesh<3>. *)
From Coq Require Import Permutation Sorted.
From Verif Require Import Base Num CoordMask Vertex VertexProofs Grid SmallestEdge AdaptiveGrid AdaptiveSpec AdaptiveProofs PropsAdaptive Mesh Sparse Mesh2 PropsMesh2 Interp Boundary3 Volume Queries3.
Set Implicit Arguments.
Local Open Scope Z_scope.
Local Arguments Qcplus : simpl never. Local Arguments Qcmult : simpl never. Local Arguments Qcopp : simpl never. Local Arguments Qcminus : simpl never.
Local Arguments Qcdiv : simpl never. Local Arguments Qcinv : simpl never. Local Arguments Q2Qc : simpl never.

Lemma c3_cmp_total : TotalCmp c3_cmp.
Proof. unfold c3_cmp. apply pair_cmp_total; [apply pair_cmp_total|]; apply Zcompare_total. Qed.

(** ** C82: point location *)
Lemma cells_in_In m g : forall i, In i (cells_in_grid_cell m g) <-> exists c, 0 <= i /\ nth_error (m_cells m) (Z.to_nat i) = Some c /\ ce_grid c = g.
Proof.
  intros i. unfold cells_in_grid_cell.
  assert (H : forall l R, In i (fold_left (fun R '(i, c) => if c3_eqb (ce_grid c) g then set_insert Z.compare i R else R) l R) <-> In i R \/ exists c, In (i, c) l /\ ce_grid c = g).
  { induction l as [|[j c] l IH]; intros R; cbn [fold_left]; [split; [auto|intros [H|(c & [] & _)]; auto]|].
    rewrite IH. destruct (c3_eqb (ce_grid c) g) eqn:E.
    - apply c3_eqb_eq in E. rewrite (set_insert_In Zcompare_total). split.
      + intros [[->|H]|(c' & H & H')]; [right; exists c; cbn; auto|auto|right; exists c'; cbn; auto].
      + intros [H|(c' & [H|H] & H')]; [auto| |right; eauto]. injection H as -> ->. auto.
    - split; [intros [H|(c' & H & H')]; [auto|right; exists c'; cbn; auto]|]. intros [H|(c' & [H|H] & H')]; [auto| |right; eauto].
      injection H as -> ->. apply c3_eqb_eq in H'. congruence. }
  rewrite H. split.
  - intros [[]|(c & I & E)]. apply enum_In in I as [I1 I2]. eauto.
  - intros (c & I1 & I2 & E). right. exists c. split; auto. apply enum_In. auto.
Qed.
Lemma cells_in_sorted m g : ssorted Z.compare (cells_in_grid_cell m g).
Proof.
  unfold cells_in_grid_cell. assert (H : forall l R, ssorted Z.compare R -> ssorted Z.compare (fold_left (fun R '(i, c) => if c3_eqb (ce_grid c) g then set_insert Z.compare i R else R) l R)).
  { induction l as [|[j c] l IH]; intros R HR; cbn [fold_left]; auto. apply IH. destruct (c3_eqb _ _); auto. apply (set_insert_sorted Zcompare_total). auto. }
  apply H. constructor.
Qed.
(** cut cell i lies in the grid cell of p, and its signed solid angle (faces seen from the inside count positively) exceeds one half *)
Definition cut_cell_sees (sa : q3 -> Z -> Qc) (m : mesh3) (p : q3) (i : Z) : Prop :=
  exists c, 0 <= i /\ nth_error (m_cells m) (Z.to_nat i) = Some c /\ ce_grid c = to_coord m p /\
    (qhalf < lsum (fun '(f, s) => if s : bool then - sa p f else sa p f) (ce_faces c))%Qc.
Definition some_box_has (m : mesh3) (p : q3) : Prop := exists i b, In (i, b) (m_cubes m) /\ inside_cell b (to_local m p).
Lemma solid_sum sa c : solid_angle sa c = lsum (fun '(f, s) => if s : bool then (- sa f)%Qc else sa f) c.
Proof.
  unfold solid_angle. assert (H : forall l a, fold_left (fun a '(f, s) => (a + (if s : bool then - (1) else 1) * sa f)%Qc) l a = (a + lsum (fun '(f, s) => if s : bool then (- sa f)%Qc else sa f) l)%Qc).
  { induction l as [|[f s] l IH]; intros a; cbn [fold_left lsum]; [ring|]. rewrite IH. destruct s; ring. }
  rewrite H. ring.
Qed.
Lemma test_sees sa m p i : In i (cells_in_grid_cell m (to_coord m p)) ->
  (match nth_error (m_cells m) (Z.to_nat i) with Some c => contains (sa p) (ce_faces c) | None => false end = true <-> cut_cell_sees sa m p i).
Proof.
  intros I. apply cells_in_In in I as (c & I1 & I2 & I3). rewrite I2. unfold contains. rewrite qltb_lt, solid_sum. unfold cut_cell_sees. split.
  - intros H. exists c. auto.
  - intros (c' & _ & E & _ & H). congruence.
Qed.
Lemma find_least (f : Z -> bool) l : ssorted Z.compare l ->
  match find f l with Some i => In i l /\ f i = true /\ (forall j, In j l -> f j = true -> i <= j) | None => forall j, In j l -> f j = false end.
Proof.
  induction 1 as [|x l HF HS IH]; cbn [find]; [intros j []|]. destruct (f x) eqn:E.
  - repeat split; cbn; auto. intros j [->|H] _; [lia|]. rewrite Forall_forall in HF. specialize (HF _ H). apply Z.lt_le_incl. exact HF.
  - destruct (find f l) as [i|].
    + destruct IH as (A & B & C). repeat split; cbn; auto. intros j [->|H] Hj; [congruence|auto].
    + intros j [->|H]; auto.
Qed.
(** What get_cell_index answers for every point: the exterior cell whose cube contains the point, else the first cut cell of the point's grid cell that
    contains it, else -1; and -2 when a local coordinate is negative or more than one cell past the end. *)
Theorem c82_point_location sa m p : wf_cells (cshape m) (m_cubes m) -> disjoint_cells (m_cubes m) -> (forall i b, In (i, b) (m_cubes m) -> num_cut_cells m <= i) ->
  let k := get_cell_index3 sa m p in
  (k = -2 <-> ~ in_range (cshape m) 1 (to_local m p)) /\
  (forall i, is_exterior_cell m i = true -> (k = i <-> in_range (cshape m) 1 (to_local m p) /\ exists b, In (i, b) (m_cubes m) /\ inside_cell b (to_local m p))) /\
  (forall i, is_cut_cell m i = true -> (k = i <-> in_range (cshape m) 1 (to_local m p) /\ ~ some_box_has m p /\ cut_cell_sees sa m p i /\ forall j, cut_cell_sees sa m p j -> i <= j)) /\
  (in_range (cshape m) 1 (to_local m p) -> (k = -1 <-> ~ some_box_has m p /\ forall i, ~ cut_cell_sees sa m p i)).
Proof.
  intros W D N. cbv zeta. destruct (@c39_point_location_partial (cshape m) (m_cubes m) (to_local m p) W D) as (L2 & L0 & L1). unfold get_cell_index3. destruct (Z.eqb_spec (get_cell_index (cshape m) (m_cubes m) (to_local m p)) (-1)) as [E|E].
  - assert (R : in_range (cshape m) 1 (to_local m p)).
    { destruct (Z.eq_dec (get_cell_index (cshape m) (m_cubes m) (to_local m p)) (-2)) as [E'|E']; [lia|]. assert (NN : ~ ~ in_range (cshape m) 1 (to_local m p)) by (intros H; apply E'; apply L2; auto).
      revert NN. rewrite <- out_test. destruct (let '(a, b, c) := cshape m in _); [|auto]. intros H. exfalso. apply H. discriminate. }
    assert (NB : ~ some_box_has m p) by (intros (i & b & Hi & Hb); eapply (proj1 (L1 R) E); eauto).
    assert (F := find_least (fun i => match nth_error (m_cells m) (Z.to_nat i) with Some c => contains (sa p) (ce_faces c) | None => false end) (cells_in_sorted m (to_coord m p))).
    destruct (find _ _) as [i|].
    + destruct F as (F1 & F2 & F3). assert (S := proj1 (test_sees sa m p i F1) F2). apply cells_in_In in F1 as (c & G1 & G2 & G3).
      assert (U : (Z.to_nat i < length (m_cells m))%nat) by (apply nth_error_Some; congruence). unfold num_cut_cells in *.
      assert (Mn : forall j, cut_cell_sees sa m p j -> i <= j).
      { intros j Hj. assert (Ij : In j (cells_in_grid_cell m (to_coord m p))) by (destruct Hj as (c' & A1 & A2 & A3 & _); apply cells_in_In; eauto). apply F3; auto. apply test_sees; auto. }
      split; [split; [lia|tauto]|]. split; [|split].
      * intros j Hj. unfold is_exterior_cell in Hj. unfold num_cut_cells in Hj. apply andb_true_iff in Hj as [A B]. split; [lia|]. intros (_ & b & Hb & HB). exfalso. apply NB. exists j, b. auto.
      * intros j Hj. split; [intros <-; auto|]. intros (_ & _ & Sj & Mj). specialize (Mj _ S). specialize (Mn _ Sj). lia.
      * intros _. split; [lia|]. intros [_ H]. exfalso. eapply H; eauto.
    + assert (NS : forall i, ~ cut_cell_sees sa m p i).
      { intros i Hi. assert (Ij : In i (cells_in_grid_cell m (to_coord m p))) by (destruct Hi as (c' & A1 & A2 & A3 & _); apply cells_in_In; eauto). apply test_sees in Hi; auto. specialize (F _ Ij). cbv beta in F. congruence. }
      split; [split; [lia|tauto]|]. split; [|split].
      * intros j Hj. unfold is_exterior_cell in Hj. apply andb_true_iff in Hj as [A B]. split; [lia|]. intros (_ & b & Hb & HB). exfalso. apply NB. exists j, b. auto.
      * intros j Hj. unfold is_cut_cell in Hj. apply andb_true_iff in Hj as [A B]. split; [lia|]. intros (_ & _ & S & _). exfalso. eapply NS; eauto.
      * intros _. tauto.
  - set (e := get_cell_index (cshape m) (m_cubes m) (to_local m p)) in *. split; [exact L2|].
    assert (EX : in_range (cshape m) 1 (to_local m p) -> some_box_has m p).
    { intros R. assert (E2 : e <> -2) by (intros H; apply L2 in H; tauto). unfold e, get_cell_index in E, E2. destruct (cshape m) as [[n k] l], (to_local m p) as [[x y] z] eqn:TL.
      destruct (_ || _); [congruence|]. destruct (find _ _) as [[i b]|] eqn:F; [|congruence]. apply find_some in F as [F1 F2]. exists i, b. rewrite TL. split; auto. apply is_inside_spec. auto. }
    split; [|split].
    + intros i Hi. unfold is_exterior_cell in Hi. apply andb_true_iff in Hi as [A B]. apply L0. lia.
    + intros i Hi. split; [|intros (R & NB & _); tauto]. intros H. exfalso. unfold is_cut_cell in Hi. apply andb_true_iff in Hi as [A B]. apply L0 in H; [|lia]. destruct H as (_ & b & Hb & _). apply N in Hb. lia.
    + intros R. split; [congruence|]. intros [NB _]. tauto.
Qed.
(** Consequence: where the exterior cubes and the cut cells cover the point exactly once (and the solid angle test is right for the cut cells of the
    point's grid cell), get_cell_index returns the cell that contains the point. *)
Theorem c82_unique_cell sa m p (inside : Z -> Prop) k : wf_cells (cshape m) (m_cubes m) -> disjoint_cells (m_cubes m) -> (forall i b, In (i, b) (m_cubes m) -> num_cut_cells m <= i) ->
  in_range (cshape m) 0 (to_local m p) ->
  (forall i, cut_cell_sees sa m p i <-> inside i) ->
  let holds i := inside i \/ exists b, In (i, b) (m_cubes m) /\ inside_cell b (to_local m p) in
  holds k -> (forall i, holds i -> i = k) -> get_cell_index3 sa m p = k.
Proof.
  intros W D N R H holds Hk U. destruct (@c82_point_location sa m p W D N) as (_ & X & C & _).
  assert (R1 : in_range (cshape m) 1 (to_local m p)).
  { revert R. destruct (cshape m) as [[a b] c], (to_local m p) as [[x y] z]. unfold in_range.
    assert (P : forall n t, (t <= Z2Qc (n + 0))%Qc -> (t <= Z2Qc (n + 1))%Qc) by (intros n t T; eapply Qcle_trans; [apply T|]; apply Z2Qc_le; lia). intros (A & B & E). repeat split; try tauto; apply P; tauto. }
  destruct Hk as [Hi|(b & Hb & HB)].
  - assert (S := proj2 (H k) Hi). assert (S' := S). destruct S' as (c & P1 & P2 & _). apply C.
    + unfold is_cut_cell, num_cut_cells. assert (L : (Z.to_nat k < length (m_cells m))%nat) by (apply nth_error_Some; congruence). apply andb_true_iff. split; [apply Z.leb_le|apply Z.ltb_lt]; lia.
    + split; [auto|]. split; [|split; auto].
      * intros (j & b & Hj & Hb). assert (E : j = k) by (apply U; right; eauto). subst j. specialize (N _ _ Hj). unfold num_cut_cells in N. assert (L : (Z.to_nat k < length (m_cells m))%nat) by (apply nth_error_Some; congruence). lia.
      * intros j Hj. apply H in Hj. rewrite (U j); [lia|left; auto].
  - apply X; [|split; eauto]. unfold is_exterior_cell. specialize (N _ _ Hb). apply andb_true_iff. assert (0 <= num_cut_cells m) by (unfold num_cut_cells; lia). split; apply Z.leb_le; lia.
Qed.
(** every index is exactly one of negative, cut cell, or exterior *)
Theorem c82_cell_kinds m i : (is_cut_cell m i = true <-> 0 <= i < num_cut_cells m) /\ (is_exterior_cell m i = true <-> num_cut_cells m <= i) /\
  (0 <= i -> is_exterior_cell m i = negb (is_cut_cell m i)).
Proof.
  assert (0 <= num_cut_cells m) by (unfold num_cut_cells; lia). unfold is_cut_cell, is_exterior_cell. rewrite !andb_true_iff, !Z.leb_le, Z.ltb_lt. split; [tauto|]. split; [lia|].
  intros Hi. rewrite (proj2 (Z.leb_le 0 i) Hi). cbn. apply Z.leb_antisym.
Qed.
(** cells_by_grid_cell and cells_in_grid_cell agree, and each lists the cells of the grid cell in increasing order *)
Theorem c82_cells_of_grid_cell m g :
  cells_in_grid_cell m g = (match map_find c3_cmp g (cells_by_grid_cell m) with Some s => s | None => [] end) /\
  (forall i, In i (cells_in_grid_cell m g) <-> exists c, 0 <= i /\ nth_error (m_cells m) (Z.to_nat i) = Some c /\ ce_grid c = g) /\
  ssorted Z.compare (cells_in_grid_cell m g).
Proof.
  split; [|split; [apply cells_in_In|apply cells_in_sorted]]. unfold cells_in_grid_cell, cells_by_grid_cell.
  assert (H : forall l R S, ssorted c3_cmp (map fst R) -> S = (match map_find c3_cmp g R with Some s => s | None => [] end) ->
     fold_left (fun R '(i, c) => if c3_eqb (ce_grid c) g then set_insert Z.compare i R else R) l S =
     (match map_find c3_cmp g (fold_left (fun R '(i, c) => map_set c3_cmp (ce_grid c) (set_insert Z.compare i (match map_find c3_cmp (ce_grid c) R with Some s => s | None => [] end)) R) l R) with Some s => s | None => [] end)).
  { induction l as [|[i c] l IH]; intros R S HR HS; cbn [fold_left]; auto. apply IH.
    - apply (map_set_sorted c3_cmp_total). exact HR.
    - rewrite (map_find_set c3_cmp_total) by exact HR. destruct (c3_eqb (ce_grid c) g) eqn:E.
      + apply c3_eqb_eq in E. subst g. rewrite (tc_refl c3_cmp_total). congruence.
      + destruct (c3_cmp g (ce_grid c)) eqn:E'; auto. apply (tc_eq c3_cmp_total) in E'. symmetry in E'. apply c3_eqb_eq in E'. congruence. }
  apply H; [constructor|reflexivity].
Qed.

(** ** a small concrete mesh: two grid cells side by side, the first cut (one cut cell bounded by its six faces), the second exterior; one cut vertex *)
Definition ex_face (l : list Z) (id : face_id) : cut_face := mkCutFace [] [l] id (0, 0, 0)%Qc None None None.
Definition ex_mesh : mesh3 :=
  mkMesh (Z2Qc 10, 0, 0)%Qc (Z2Qc 2, 1, 1)%Qc (3, 2, 2) [mkVertex [0; 0; 0] [qhalf; qhalf; qhalf] [false; false; false]] [] (fun _ => true) [] []
    [ex_face [0; 1; 3; 2] (AxialFace 0 0); ex_face [4; 6; 7; 5] (AxialFace 0 1); ex_face [0; 4; 5; 1] (AxialFace 1 0);
     ex_face [2; 3; 7; 6] (AxialFace 1 1); ex_face [0; 2; 6; 4] (AxialFace 2 0); ex_face [1; 5; 7; 3] (MeshFace 0)]
    [mkCutCell [(0, true); (1, true); (2, true); (3, true); (4, true); (5, true)] 0 0 (0, 0, 0)] [] []
    [(1, ((1, 0, 0), 1))] [] [(1, 0)].
Definition ex_sa (p : q3) (f : Z) : Qc := Q2Qc (-1 # 6).
Lemma ex_wf : wf_cells (cshape ex_mesh) (m_cubes ex_mesh) /\ disjoint_cells (m_cubes ex_mesh) /\ forall i b, In (i, b) (m_cubes ex_mesh) -> num_cut_cells ex_mesh <= i.
Proof.
  split; [|split].
  - split; [repeat constructor|]. intros i b [E|[]]. apply pair_equal_spec in E as [<- <-]. split; [lia|split; [cbn; lia|]]. intros p. unfold in_box, in_grid. rewrite !all3. cbn. lia.
  - intros i a j b p [E|[]] [E'|[]] _ _. congruence.
  - intros i b [E|[]]. apply pair_equal_spec in E as [<- <-]. cbn. lia.
Qed.
Example c82_example : get_cell_index3 ex_sa ex_mesh (Z2Qc 11, qhalf, qhalf)%Qc = 0 /\ get_cell_index3 ex_sa ex_mesh (Z2Qc 13, qhalf, qhalf)%Qc = 1 /\
  get_cell_index3 ex_sa ex_mesh (Z2Qc 9, qhalf, qhalf)%Qc = -2.
Proof. vm_compute. auto. Qed.
(** "points outside the grid give -2" fails: a point past the high end by less than one cell gives -1 *)
Theorem c82_outside_refuted : exists m p, (wf_cells (cshape m) (m_cubes m) /\ disjoint_cells (m_cubes m) /\ forall i b, In (i, b) (m_cubes m) -> num_cut_cells m <= i) /\
  ~ in_range (cshape m) 0 (to_local m p) /\ forall sa, get_cell_index3 sa m p = -1.
Proof.
  exists ex_mesh, (Z2Qc 15, qhalf, qhalf)%Qc. split; [exact ex_wf|]. split.
  - intros ((_ & H) & _). revert H. unfold Qcle. vm_compute. congruence.
  - intros sa. vm_compute. reflexivity.
Qed.

(** ** C83: vertex positions *)
Lemma nth_error_zseq n k : nth_error (zseq n) k = if (Z.of_nat k <? n) then Some (Z.of_nat k) else None.
Proof.
  unfold zseq. rewrite nth_error_map. destruct (Z.ltb_spec (Z.of_nat k) n).
  - rewrite (@nth_error_nth' _ _ _ 0%nat); [|rewrite seq_length; lia]. cbn. rewrite seq_nth by lia. auto.
  - rewrite (proj2 (nth_error_None _ _)); [auto|]. rewrite seq_length. lia.
Qed.
Lemma zseq_len n : length (zseq n) = Z.to_nat n.
Proof. unfold zseq. rewrite map_length, seq_length. auto. Qed.
Lemma pos_of_coord c : pos (vertex_of_coord c) = map Z2Qc c.
Proof. unfold pos, vertex_of_coord. cbn [v_coord v_quot]. induction c as [|x c IH]; cbn; auto. f_equal; [ring|auto]. Qed.
(** vertices() lists vertex(0), vertex(1), ... : column i is vertex(i), for every i, and there are num_vertices() columns *)
Theorem c83_vertices m i : pos_shape (list3 (m_vshape m)) -> 0 <= i -> nth_error (vertices3 m) (Z.to_nat i) = vertex3 m i.
Proof.
  intros PS Hi. apply shape_size_pos in PS. unfold vertices3, vertex3, masked_vertex. rewrite (proj2 (Z.ltb_ge i 0) Hi). set (N := shape_size (list3 (m_vshape m))) in *.
  assert (LG : length (grid_vertices m) = Z.to_nat N) by (unfold grid_vertices, grid_local_vertices; rewrite !map_length, zseq_len; auto).
  destruct (Z.ltb_spec i N).
  - rewrite nth_error_app1 by lia. unfold grid_vertices, grid_local_vertices. rewrite !nth_error_map, nth_error_zseq. fold N. rewrite (proj2 (Z.ltb_lt _ _)) by lia. rewrite Z2Nat.id by lia. cbn [option_map].
    unfold get_world_vertex3. rewrite pos_of_coord. auto.
  - assert (LE : (Z.to_nat N <= Z.to_nat i)%nat) by lia. rewrite nth_error_app2 by lia. rewrite LG. unfold cut_vertices_colvecs, grid_space_cut_vertices. rewrite !nth_error_map.
    replace (Z.to_nat (i - N)) with (Z.to_nat i - Z.to_nat N)%nat by lia. destruct (nth_error (m_verts m) (Z.to_nat i - Z.to_nat N)); auto.
Qed.
Theorem c83_vertex_count m : pos_shape (list3 (m_vshape m)) -> Z.of_nat (length (vertices3 m)) = shape_size (list3 (m_vshape m)) + Z.of_nat (length (m_verts m)).
Proof.
  intros PS. apply shape_size_pos in PS. unfold vertices3, grid_vertices, grid_local_vertices, cut_vertices_colvecs, grid_space_cut_vertices. rewrite app_length, !map_length, zseq_len. lia.
Qed.
(** world position: origin + dx * grid position, axis by axis; the grid vertex with coordinate c is at origin + dx * c *)
Theorem c83_world_position m v d : (d < 3)%nat -> length (pos v) = 3%nat ->
  q3_at (get_world_vertex3 m v) d = (q3_at (m_origin m) d + q3_at (m_dx m) d * nth d (pos v) 0)%Qc.
Proof.
  intros Hd L. unfold get_world_vertex3, to_world, vec3. destruct (pos v) as [|a [|b [|c [|]]]]; try discriminate. destruct (m_origin m) as [[ox oy] oz], (m_dx m) as [[dx dy] dz].
  destruct d as [|[|[|d]]]; try lia; reflexivity.
Qed.
Theorem c83_grid_vertex m x y z : let s := list3 (m_vshape m) in in_shape s [x; y; z] = true ->
  vertex3 m (ravel s [x; y; z]) = Some (to_world m (Z2Qc x, Z2Qc y, Z2Qc z)).
Proof.
  intros s H. unfold vertex3, masked_vertex. fold s. destruct (ravel_range _ _ H) as [H1 H2]. rewrite (proj2 (Z.ltb_ge _ 0)), (proj2 (Z.ltb_lt _ _)) by lia. rewrite unravel_ravel by auto.
  cbn [option_map]. unfold get_world_vertex3. rewrite pos_of_coord. reflexivity.
Qed.
(** local and world coordinates are inverse to each other *)
Definition nonzero3 (p : q3) : Prop := let '(x, y, z) := p in (x <> 0 /\ y <> 0 /\ z <> 0)%Qc.
Theorem c83_local_world m p : nonzero3 (m_dx m) -> to_local m (to_world m p) = p /\ to_world m (to_local m p) = p.
Proof.
  unfold to_local, to_world, nonzero3, vdiv, vsub, vadd, vmul. destruct (m_origin m) as [[ox oy] oz], (m_dx m) as [[dx dy] dz], p as [[x y] z]. intros (Hx & Hy & Hz).
  split; (f_equal; [f_equal|]); field; auto.
Qed.
(** grid_space_vertices(): the grid vertices are in grid space as the name says ... *)
Theorem c83_grid_space_partial m i : pos_shape (list3 (m_vshape m)) -> 0 <= i < shape_size (list3 (m_vshape m)) ->
  option_map (to_world m) (nth_error (grid_space_vertices m) (Z.to_nat i)) = vertex3 m i.
Proof.
  intros PS Hi. rewrite <- c83_vertices by (auto; lia). unfold grid_space_vertices, vertices3, grid_vertices.
  assert (LG : length (grid_local_vertices m) = Z.to_nat (shape_size (list3 (m_vshape m)))) by (unfold grid_local_vertices; rewrite map_length, zseq_len; auto).
  rewrite !nth_error_app1, nth_error_map by (rewrite ?map_length; lia). auto.
Qed.
(** ... but the cut vertices are in world space: column i is vertex(i) itself *)
Theorem c83_grid_space_cut m i : pos_shape (list3 (m_vshape m)) -> shape_size (list3 (m_vshape m)) <= i ->
  nth_error (grid_space_vertices m) (Z.to_nat i) = vertex3 m i.
Proof.
  intros PS Hi. assert (P := shape_size_pos PS). rewrite <- c83_vertices by (auto; lia). unfold grid_space_vertices, vertices3, grid_vertices.
  assert (LG : length (grid_local_vertices m) = Z.to_nat (shape_size (list3 (m_vshape m)))) by (unfold grid_local_vertices; rewrite map_length, zseq_len; auto).
  rewrite !nth_error_app2 by (rewrite ?map_length; lia). rewrite map_length. auto.
Qed.
Theorem c83_grid_space_refuted : exists m i q, pos_shape (list3 (m_vshape m)) /\ nonzero3 (m_dx m) /\
  nth_error (grid_space_vertices m) (Z.to_nat i) = Some q /\ vertex3 m i <> Some (to_world m q).
Proof.
  exists ex_mesh, 12, (nth 12 (grid_space_vertices ex_mesh) vzero). split; [repeat constructor|]. split; [repeat split; discriminate|]. split; [reflexivity|].
  intros H. assert (H' := f_equal (fun o => match o with Some p => this (fst (fst p)) | None => 0%Q end) H). vm_compute in H'. discriminate.
Qed.
Example c83_example : pos_shape (list3 (m_vshape ex_mesh)) /\ nonzero3 (m_dx ex_mesh) /\ length (vertices3 ex_mesh) = 13%nat /\
  option_map (fun p : q3 => (this (fst (fst p)), this (snd (fst p)), this (snd p))) (vertex3 ex_mesh 12) = Some (11 # 1, 1 # 2, 1 # 2)%Q.
Proof. repeat split; try discriminate; try reflexivity. repeat constructor. Qed.

(** ** C86: active cells are found from centroids *)
(** p lies in the closed grid cell g *)
Definition in_closed_cell (m : mesh3) (g : c3) (p : q3) : Prop := forall d, (d < 3)%nat ->
  (q3_at (m_origin m) d + q3_at (m_dx m) d * Z2Qc (get3 g d) <= q3_at p d /\ q3_at p d <= q3_at (m_origin m) d + q3_at (m_dx m) d * Z2Qc (get3 g d + 1))%Qc.
(** the vertices of the faces of a cell *)
Definition cell_vertex (m : mesh3) (c : cut_cell) (f i : Z) : Prop :=
  In f (map fst (ce_faces c)) /\ 0 <= f /\ exists F, nth_error (m_faces m) (Z.to_nat f) = Some F /\ In i (concat (cf_loops F)).
(** a cut cell inside its closed grid cell, not squeezed onto one of the three high planes *)
Record cell_in_grid (m : mesh3) (c : cut_cell) : Prop := {
  cig_faces : ce_faces c <> [];
  cig_ok : forall f s, In (f, s) (ce_faces c) -> 0 <= f /\ exists F, nth_error (m_faces m) (Z.to_nat f) = Some F /\ concat (cf_loops F) <> [];
  cig_in : forall f i, cell_vertex m c f i -> in_closed_cell m (ce_grid c) (Vcol m i);
  cig_low : forall d, (d < 3)%nat -> exists f i, cell_vertex m c f i /\ (q3_at (Vcol m i) d < q3_at (m_origin m) d + q3_at (m_dx m) d * Z2Qc (get3 (ce_grid c) d + 1))%Qc }.
Definition pos3 (p : q3) : Prop := forall d, (d < 3)%nat -> (0 < q3_at p d)%Qc.

Lemma pos_neq0 (x : Qc) : (0 < x)%Qc -> x <> 0%Qc.
Proof. intros H E. rewrite E in H. exact (Qclt_not_eq _ _ H eq_refl). Qed.
Lemma q3_at_add a b d : q3_at (vadd a b) d = (q3_at a d + q3_at b d)%Qc.
Proof. destruct a as [[x y] z], b as [[u v] w], d as [|[|d]]; reflexivity. Qed.
Lemma q3_at_scale k a d : q3_at (vscale k a) d = (k * q3_at a d)%Qc.
Proof. destruct a as [[x y] z], d as [|[|d]]; reflexivity. Qed.
Lemma q3_at_sum l d : q3_at (vsum l) d = lsum (fun v => q3_at v d) l.
Proof.
  unfold vsum. assert (H : forall l a, q3_at (fold_left vadd l a) d = (q3_at a d + lsum (fun v => q3_at v d) l)%Qc).
  { clear. induction l as [|x l IH]; intros a; cbn [fold_left lsum]; [ring|]. rewrite IH, q3_at_add. ring. }
  rewrite H. assert (E : q3_at vzero d = 0%Qc) by (destruct d as [|[|d]]; reflexivity). rewrite E. ring.
Qed.
Lemma lsum_bounds (A : Type) (f : A -> Qc) lo hi l : (forall a, In a l -> lo <= f a /\ f a <= hi)%Qc ->
  (Z2Qc (Z.of_nat (length l)) * lo <= lsum f l /\ lsum f l <= Z2Qc (Z.of_nat (length l)) * hi)%Qc /\
  ((exists a, In a l /\ (f a < hi)%Qc) -> (lsum f l < Z2Qc (Z.of_nat (length l)) * hi)%Qc).
Proof.
  induction l as [|a l IH]; intros H; cbn [lsum].
  - split; [|intros (a & [] & _)]. cbn [length Z.of_nat]. rewrite Z2Qc_0. split; qc_lra.
  - destruct (IH (fun x I => H x (or_intror I))) as [[I1 I2] I3]. destruct (H a (or_introl eq_refl)) as [A1 A2].
    assert (E : forall t, (Z2Qc (Z.of_nat (length (a :: l))) * t = t + Z2Qc (Z.of_nat (length l)) * t)%Qc) by (intros t; cbn [length]; rewrite Nat2Z.inj_succ, <- Z.add_1_l, Z2Qc_plus, Z2Qc_1; ring).
    rewrite !E. clear IH E. generalize dependent (Z2Qc (Z.of_nat (length l)) * hi)%Qc. generalize dependent (Z2Qc (Z.of_nat (length l)) * lo)%Qc. generalize dependent (lsum f l).
    intros S L I1 U I2 I3. split; [split; qc_lra|]. intros (x & [->|I] & Hx); [qc_lra|]. assert (S < U)%Qc by eauto. qc_lra.
Qed.
Lemma mean_bounds vs q d lo hi : mean vs = Some q -> (forall v, In v vs -> lo <= q3_at v d /\ q3_at v d <= hi)%Qc ->
  (lo <= q3_at q d /\ q3_at q d <= hi)%Qc /\ ((exists v, In v vs /\ (q3_at v d < hi)%Qc) -> (q3_at q d < hi)%Qc).
Proof.
  unfold mean. intros E H. destruct (lsum_bounds (fun v => q3_at v d) _ H) as [[B1 B2] B3]. destruct vs as [|v vs]; [discriminate|]. apply Some_inj in E. subst q. rewrite q3_at_scale, q3_at_sum.
  set (n := Z2Qc (Z.of_nat (length (v :: vs)))) in *. set (S := lsum (fun v => q3_at v d) (v :: vs)) in *.
  assert (NP : (0 < n)%Qc) by (unfold n; rewrite <- Z2Qc_0; apply Z2Qc_lt; cbn [length]; lia). assert (NZ : n <> 0%Qc) by (apply pos_neq0; auto).
  assert (M : (n * (/ n * S) = S)%Qc) by (field; auto). clearbody n S. set (q := (/ n * S)%Qc) in *. clearbody q. subst S.
  clear - B1 B2 B3 NP. unfold Qclt, Qcle in *. q_push. split; [split; nra|]. intros X. specialize (B3 X). q_push. nra.
Qed.
Lemma brep_mean V ls : brep_centroid V ls = mean (map V (concat ls)).
Proof. reflexivity. Qed.
Lemma coord_axis m p d : (d < 3)%nat -> get3 (to_coord m p) d = qfloor ((q3_at p d - q3_at (m_origin m) d) / q3_at (m_dx m) d)%Qc.
Proof.
  intros Hd. unfold to_coord, to_local, vdiv, vsub. destruct p as [[x y] z], (m_origin m) as [[ox oy] oz], (m_dx m) as [[dx dy] dz]. destruct d as [|[|[|d]]]; try lia; reflexivity.
Qed.
Lemma get3_ext a b : (forall d, (d < 3)%nat -> get3 a d = get3 b d) -> a = b.
Proof. intros H. assert (H0 := H 0%nat ltac:(lia)). assert (H1 := H 1%nat ltac:(lia)). assert (H2 := H 2%nat ltac:(lia)). destruct a as [[? ?] ?], b as [[? ?] ?]. cbn in *. congruence. Qed.
Lemma sequence_map (A B : Type) (f : A -> option B) l : (forall a, In a l -> f a <> None) -> exists r, sequence (map f l) = Some r /\ Forall2 (fun a b => f a = Some b) l r.
Proof.
  induction l as [|a l IH]; intros H; cbn; [exists []; auto|]. destruct IH as (r & E & F); [intros; apply H; cbn; auto|]. destruct (f a) as [b|] eqn:Ea; [|exfalso; apply (H a); cbn; auto].
  exists (b :: r). rewrite E. cbn. auto.
Qed.
Lemma Forall2_In_r (A B : Type) (P : A -> B -> Prop) l r b : Forall2 P l r -> In b r -> exists a, In a l /\ P a b.
Proof. induction 1; intros []; [subst; cbn; eauto|]. destruct IHForall2 as (a & ? & ?); auto. cbn. eauto. Qed.
Lemma Forall2_In_l (A B : Type) (P : A -> B -> Prop) l r a : Forall2 P l r -> In a l -> exists b, In b r /\ P a b.
Proof. induction 1; intros []; [subst; cbn; eauto|]. destruct IHForall2 as (b & ? & ?); auto. cbn. eauto. Qed.
(** the centroid of such a cell lies in its own grid cell *)
Theorem c86_centroid_in_grid_cell m c : pos3 (m_dx m) -> cell_in_grid m c ->
  exists q, cell_centroid (Vcol m) (face_loops m) (ce_faces c) = Some q /\ to_coord m q = ce_grid c.
Proof.
  intros DX [C1 C2 C3 C4]. unfold cell_centroid.
  set (g := fun '(f, _) => if (f <? 0)%Z then None else match nth_error (face_loops m) (Z.to_nat f) with Some ls => brep_centroid (Vcol m) ls | None => None end).
  assert (G : forall x : Z * bool, In x (ce_faces c) -> exists F q, nth_error (m_faces m) (Z.to_nat (fst x)) = Some F /\ g x = Some q /\ mean (map (Vcol m) (concat (cf_loops F))) = Some q).
  { intros [f s] I. destruct (C2 _ _ I) as (P & F & E & N). cbn [fst]. unfold g, face_loops. rewrite (proj2 (Z.ltb_ge f 0) P), nth_error_map, E. cbn [option_map]. rewrite brep_mean.
    assert (X : exists q, mean (map (Vcol m) (concat (cf_loops F))) = Some q) by (unfold mean; destruct (concat (cf_loops F)); [congruence|cbn [map]; eauto]).
    destruct X as [q X]. exists F, q. auto. }
  destruct (@sequence_map _ _ g (ce_faces c)) as (r & -> & F2). { intros x I. destruct (G x I) as (F & q & _ & E & _). rewrite E. discriminate. }
  assert (RN : r <> []) by (intros ->; inversion F2; congruence). destruct (mean r) as [q|] eqn:M; [|unfold mean in M; destruct r; congruence]. exists q. split; auto.
  apply get3_ext. intros d Hd. rewrite coord_axis by auto.
  set (o := q3_at (m_origin m) d) in *. set (h := q3_at (m_dx m) d) in *. set (k := get3 (ce_grid c) d) in *.
  assert (HB : forall x b, In x (ce_faces c) -> g x = Some b -> ((o + h * Z2Qc k <= q3_at b d /\ q3_at b d <= o + h * Z2Qc (k + 1)) /\
     ((exists i, cell_vertex m c (fst x) i /\ q3_at (Vcol m i) d < o + h * Z2Qc (k + 1)) -> q3_at b d < o + h * Z2Qc (k + 1)))%Qc).
  { intros x b I E. destruct (G x I) as (F & q' & E1 & E2 & E3). rewrite E in E2. apply Some_inj in E2. subst q'.
    assert (VX : forall i, In i (concat (cf_loops F)) -> cell_vertex m c (fst x) i). { intros i Hi. split; [apply in_map; auto|]. destruct x as [f s]. split; [exact (proj1 (C2 _ _ I))|]. exists F. split; [exact E1|exact Hi]. }
    destruct (@mean_bounds _ _ d (o + h * Z2Qc k)%Qc (o + h * Z2Qc (k + 1))%Qc E3) as [B1 B2].
    - intros v Hv. apply in_map_iff in Hv as (i & <- & Hi). apply (C3 _ _ (VX _ Hi) d Hd).
    - split; auto. intros (i & (_ & _ & F' & EF & Hi) & L). apply B2. exists (Vcol m i). split; auto. apply in_map. congruence. }
  destruct (@mean_bounds _ _ d (o + h * Z2Qc k)%Qc (o + h * Z2Qc (k + 1))%Qc M) as [[L U] S].
  - intros b Hb. destruct (Forall2_In_r _ F2 Hb) as (x & Ix & Ex). apply (HB x b Ix Ex).
  - assert (LT : (q3_at q d < o + h * Z2Qc (k + 1))%Qc).
    { apply S. destruct (C4 d Hd) as (f & i & CV & Hlt). destruct CV as (If & CV'). apply in_map_iff in If as (x & Ex & Ix). destruct (Forall2_In_l _ F2 Ix) as (b & Ib & Eb). exists b. split; auto.
      apply (HB x b Ix Eb). exists i. split; auto. rewrite Ex. split; auto. rewrite <- Ex. apply in_map. auto. }
    assert (HP : (0 < h)%Qc) by (apply DX; auto). assert (HZ : h <> 0%Qc) by (apply pos_neq0; auto).
    assert (E : (q3_at q d = o + h * ((q3_at q d - o) / h))%Qc) by (field; auto). set (t := ((q3_at q d - o) / h)%Qc) in *. rewrite E in L, LT. rewrite Z2Qc_plus, Z2Qc_1 in LT.
    clearbody t. clear - L LT HP. apply qfloor_unique; unfold Qclt, Qcle in *; q_push; nra.
Qed.
Lemma by_keys m : ssorted c3_cmp (map fst (cells_by_grid_cell m)) /\ forall g, In g (map fst (cells_by_grid_cell m)) <-> exists c, In c (m_cells m) /\ ce_grid c = g.
Proof.
  unfold cells_by_grid_cell.
  assert (H : forall l R, ssorted c3_cmp (map fst R) -> let R' := fold_left (fun R '(i, c) => map_set c3_cmp (ce_grid c) (set_insert Z.compare i (match map_find c3_cmp (ce_grid c) R with Some s => s | None => [] end)) R) l R in
     ssorted c3_cmp (map fst R') /\ forall g, In g (map fst R') <-> In g (map fst R) \/ exists i c, In (i, c) l /\ ce_grid c = g).
  { induction l as [|[i c] l IH]; intros R HR; cbn [fold_left]; [split; auto; intros g; split; [auto|intros [H|(i & c & [] & _)]; auto]|].
    set (v := set_insert _ _ _). destruct (IH (map_set c3_cmp (ce_grid c) v R)) as [I1 I2]; [apply (map_set_sorted c3_cmp_total); exact HR|]. split; auto. intros g. rewrite I2.
    assert (K := map_set_keys c3_cmp (ce_grid c) v R). unfold keys in K. rewrite K, (set_insert_In c3_cmp_total). split.
    - intros [[->|H]|(j & c' & H & E)]; [right; exists i, c; cbn; auto|auto|right; exists j, c'; cbn; auto].
    - intros [H|(j & c' & [H|H] & E)]; [auto| |right; eauto]. apply pair_equal_spec in H as [-> ->]. auto. }
  destruct (H (enum (m_cells m)) [] (ss_nil _)) as [H1 H2]. split; auto. intros g. rewrite H2. cbn. split.
  - intros [[]|(i & c & I & E)]. apply enum_In in I as [_ I]. apply nth_error_In in I. eauto.
  - intros (c & I & E). right. apply In_nth_error in I as [n I]. exists (Z.of_nat n), c. split; auto. apply enum_In. rewrite Nat2Z.id. split; [lia|auto].
Qed.
Lemma centroid_cells_ok m : pos3 (m_dx m) -> Forall (cell_in_grid m) (m_cells m) -> centroid_cells m = Some (map ce_grid (m_cells m)).
Proof.
  intros DX F. unfold centroid_cells. induction F as [|c l Hc Hl IH]; cbn [map sequence]; auto. destruct (c86_centroid_in_grid_cell DX Hc) as (q & -> & E). cbn [option_map]. rewrite IH, E. auto.
Qed.
(** So active_cells() is the set of grid cells of the cut cells, i.e. the keys of cells_by_grid_cell; active_cell_count() is their number; and
    active_cell_mask() is false exactly there. *)
Theorem c86_active_cells m : pos3 (m_dx m) -> Forall (cell_in_grid m) (m_cells m) ->
  active_cells m = Some (map fst (cells_by_grid_cell m)) /\ active_cell_count m = Some (Z.of_nat (length (cells_by_grid_cell m))).
Proof.
  intros DX F. unfold active_cell_count, active_cells. rewrite centroid_cells_ok by auto. cbn [option_map]. destruct (by_keys m) as [K1 K2].
  assert (E : set_of_list c3_cmp (map ce_grid (m_cells m)) = map fst (cells_by_grid_cell m)).
  { apply (ssorted_ext c3_cmp_total); auto; [apply (set_of_list_sorted c3_cmp_total)|]. intros g. rewrite (set_of_list_In c3_cmp_total), K2, in_map_iff. split; intros (c & A & B); eauto. }
  rewrite E, map_length. auto.
Qed.
Theorem c86_active_mask m : pos3 (m_dx m) -> Forall (cell_in_grid m) (m_cells m) -> (forall c, In c (m_cells m) -> in_grid (cshape m) (ce_grid c)) ->
  exists f, active_cell_mask m = Some f /\ forall g, f g = false <-> exists c, In c (m_cells m) /\ ce_grid c = g.
Proof.
  intros DX F G. unfold active_cell_mask. rewrite centroid_cells_ok by auto. assert (FB : forallb (in_c3 (cshape m)) (map ce_grid (m_cells m)) = true).
  { apply forallb_forall. intros g Hg. apply in_map_iff in Hg as (c & <- & Hc). specialize (G _ Hc). unfold in_grid in G. rewrite all3 in G. destruct (ce_grid c) as [[x y] z], (cshape m) as [[n k] l]. cbn in *.
    rewrite !andb_true_iff, !Z.leb_le, !Z.ltb_lt. lia. }
  rewrite FB. eexists. split; [reflexivity|]. intros g.
  assert (H : forall l (h : c3 -> bool), fold_left (fun g c x => if c3_eqb x c then false else g x) l h g = false <-> h g = false \/ In g l).
  { induction l as [|a l IH]; intros h; cbn [fold_left In]; [tauto|]. rewrite IH. destruct (c3_eqb g a) eqn:E.
    - apply c3_eqb_eq in E. subst. tauto.
    - split; [tauto|]. intros [H|[->|H]]; auto. rewrite (proj2 (c3_eqb_eq g g)) in E; congruence. }
  rewrite H, in_map_iff. split; [intros [H0|(c & A & B)]; [discriminate|eauto]|intros (c & A & B); eauto].
Qed.
(** Without the condition on the high planes the centroid rounds to the next grid cell: a flat cell on the plane x = 1 is reported at grid cell (1,0,0). *)
Definition flat_mesh : mesh3 :=
  mkMesh (0, 0, 0)%Qc (1, 1, 1)%Qc (3, 2, 2) [] [] (fun _ => true) [] [] [ex_face [4; 6; 7; 5] (AxialFace 0 1); ex_face [4; 6; 7; 5] (MeshFace 0)]
    [mkCutCell [(0, true); (1, false)] 0 0 (0, 0, 0)] [] [] [] [] [].
Theorem c86_flat_cell_refuted : active_cells flat_mesh = Some [(1, 0, 0)] /\ map fst (cells_by_grid_cell flat_mesh) = [(0, 0, 0)] /\
  forall f i c, In c (m_cells flat_mesh) -> cell_vertex flat_mesh c f i -> in_closed_cell flat_mesh (ce_grid c) (Vcol flat_mesh i).
Proof.
  split; [vm_compute; reflexivity|]. split; [reflexivity|]. intros f i c [<-|[]] ([<-|[<-|[]]] & _ & F & E & I); cbn in E; apply Some_inj in E; subst F; cbn in I;
  (repeat destruct I as [<-|I]; [..|destruct I]); intros d Hd; unfold Qcle; destruct d as [|[|[|d]]]; try lia; vm_compute; split; congruence.
Qed.
Example c86_example : pos3 (m_dx ex_mesh) /\ Forall (cell_in_grid ex_mesh) (m_cells ex_mesh) /\ active_cells ex_mesh = Some [(0, 0, 0)].
Proof.
  split; [intros [|[|[|d]]] Hd; try lia; reflexivity|]. split; [|vm_compute; reflexivity]. constructor; [|constructor]. constructor.
  - discriminate.
  - intros f s I. cbn in I. repeat destruct I as [I|I]; [..|destruct I]; apply pair_equal_spec in I as [<- _]; (split; [lia|]); eexists; (split; [reflexivity|discriminate]).
  - intros f i (If & _ & F & E & I). cbn in If. repeat destruct If as [<-|If]; [..|destruct If]; cbn in E; apply Some_inj in E; subst F; cbn in I;
    (repeat destruct I as [<-|I]; [..|destruct I]); intros d Hd; unfold Qcle; destruct d as [|[|[|d]]]; try lia; vm_compute; split; congruence.
  - intros d Hd. exists 0, 0. split; [|destruct d as [|[|[|d]]]; try lia; reflexivity]. split; [cbn; auto|]. split; [lia|]. eexists. split; [reflexivity|]. cbn. auto.
Qed.

(** ** C84: region labels of cells and faces *)
Lemma zput_length (A : Type) (l : list A) i x : length (zput l i x) = length l.
Proof. revert i. induction l as [|a l IH]; intros [|i]; cbn; auto. Qed.
Lemma nth_zput (A : Type) (l : list A) i x j d : (i < length l)%nat -> nth j (zput l i x) d = if (j =? i)%nat then x else nth j l d.
Proof. revert i j. induction l as [|a l IH]; intros [|i] [|j] H; cbn in *; try lia; auto. rewrite IH by lia. auto. Qed.
Lemma fold_flat (A B C : Type) (f : C -> B -> C) (g : A -> list B) l a : fold_left (fun c x => fold_left f (g x) c) l a = fold_left f (flat_map g l) a.
Proof. revert a. induction l as [|x l IH]; intros a; cbn; auto. rewrite fold_left_app. auto. Qed.
Lemma region_writes n l : ssorted Z.compare (map fst l) -> forall R0 R, Z.of_nat (length R0) = n ->
  fold_left (fun acc '(c, r) => match acc with Some l => if (0 <=? c) && (c <? n) then Some (zput l (Z.to_nat c) r) else None | None => None end) l (Some R0) = Some R ->
  length R = length R0 /\ forall i : Z, 0 <= i < n -> nth (Z.to_nat i) R 0 = match map_find Z.compare i l with Some r => r | None => nth (Z.to_nat i) R0 0 end.
Proof.
  induction l as [|[k r] l IH]; intros S R0 R L; cbn [fold_left].
  - intros E. apply Some_inj in E. subst. auto.
  - cbn [map fst] in S. inversion S as [|? ? F S']; subst. destruct ((0 <=? k) && (k <? Z.of_nat (length R0))) eqn:K.
    + intros E. apply andb_true_iff in K as [K1 K2]. apply Z.leb_le in K1. apply Z.ltb_lt in K2. destruct (IH S' (zput R0 (Z.to_nat k) r) R) as [I1 I2]; [rewrite zput_length; auto|auto|]. rewrite zput_length in I1. split; auto.
      intros i Hi. rewrite I2 by lia. cbn [map_find]. rewrite nth_zput by lia. destruct (Z.compare i k) eqn:C.
      * apply Z.compare_eq in C. subst. rewrite Nat.eqb_refl. assert (NF : map_find Z.compare k l = None); [|rewrite NF; auto].
        apply (map_find_None Zcompare_total); auto. intros I. rewrite Forall_forall in F. apply F in I. rewrite Z.compare_refl in I. discriminate.
      * assert (NF : map_find Z.compare i l = None). { apply (map_find_None Zcompare_total); auto. intros I. rewrite Forall_forall in F. apply F in I. rewrite Z.compare_lt_iff in *. lia. }
        rewrite NF. rewrite Z.compare_lt_iff in C. destruct (Nat.eqb_spec (Z.to_nat i) (Z.to_nat k)); [lia|auto].
      * rewrite Z.compare_gt_iff in C. destruct (map_find Z.compare i l); auto. destruct (Nat.eqb_spec (Z.to_nat i) (Z.to_nat k)); [lia|auto].
    + intros E. exfalso. clear - E. revert E. induction l as [|[? ?] l IH]; cbn [fold_left]; [discriminate|auto].
Qed.
(** regions(): one label per cell; the label stored with the exterior cell, the label of the cut cell, and 1 for exterior cells without an entry *)
Theorem c84_regions m R : ssorted Z.compare (map fst (m_regions m)) -> regions3 m = Some R ->
  Z.of_nat (length R) = cell_size m /\
  forall i, 0 <= i < cell_size m -> nth (Z.to_nat i) R 0 =
    match map_find Z.compare i (m_regions m) with
    | Some r => r
    | None => match nth_error (m_cells m) (Z.to_nat i) with Some c => ce_region c | None => 1 end
    end.
Proof.
  intros S. unfold regions3. set (R0 := map ce_region (m_cells m) ++ repeat 1 (length (m_cubes m))).
  assert (L0 : Z.of_nat (length R0) = cell_size m) by (unfold R0, cell_size, num_cut_cells; rewrite app_length, map_length, repeat_length; lia).
  assert (N0 : forall i, 0 <= i < cell_size m -> nth (Z.to_nat i) R0 0 = match nth_error (m_cells m) (Z.to_nat i) with Some c => ce_region c | None => 1 end).
  { intros i Hi. unfold R0. destruct (nth_error (m_cells m) (Z.to_nat i)) as [c|] eqn:E.
    - assert (Hl : (Z.to_nat i < length (m_cells m))%nat) by (apply nth_error_Some; congruence). rewrite app_nth1 by (rewrite map_length; auto). apply nth_error_nth. rewrite nth_error_map, E. auto.
    - apply nth_error_None in E. rewrite app_nth2 by (rewrite map_length; auto). rewrite map_length. apply nth_error_nth. rewrite nth_error_repeat. unfold cell_size, num_cut_cells in Hi. destruct (Nat.ltb_spec (Z.to_nat i - length (m_cells m)) (length (m_cubes m))); [auto|lia]. }
  intros E. destruct (@region_writes (cell_size m) _ S R0 R L0 E) as [A B]. split; [congruence|]. intros i Hi. rewrite B, N0 by auto. auto.
Qed.
(** it is defined (no write out of range) exactly if the labelled exterior cells exist *)
Theorem c84_regions_defined m : regions3 m <> None <-> (forall i r, In (i, r) (m_regions m) -> 0 <= i < cell_size m).
Proof.
  unfold regions3. generalize (map ce_region (m_cells m) ++ repeat 1 (length (m_cubes m))) as R0.
  assert (NN : forall l, fold_left (fun acc '(c, r) => match acc with Some l => if (0 <=? c) && (c <? cell_size m) then Some (zput l (Z.to_nat c) r) else None | None => None end) l (None : option (list Z)) = None)
    by (induction l as [|[? ?] l IH]; cbn; auto).
  induction (m_regions m) as [|[k r] l IH]; intros R0; cbn [fold_left]; [split; [intros _ i r []|discriminate]|].
  destruct ((0 <=? k) && (k <? cell_size m)) eqn:K.
  - apply andb_true_iff in K as [K1 K2]. apply Z.leb_le in K1. apply Z.ltb_lt in K2. rewrite IH. split; [intros H i r' [E|I]; [apply pair_equal_spec in E as [<- _]; lia|eauto]|intros H i r' I; apply (H i r'); cbn; auto].
  - rewrite NN. split; [congruence|]. intros H. specialize (H k r (or_introl eq_refl)). apply andb_false_iff in K. rewrite Z.leb_gt, Z.ltb_ge in K. lia.
Qed.
(** regions(true): 1 for a cell without input-mesh faces, 2 if more of them face outwards (sign true) than inwards, 3 otherwise *)
Definition mesh_sides (m : mesh3) (s : bool) (c : cut_cell) : nat := length (filter (fun '(f, b) => is_mesh_face m f && Bool.eqb b s) (ce_faces c)).
Theorem c84_sign_regions m i c : nth_error (m_cells m) i = Some c -> nth_error (regions_sign m) i =
  Some (if (mesh_sides m true c + mesh_sides m false c =? 0)%nat then 1 else if (mesh_sides m false c <? mesh_sides m true c)%nat then 2 else 3).
Proof.
  intros E. unfold regions_sign. rewrite nth_error_app1 by (rewrite map_length; apply nth_error_Some; congruence). rewrite nth_error_map, E. cbn [option_map]. f_equal. unfold sign_region.
  assert (H : forall l p n, fold_left (fun '(p, n) '(f, b) => if is_mesh_face m f then if b : bool then (p + 1, n) else (p, n + 1) else (p, n)) l (p, n) =
     (p + Z.of_nat (length (filter (fun '(f, b) => is_mesh_face m f && Bool.eqb b true) l)), n + Z.of_nat (length (filter (fun '(f, b) => is_mesh_face m f && Bool.eqb b false) l)))).
  { induction l as [|[f b] l IH]; intros p n; cbn [fold_left filter]; [f_equal; cbn; lia|]. destruct (is_mesh_face m f), b; cbn [andb Bool.eqb]; rewrite IH; cbn [length]; f_equal; lia. }
  rewrite H. fold (mesh_sides m true c). fold (mesh_sides m false c). destruct (Nat.eqb_spec (mesh_sides m true c + mesh_sides m false c) 0).
  - rewrite (proj2 (Z.ltb_ge _ _)) by lia. auto.
  - rewrite (proj2 (Z.ltb_lt _ _)) by lia. destruct (Nat.ltb_spec (mesh_sides m false c) (mesh_sides m true c)); [rewrite (proj2 (Z.ltb_lt _ _)) by lia|rewrite (proj2 (Z.ltb_ge _ _)) by lia]; auto.
Qed.
(** face_regions() *)
Lemma side_add_In s f p s' g : In g (side_get s' (side_add s f p)) <-> (s' = s /\ g = f) \/ In g (side_get s' p).
Proof. unfold side_add, side_get. destruct s, s'; cbn [fst snd]; rewrite ?(set_insert_In Zcompare_total); split; try tauto; intros [[? ?]|?]; auto; discriminate. Qed.
Lemma max_ge (l : list Z) : forall a x, In x (a :: l) -> x <= fold_left Z.max l a.
Proof.
  induction l as [|b l IH]; intros a x H; cbn [fold_left]; [destruct H as [<-|[]]; lia|].
  assert (M : Z.max a b <= fold_left Z.max l (Z.max a b)) by (apply IH; cbn; auto).
  destruct H as [<-|[<-|H]]; [lia|lia|apply IH; cbn; auto].
Qed.
Lemma max_in (l : list Z) a : In (fold_left Z.max l a) (a :: l).
Proof. revert a. induction l as [|b l IH]; intros a; cbn [fold_left]; [cbn; auto|]. destruct (IH (Z.max a b)) as [E|H]; [|cbn; auto]. rewrite <- E. cbn. destruct (Z.max_spec a b) as [[_ ->]|[_ ->]]; auto. Qed.
Definition fr_ops (m : mesh3) : list (Z * (Z * bool)) := flat_map (fun '(ci, c) => map (pair ci) (ce_faces c)) (enum (m_cells m)).
Definition fr_step (m : mesh3) (R : list Z) (acc : option (list sides)) (op : Z * (Z * bool)) : option (list sides) :=
  match acc, (if fst (snd op) <? 0 then None else nth_error (m_faces m) (Z.to_nat (fst (snd op)))) with
  | Some ret, Some f => let reg := nth (Z.to_nat (fst op)) R 0 in
      if (reg <? 0) then None else if is_mesh_id f then Some (zput ret (Z.to_nat reg) (side_add (snd (snd op)) (fst (snd op)) (nth (Z.to_nat reg) ret ([], [])))) else Some ret
  | _, _ => None end.
Lemma face_regions_ops m r0 R : regions3 m = Some (r0 :: R) ->
  face_regions m = fold_left (fr_step m (r0 :: R)) (fr_ops m) (let k := fold_left Z.max R r0 + 1 in if k <? 0 then None else Some (repeat (([], []) : sides) (Z.to_nat k))).
Proof.
  intros E. unfold face_regions, fr_ops. rewrite E. rewrite <- fold_flat. cbv zeta. match goal with |- fold_left _ _ ?X = fold_left _ _ ?Y => change Y with X; generalize X end.
  induction (enum (m_cells m)) as [|[ci c] l IH]; intros acc; cbn [fold_left]; auto. rewrite <- IH. f_equal. clear IH. revert acc. induction (ce_faces c) as [|[fi s] fs IHf]; intros acc; cbn [fold_left map]; auto.
Qed.
Lemma fr_fold m R ops : forall ret S, (forall ci fs, In (ci, fs) ops -> nth (Z.to_nat ci) R 0 < Z.of_nat (length ret)) ->
  fold_left (fr_step m R) ops (Some ret) = Some S ->
  length S = length ret /\ forall (r : nat) s f, In f (side_get s (nth r S ([], []))) <-> In f (side_get s (nth r ret ([], []))) \/
     exists ci F, In (ci, (f, s)) ops /\ 0 <= f /\ nth (Z.to_nat ci) R 0 = Z.of_nat r /\ nth_error (m_faces m) (Z.to_nat f) = Some F /\ is_mesh_id F = true.
Proof.
  assert (NN : forall l, fold_left (fr_step m R) l None = None) by (induction l; auto).
  induction ops as [|[ci [fi s0]] ops IH]; intros ret S B; cbn [fold_left].
  - intros E. apply Some_inj in E. subst. split; auto. intros r s f. split; [auto|intros [H|(? & ? & [] & _)]; auto].
  - unfold fr_step at 2. cbn [fst snd]. destruct (Z.ltb_spec fi 0); [rewrite NN; discriminate|]. destruct (nth_error (m_faces m) (Z.to_nat fi)) as [F|] eqn:EF; [|rewrite NN; discriminate].
    cbv zeta. destruct (Z.ltb_spec (nth (Z.to_nat ci) R 0) 0) as [?|P]; [rewrite NN; discriminate|]. set (reg := nth (Z.to_nat ci) R 0) in *.
    assert (BR : reg < Z.of_nat (length ret)) by (apply (B ci (fi, s0)); cbn; auto). destruct (is_mesh_id F) eqn:M.
    + intros E. destruct (IH _ _ ltac:(rewrite zput_length; intros; eapply B; cbn; eauto) E) as [I1 I2]. rewrite zput_length in I1. split; auto. intros r s f. rewrite I2, nth_zput by lia. clear I2.
      assert (X : In f (side_get s (if (r =? Z.to_nat reg)%nat then side_add s0 fi (nth (Z.to_nat reg) ret ([], [])) else nth r ret ([], []))) <-> (reg = Z.of_nat r /\ s = s0 /\ f = fi) \/ In f (side_get s (nth r ret ([], [])))).
      { destruct (Nat.eqb_spec r (Z.to_nat reg)) as [->|N]; [rewrite side_add_In|]; split; try tauto; [intros [[? ?]|?]; auto; left; repeat split; auto; lia|]. intros [(A & _)|?]; auto. lia. }
      rewrite X. split.
      * intros [[(A & -> & ->)|H0]|(cj & G & I & J)]; [right; exists ci, F; cbn; auto 10|auto|right; exists cj, G; cbn; auto].
      * intros [H0|(cj & G & [I|I] & J1 & J2 & J3 & J4)]; [auto| |right; exists cj, G; auto]. apply pair_equal_spec in I as [<- I]. apply pair_equal_spec in I as [<- <-]. left. left. auto.
    + intros E. destruct (IH _ _ ltac:(intros; eapply B; cbn; eauto) E) as [I1 I2]. split; auto. intros r s f. rewrite I2. split.
      * intros [H0|(cj & G & I & J)]; [auto|right; exists cj, G; cbn; auto].
      * intros [H0|(cj & G & [I|I] & J1 & J2 & J3 & J4)]; [auto| |right; exists cj, G; auto]. apply pair_equal_spec in I as [<- I]. apply pair_equal_spec in I as [<- <-]. congruence.
Qed.
(** face_regions() has one entry per label 0..max; f is on side s of region r exactly if f is an input-mesh face that a cell labelled r has with sign s *)
Theorem c84_face_regions m R S : regions3 m = Some R -> Z.of_nat (length R) = cell_size m -> face_regions m = Some S ->
  (forall r, In r R -> r < Z.of_nat (length S)) /\ (S <> [] -> In (Z.of_nat (length S) - 1) R) /\
  forall (r : nat) s f, In f (side_get s (nth r S ([], []))) <->
    exists i c F, nth_error (m_cells m) i = Some c /\ nth_error R i = Some (Z.of_nat r) /\ In (f, s) (ce_faces c) /\ 0 <= f /\ nth_error (m_faces m) (Z.to_nat f) = Some F /\ exists t, cf_id F = MeshFace t.
Proof.
  intros ER LR ES. destruct R as [|r0 R]; [unfold face_regions in ES; rewrite ER in ES; discriminate|]. rewrite (face_regions_ops m ER) in ES. cbv zeta in ES.
  assert (NN : forall l, fold_left (fr_step m (r0 :: R)) l None = None) by (induction l; auto).
  destruct (Z.ltb_spec (fold_left Z.max R r0 + 1) 0); [rewrite NN in ES; discriminate|]. set (mx := fold_left Z.max R r0) in *.
  assert (OPS : forall ci fs, In (ci, fs) (fr_ops m) <-> 0 <= ci /\ exists c, nth_error (m_cells m) (Z.to_nat ci) = Some c /\ In fs (ce_faces c)).
  { intros ci fs. unfold fr_ops. rewrite in_flat_map. split.
    - intros ([cj c] & I & J). apply in_map_iff in J as (x & E & J). apply pair_equal_spec in E as [-> ->]. apply enum_In in I as [I1 I2]. eauto.
    - intros (P & c & I & J). exists (ci, c). split; [apply enum_In; auto|]. apply in_map_iff. eauto. }
  assert (IN : forall i c, nth_error (m_cells m) i = Some c -> (i < length (r0 :: R))%nat). { intros i c E. assert (i < length (m_cells m))%nat by (apply nth_error_Some; congruence). unfold cell_size, num_cut_cells in LR. lia. }
  destruct (@fr_fold m (r0 :: R) (fr_ops m) (repeat ([], []) (Z.to_nat (mx + 1))) S) as [L H1]; auto.
  { intros ci fs I. apply OPS in I as (P & c & E & _). rewrite repeat_length. assert (nth (Z.to_nat ci) (r0 :: R) 0 <= mx); [|lia]. apply max_ge. apply nth_In. eauto. }
  rewrite repeat_length in L. split; [|split].
  - intros r I. apply max_ge in I. fold mx in I. lia.
  - intros NE. assert (length S <> 0)%nat by (destruct S; cbn; congruence). replace (Z.of_nat (length S) - 1) with mx by lia. apply max_in.
  - intros r s f. rewrite H1. assert (Z0 : nth r (repeat (([], []) : sides) (Z.to_nat (mx + 1))) ([], []) = ([], [])) by (destruct (nth_in_or_default r (repeat (([], []) : sides) (Z.to_nat (mx + 1))) ([], [])) as [I|I]; [apply repeat_spec in I; auto|auto]).
    match goal with |- In f (side_get s ?X) \/ _ <-> _ => change X with (nth r (repeat (([], []) : sides) (Z.to_nat (mx + 1))) ([], [])) end.
    rewrite Z0. split.
    + intros [I|(ci & F & I & P & E & EF & M)]; [destruct s; destruct I|]. apply OPS in I as (Pc & c & Ec & J). exists (Z.to_nat ci), c, F. split; auto. split.
      * rewrite <- E. apply nth_error_nth'. eauto.
      * split; auto. split; auto. split; auto. unfold is_mesh_id in M. destruct (cf_id F); [eauto|discriminate].
    + intros (i & c & F & Ec & Er & J & P & EF & t & M). right. exists (Z.of_nat i), F. rewrite Nat2Z.id. split; [apply OPS; split; [lia|]; rewrite Nat2Z.id; eauto|]. split; auto. split; [apply nth_error_nth; auto|]. split; auto. unfold is_mesh_id. rewrite M. auto.
Qed.
(** orig_face_regions(): the input triangles the faces come from *)
Lemma orig_side_In m fs : forall t, In t (orig_side m fs) <-> exists f, In f fs /\ face_id_of m f = Some t.
Proof.
  intros t. unfold orig_side. assert (H : forall l s, In t (fold_left (fun s f => match face_id_of m f with Some t => set_insert Z.compare t s | None => s end) l s) <-> In t s \/ exists f, In f l /\ face_id_of m f = Some t).
  { induction l as [|f l IH]; intros s; cbn [fold_left]; [split; [auto|intros [H|(f & [] & _)]; auto]|]. rewrite IH. destruct (face_id_of m f) as [u|] eqn:E.
    - rewrite (set_insert_In Zcompare_total). split.
      + intros [[->|H]|(g & I & J)]; [right; exists f; cbn; auto|auto|right; exists g; cbn; auto].
      + intros [H|(g & [->|I] & J)]; [auto| |right; eauto]. left. left. congruence.
    - split; [intros [H|(g & I & J)]; [auto|right; exists g; cbn; auto]|]. intros [H|(g & [->|I] & J)]; [auto|congruence|right; eauto]. }
  rewrite H. split; [intros [[]|?]; auto|auto].
Qed.
Theorem c84_orig_face_regions m S O : face_regions m = Some S -> orig_face_regions m = Some O -> length O = length S /\
  forall (r : nat) s t, In t (side_get s (nth r O ([], []))) <-> exists f F, In f (side_get s (nth r S ([], []))) /\ nth_error (m_faces m) (Z.to_nat f) = Some F /\ cf_id F = MeshFace t.
Proof.
  intros ES EO. unfold orig_face_regions in EO. rewrite ES in EO. cbn [option_map] in EO. apply Some_inj in EO. subst O. split; [apply map_length|]. intros r s t.
  set (g := fun p : sides => (orig_side m (fst p), orig_side m (snd p))). assert (E : nth r (map g S) ([], []) = g (nth r S ([], []))) by (change (([], []) : sides) with (g ([], [])) at 1; apply map_nth).
  match goal with |- In t (side_get s ?X) <-> _ => change X with (nth r (map g S) ([], [])) end. rewrite E.
  assert (X : side_get s (g (nth r S ([], []))) = orig_side m (side_get s (nth r S ([], [])))) by (destruct s; reflexivity). rewrite X, orig_side_In. unfold face_id_of. split.
  - intros (f & I & J). destruct (nth_error (m_faces m) (Z.to_nat f)) as [F|] eqn:EF; [|discriminate]. exists f, F. split; auto. split; auto. destruct (cf_id F); congruence.
  - intros (f & F & I & EF & M). exists f. split; auto. rewrite EF, M. auto.
Qed.
Example c84_example : ssorted Z.compare (map fst (m_regions ex_mesh)) /\ regions3 ex_mesh = Some [0; 0] /\ face_regions ex_mesh = Some [([5], [])] /\ orig_face_regions ex_mesh = Some [([0], [])].
Proof. split; [repeat constructor|]. vm_compute. auto. Qed.
