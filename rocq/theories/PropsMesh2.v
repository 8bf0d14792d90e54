(** Properties C38, C62-C65 and the 2D part of C45: CutCellMesh<2>. *)
From Verif Require Import Base Num CoordMask Vertex VertexProofs Grid SmallestEdge AdaptiveGrid Mesh ExteriorGrid ExteriorProofs PropsExterior Sparse Mesh2.
Local Open Scope Z_scope.

(** ** auxiliary *)
Lemma combine_zseq (A : Type) (l : list A) : forall s i x, In (i, x) (combine (map Z.of_nat (seq s (length l))) l) <-> Z.of_nat s <= i /\ nth_error l (Z.to_nat i - s) = Some x.
Proof.
  induction l as [|a l IH]; intros s i x; cbn [length seq map combine In].
  - split; [intros []|]. intros [_ H]. destruct (Z.to_nat i - s)%nat; discriminate.
  - rewrite IH. split.
    + intros [E|[H1 H2]].
      * apply pair_equal_spec in E as [<- <-]. split; [lia|]. rewrite Nat2Z.id, Nat.sub_diag. auto.
      * split; [lia|]. replace (Z.to_nat i - s)%nat with (S (Z.to_nat i - S s)) by lia. auto.
    + intros [H1 H2]. destruct (Z.eq_dec i (Z.of_nat s)) as [->|N]; [left|right].
      * rewrite Nat2Z.id, Nat.sub_diag in H2. cbn in H2. congruence.
      * split; [lia|]. replace (Z.to_nat i - s)%nat with (S (Z.to_nat i - S s)) in H2 by lia. auto.
Qed.
Lemma enum_In (A : Type) (l : list A) i x : In (i, x) (enum l) <-> 0 <= i /\ nth_error l (Z.to_nat i) = Some x.
Proof. unfold enum, zseq. rewrite Nat2Z.id. rewrite combine_zseq. rewrite Nat.sub_0_r. cbn. tauto. Qed.
Lemma enum_NoDup (A : Type) (l : list A) : NoDup (enum l).
Proof.
  unfold enum. apply NoDup_map_inv with (f := fst). assert (E : map fst (combine (zseq (Z.of_nat (length l))) l) = zseq (Z.of_nat (length l))).
  { unfold zseq. rewrite Nat2Z.id. generalize 0%nat. induction l as [|a l IH]; intros s; cbn; auto. f_equal. apply IH. }
  rewrite E. apply zseq_nodup.
Qed.

(** ** C38: point location *)
(** the grid cell with coordinate c is the half-open box [origin + c dx, origin + (c+1) dx) *)
Definition in_grid_cell (m : mesh2) (c : coord) (p : q2) : Prop :=
  exists x y, c = [x; y] /\ (fst (m2_origin m) + Z2Qc x * fst (m2_dx m) <= fst p /\ fst p < fst (m2_origin m) + Z2Qc (x + 1) * fst (m2_dx m) /\
                             snd (m2_origin m) + Z2Qc y * snd (m2_dx m) <= snd p /\ snd p < snd (m2_origin m) + Z2Qc (y + 1) * snd (m2_dx m))%Qc.
Local Open Scope Qc_scope.
Lemma floor_cell o d x k : 0 < d -> (qfloor ((x - o) / d) = k <-> o + Z2Qc k * d <= x /\ x < o + Z2Qc (k + 1) * d).
Proof.
  intros D. assert (DN : d <> 0) by (intros ->; revert D; apply Qclt_not_eq || (intros H; exact (Qclt_not_eq _ _ H eq_refl))). set (t := (x - o) / d). assert (E : x = o + t * d) by (unfold t; field; auto). rewrite E.
  rewrite Z2Qc_plus, Z2Qc_1. assert (M : forall a b, a <= b <-> a * d <= b * d). { intros a b. split; [intros; apply Qcmult_le_compat_r; auto; apply Qclt_le_weak; auto|]. intros H. destruct (Qclt_le_dec b a) as [L|L]; auto.
    apply (Qcmult_lt_compat_r _ _ _ D) in L. exfalso. apply (Qcle_not_lt _ _ H). auto. }
  assert (M' : forall a b, a < b <-> a * d < b * d). { intros a b. split; [apply Qcmult_lt_compat_r; auto|]. intros H. destruct (Qclt_le_dec a b) as [L|L]; auto. apply M in L. exfalso. apply (Qcle_not_lt _ _ L). auto. }
  split.
  - intros <-. destruct (qfloor_spec t) as [H1 H2]. apply M in H1. apply M' in H2. split; qc_lra.
  - intros [H1 H2]. apply qfloor_unique; [apply M|apply M']; qc_lra.
Qed.
Lemma grid_coord_spec m p c : 0 < fst (m2_dx m) -> 0 < snd (m2_dx m) -> (grid_coord m p = c <-> in_grid_cell m c p).
Proof.
  intros D0 D1. unfold grid_coord, in_grid_cell. split.
  - intros <-. eexists _, _. split; [reflexivity|]. assert (A := proj1 (floor_cell (fst (m2_origin m)) _ (fst p) _ D0) eq_refl). assert (B := proj1 (floor_cell (snd (m2_origin m)) _ (snd p) _ D1) eq_refl). tauto.
  - intros (x & y & -> & H1 & H2 & H3 & H4). f_equal; [|f_equal]; apply floor_cell; auto.
Qed.
Local Close Scope Qc_scope.
Definition owners (m : mesh2) (c : coord) : list Z := match map_find Z.compare (ravel (m2_cells m) c) (m2_owner m) with Some cs => cs | None => [] end.
(** the face numbered k, when there is one *)
Definition is_face (m : mesh2) (k : Z) (f : cut_face2) : Prop := 0 <= k /\ nth_error (m2_faces m) (Z.to_nat k) = Some f.
Definition owners_valid (m : mesh2) : Prop := forall c k, In k (owners m c) -> exists f, is_face m k f.
Lemma is_face_range m k f : is_face m k f -> 0 <= k < num_cutfaces m.
Proof. intros [H1 H2]. split; auto. assert (Z.to_nat k < length (m2_faces m))%nat by (apply nth_error_Some; congruence). unfold num_cutfaces. lia. Qed.
Lemma in_cell_face wn m p k f : is_face m k f -> in_cell wn m p k = face_inside wn f p.
Proof. intros [H1 H2]. unfold in_cell. rewrite (proj2 (Z.ltb_ge k 0)) by auto. rewrite H2. auto. Qed.
(** winding number of all loops of the face about p exceeds one half *)
Definition contains (wn : list Z -> q2 -> Qc) (f : cut_face2) (p : q2) : Prop := (qhalf < lsum (fun l => wn l p) (f2_loops f))%Qc.
Lemma inside_contains wn f p : face_inside wn f p = true <-> contains wn f p.
Proof.
  unfold face_inside, contains, face_winding. rewrite qltb_lt. assert (E : forall l w, fold_left (fun w l => w + wn l p)%Qc l w = (w + lsum (fun l => wn l p) l)%Qc).
  { induction l as [|a l IH]; intros w; cbn [fold_left lsum]; [ring|]. rewrite IH. ring. }
  rewrite E. replace (0 + lsum (fun l => wn l p) (f2_loops f))%Qc with (lsum (fun l => wn l p) (f2_loops f)) by ring. tauto.
Qed.
Theorem c38_point_location wn m p c : (0 < fst (m2_dx m))%Qc -> (0 < snd (m2_dx m))%Qc -> owners_valid m -> in_grid_cell m c p ->
  (in_shape (m2_cells m) c = false -> cell_index2 wn m p = -2) /\
  (exterior (m2_cells m) (m2_mask m) c -> exists i, nth_error (cell_coords (m2_cells m) (m2_mask m)) i = Some c /\ cell_index2 wn m p = Z.of_nat i + num_cutfaces m) /\
  (in_shape (m2_cells m) c = true -> m2_mask m c = false ->
     (cell_index2 wn m p = -1 /\ forall k f, In k (owners m c) -> is_face m k f -> ~ contains wn f p) \/
     (exists k f, cell_index2 wn m p = k /\ In k (owners m c) /\ is_face m k f /\ contains wn f p)).
Proof.
  intros D0 D1 OV HC. apply grid_coord_spec in HC; auto. unfold cell_index2. rewrite HC. destruct (c33_index_bijection (m2_cells m) (m2_mask m)) as (_ & B & _ & BN). split; [|split].
  - intros ->. auto.
  - intros E. destruct E as [E1 E2] eqn:?. rewrite E1. cbn [negb]. destruct (B c (conj E1 E2)) as [R N]. rewrite (proj2 (Z.eqb_neq _ (-1))) by lia. eexists. split; [exact N|]. lia.
  - intros HS HM. rewrite HS. cbn [negb]. rewrite (BN c) by (intros [_ X]; congruence). cbn [Z.eqb Pos.eqb]. fold (owners m c).
    assert (E : match map_find Z.compare (ravel (m2_cells m) c) (m2_owner m) with Some cs => match find (in_cell wn m p) cs with Some k => k | None => -1 end | None => -1 end
                = match find (in_cell wn m p) (owners m c) with Some k => k | None => -1 end) by (unfold owners; destruct (map_find _ _ _); auto).
    rewrite E. clear E. destruct (find (in_cell wn m p) (owners m c)) as [k|] eqn:F.
    + right. apply find_some in F as [I F]. destruct (OV c k I) as [f Hf]. exists k, f. rewrite (in_cell_face wn m p k f Hf) in F. rewrite <- inside_contains. auto.
    + left. split; auto. intros k f I Hf. rewrite <- inside_contains, <- (in_cell_face wn m p k f Hf). assert (N := find_none _ _ F k I). congruence.
Qed.
(** the three outcomes are distinguishable, and exactly points outside every grid cell get -2 *)
Theorem c38_codes wn m p : (0 < fst (m2_dx m))%Qc -> (0 < snd (m2_dx m))%Qc -> owners_valid m ->
  (cell_index2 wn m p = -2 <-> ~ exists c, in_grid_cell m c p /\ in_shape (m2_cells m) c = true) /\
  (num_cutfaces m <= cell_index2 wn m p <-> exists c, in_grid_cell m c p /\ exterior (m2_cells m) (m2_mask m) c) /\
  -2 <= cell_index2 wn m p < num_faces2 m.
Proof.
  intros D0 D1 OV. set (c := grid_coord m p). assert (HC : in_grid_cell m c p) by (apply grid_coord_spec; auto).
  assert (U : forall c', in_grid_cell m c' p -> c' = c) by (intros c' H; apply grid_coord_spec in H; auto).
  destruct (c38_point_location wn m p c D0 D1 OV HC) as (A1 & A2 & A3). destruct (c33_index_bijection (m2_cells m) (m2_mask m)) as (LN & B & B' & BN).
  assert (NF : 0 <= num_cutfaces m) by (unfold num_cutfaces; lia). assert (NE : 0 <= ext_cells m) by (unfold ext_cells; rewrite <- LN; lia).
  assert (EX : forall c', exterior (m2_cells m) (m2_mask m) c' -> in_shape (m2_cells m) c' = true) by (intros c' [H _]; auto).
  unfold num_faces2. destruct (in_shape (m2_cells m) c) eqn:S; [destruct (m2_mask m c) eqn:M|].
  - destruct (A2 (conj S M)) as (i & Hi & ->). assert (i < length (cell_coords (m2_cells m) (m2_mask m)))%nat by (apply nth_error_Some; congruence). unfold ext_cells in *. split; [|split]; [split; [lia|intros []; eauto]|split; [intros _; exists c; split; auto; split; auto|lia]|lia].
  - destruct (A3 eq_refl eq_refl) as [[-> _]|(k & f & -> & I & Hf & _)]; [|apply is_face_range in Hf]; (split; [|split]; [split; [lia|intros []; eauto]|split; [lia|intros (c' & H1 & [H2 H3]); apply U in H1; congruence]|lia]).
  - rewrite (A1 eq_refl). split; [|split]; [split; auto; intros _ (c' & H1 & H2); apply U in H1; congruence|split; [lia|intros (c' & H1 & [H2 H3]); apply U in H1; congruence]|lia].
Qed.
(** non-vacuity: a 2x1 grid whose left cell is cut into one face and whose right cell is exterior *)
Definition loop_left : list Z := [0; 2; 3; 1].
Definition sample2 : mesh2 := mkMesh2 (0, 0)%Qc (1, 1)%Qc [2; 1] []
  [mkEdge2 [Some 0; None] (0, 1) (AxialEdge 0 0) (Some (-2, false)); mkEdge2 [Some 1; None] (2, 3) (AxialEdge 0 1) (Some (1, true));
   mkEdge2 [None; Some 0] (0, 2) (AxialEdge 1 0) (Some (-2, false)); mkEdge2 [None; Some 1] (1, 3) (AxialEdge 1 1) (Some (-2, false))]
  [mkFace2 [loop_left] 0] (fun c => at0 c 0 =? 1) [(0, [0])] [(0, [(0, true); (1, false); (2, false); (3, true)])] [0].
(** winding number of the unit square loop *)
Definition sample_wn (l : list Z) (p : q2) : Qc := if qltb 0 (fst p) && qltb (fst p) 1 && qltb 0 (snd p) && qltb (snd p) 1 then 1%Qc else 0%Qc.
Example c38_example : owners_valid sample2 /\ map (cell_index2 sample_wn sample2) [(qhalf, qhalf); ((1 + qhalf)%Qc, qhalf); ((1 + 1 + 1)%Qc, qhalf); (0%Qc, 0%Qc)] = [0; 1; -2; -1].
Proof.
  split.
  - intros c k. unfold owners. cbn [m2_owner sample2 map_find m2_cells]. destruct (ravel [2; 1] c ?= 0) eqn:E; cbn; try tauto. intros [<-|[]]. exists (mkFace2 [loop_left] 0). split; [lia|reflexivity].
  - vm_compute. reflexivity.
Qed.

(** ** C62: in_cell *)
(** for a cut face it is the winding test, and the cell found by point location passes it *)
Theorem c62_cut_faces wn m p k f : is_face m k f -> (in_cell wn m p k = true <-> contains wn f p).
Proof. intros H. rewrite (in_cell_face _ _ _ _ _ H). apply inside_contains. Qed.
Theorem c62_located_partial wn m p : (0 < fst (m2_dx m))%Qc -> (0 < snd (m2_dx m))%Qc -> owners_valid m -> 0 <= cell_index2 wn m p -> in_cell wn m p (cell_index2 wn m p) = true.
Proof.
  intros D0 D1 OV H. set (c := grid_coord m p). assert (HC : in_grid_cell m c p) by (apply grid_coord_spec; auto).
  destruct (c38_point_location wn m p c D0 D1 OV HC) as (A1 & A2 & A3). destruct (in_shape (m2_cells m) c) eqn:S; [|rewrite (A1 eq_refl) in H; lia].
  destruct (m2_mask m c) eqn:M.
  - destruct (A2 (conj S M)) as (i & Hi & E). unfold in_cell. rewrite (proj2 (Z.ltb_ge _ 0)) by auto. destruct (nth_error (m2_faces m) _) eqn:N.
    + assert (Z.to_nat (cell_index2 wn m p) < length (m2_faces m))%nat by (apply nth_error_Some; congruence). unfold num_cutfaces in E. lia.
    + unfold ext_index_at. fold c. destruct (c33_index_bijection (m2_cells m) (m2_mask m)) as (_ & B & _). destruct (B c (conj S M)). lia.
  - destruct (A3 eq_refl eq_refl) as [[E _]|(k & f & E & I & Hf & HI)]; [lia|]. rewrite E. apply (c62_cut_faces wn m p k f Hf). auto.
Qed.
(** refuted: for a point of some exterior cell, in_cell answers true for EVERY index that is not a cut face, negative and out-of-range ones included *)
Theorem c62_refuted wn m p c : (0 < fst (m2_dx m))%Qc -> (0 < snd (m2_dx m))%Qc -> in_grid_cell m c p -> exterior (m2_cells m) (m2_mask m) c ->
  forall idx, idx < 0 \/ num_cutfaces m <= idx -> in_cell wn m p idx = true.
Proof.
  intros D0 D1 HC E idx HI. apply grid_coord_spec in HC; auto. destruct (c33_index_bijection (m2_cells m) (m2_mask m)) as (_ & B & _). destruct (B c E) as [R _].
  assert (G : 0 <=? ext_index_at m p = true) by (unfold ext_index_at; rewrite HC; apply Z.leb_le; lia).
  unfold in_cell. destruct (Z.ltb_spec idx 0); [exact G|]. assert (N : nth_error (m2_faces m) (Z.to_nat idx) = None) by (apply nth_error_None; unfold num_cutfaces in HI; lia). rewrite N. exact G.
Qed.
(** two different exterior cells claim the same point *)
Example c62_example : let m := mkMesh2 (0, 0)%Qc (1, 1)%Qc [2; 1] [] [] [] (fun _ => true) [] [] [0; 0] in
  cell_index2 sample_wn m (qhalf, qhalf) = 0 /\ in_cell sample_wn m (qhalf, qhalf) 1 = true /\ in_cell sample_wn m (qhalf, qhalf) (-7) = true.
Proof. vm_compute. auto. Qed.

(** ** C63: boundary loop of an exterior cell *)
Definition twice_area (ps : list q2) : Qc :=
  match ps with
  | [] => 0%Qc
  | p0 :: _ => lsum (fun '(a, b) => fst a * snd b - fst b * snd a)%Qc (combine ps (tl ps ++ [p0]))
  end.
Lemma vertex2_grid m x y : length (m2_cells m) = 2%nat -> in_shape (vshape2 m) [x; y] = true ->
  vertex2 m (ravel (vshape2 m) [x; y]) = Some (fst (m2_origin m) + fst (m2_dx m) * Z2Qc x, snd (m2_origin m) + snd (m2_dx m) * Z2Qc y)%Qc.
Proof.
  intros L H. unfold vertex2, masked_vertex. destruct (ravel_range _ _ H). rewrite (proj2 (Z.ltb_ge _ 0)), (proj2 (Z.ltb_lt _ _)) by lia. rewrite unravel_ravel by auto. unfold world, vertex_of_coord, pos. cbn. f_equal. f_equal; ring.
Qed.
(** the loop visits the four corners of its grid cell, each once, along grid edges *)
Theorem c63_exterior_corners m i c : length (m2_cells m) = 2%nat -> nth_error (cell_coords (m2_cells m) (m2_mask m)) i = Some c ->
  exists x y l, c = [x; y] /\ cell2 m (Z.of_nat i + num_cutfaces m) = Some [l] /\ NoDup l /\
  map (vertex2 m) l = map (fun '(a, b) => Some (fst (m2_origin m) + fst (m2_dx m) * Z2Qc a, snd (m2_origin m) + snd (m2_dx m) * Z2Qc b)%Qc) [(x, y); (x, y + 1); (x + 1, y + 1); (x + 1, y)].
Proof.
  intros L H. destruct (c33_index_bijection (m2_cells m) (m2_mask m)) as (LN & _ & B' & _). destruct (B' _ _ H) as [[E1 E2] _].
  assert (i < length (cell_coords (m2_cells m) (m2_mask m)))%nat by (apply nth_error_Some; congruence).
  assert (LC : length c = 2%nat) by (rewrite (in_shape_length _ _ E1); auto). destruct c as [|x [|y [|? ?]]]; try discriminate. exists x, y.
  assert (LV : m2_cells m = [nth 0 (m2_cells m) 0; nth 1 (m2_cells m) 0]). { destruct (m2_cells m) as [|a [|b [|? ?]]]; try discriminate. auto. }
  eexists. split; [auto|]. unfold cell2. rewrite (proj2 (Z.ltb_ge _ (num_cutfaces m))) by lia. replace (Z.of_nat i + num_cutfaces m - num_cutfaces m) with (Z.of_nat i) by lia.
  unfold ext_cells. rewrite <- LN, (proj2 (Z.ltb_lt _ _)) by lia. rewrite Nat2Z.id, H. unfold at0. cbn [nth].
  assert (IS : forall a b, 0 <= a <= 1 -> 0 <= b <= 1 -> in_shape (vshape2 m) [x + a; y + b] = true).
  { intros a b Ha Hb. unfold vshape2. rewrite LV in E1 |- *. cbn in E1 |- *. apply andb_true_iff in E1 as [E1 E3]. apply andb_true_iff in E3 as [E3 _]. lia. }
  assert (I00 := IS 0 0 ltac:(lia) ltac:(lia)). assert (I01 := IS 0 1 ltac:(lia) ltac:(lia)). assert (I11 := IS 1 1 ltac:(lia) ltac:(lia)). assert (I10 := IS 1 0 ltac:(lia) ltac:(lia)).
  rewrite !Z.add_0_r in I00; rewrite Z.add_0_r in I01; rewrite Z.add_0_r in I10. split; [reflexivity|]. split.
  - cbn [map]. assert (NE : forall a b, in_shape (vshape2 m) a = true -> in_shape (vshape2 m) b = true -> a <> b -> ravel (vshape2 m) a <> ravel (vshape2 m) b) by (intros a b Ha Hb N E; apply N; eapply ravel_inj; eauto).
    repeat match goal with |- NoDup (_ :: _) => apply NoDup_cons | |- NoDup [] => apply NoDup_nil end; cbn [In]; intros X; repeat destruct X as [X|X]; try exact X; revert X; apply NE; auto; intros [=]; lia.
  - cbn [map]. rewrite !vertex2_grid by auto. reflexivity.
Qed.
(** refuted: its signed area is minus the cell area, so the loop runs clockwise, against the counter-clockwise convention the winding test (> 1/2) relies on *)
Theorem c63_orientation_refuted m i c : length (m2_cells m) = 2%nat -> nth_error (cell_coords (m2_cells m) (m2_mask m)) i = Some c ->
  exists l ps, cell2 m (Z.of_nat i + num_cutfaces m) = Some [l] /\ map (vertex2 m) l = map Some ps /\
  twice_area ps = (- (Z2Qc 2 * (fst (m2_dx m) * snd (m2_dx m))))%Qc /\ ((0 < fst (m2_dx m))%Qc -> (0 < snd (m2_dx m))%Qc -> (twice_area ps < 0)%Qc).
Proof.
  intros L H. destruct (c63_exterior_corners m i c L H) as (x & y & l & -> & E & _ & V). exists l, (map (fun '(a, b) => (fst (m2_origin m) + fst (m2_dx m) * Z2Qc a, snd (m2_origin m) + snd (m2_dx m) * Z2Qc b)%Qc) [(x, y); (x, y + 1); (x + 1, y + 1); (x + 1, y)]).
  split; auto. split; [rewrite V; reflexivity|]. match goal with |- ?a = ?b /\ _ => assert (A : a = b) end.
  { cbn [map twice_area tl app combine lsum fst snd]. rewrite !Z2Qc_plus, Z2Qc_1. replace (Z2Qc 2) with (1 + 1)%Qc by (apply Qc_is_canon; reflexivity). ring. }
  split; auto. rewrite A. intros D0 D1. assert (P : (0 < fst (m2_dx m) * snd (m2_dx m))%Qc) by (replace 0%Qc with (0 * snd (m2_dx m))%Qc by ring; apply Qcmult_lt_compat_r; auto).
  replace (Z2Qc 2) with (1 + 1)%Qc by (apply Qc_is_canon; reflexivity). qc_lra.
Qed.
Example c63_example : cell2 sample2 1 = Some [[2; 3; 5; 4]] /\ cell2 sample2 0 = Some [loop_left] /\ cell2 sample2 7 = Some [] /\ cell2 sample2 (-1) = None.
Proof. vm_compute. auto. Qed.

(** ** C64: the 2D boundary operator *)
(** what generation guarantees about the incidence data: every face boundary entry names an existing edge and face, each pair once; an external cell is an exterior grid cell *)
Record incidence_ok (m : mesh2) : Prop := {
  ok_faces : NoDup (map fst (m2_fbm m));
  ok_edges : forall f es, In (f, es) (m2_fbm m) -> NoDup (map fst es) /\ 0 <= f < num_cutfaces m /\ forall e s, In (e, s) es -> 0 <= e < num_cutedges m;
  ok_ext : forall e o s, In e (m2_edges m) -> e2_ext e = Some (o, s) -> 0 <= o -> exterior (m2_cells m) (m2_mask m) (unravel (m2_cells m) o) }.
(** is (edge e, face f) in the boundary with orientation s *)
Definition bounds (m : mesh2) (f e : Z) (s : bool) : Prop := exists es, In (f, es) (m2_fbm m) /\ In (e, s) es.
Definition is_edge (m : mesh2) (i : Z) (e : cut_edge2) : Prop := 0 <= i /\ nth_error (m2_edges m) (Z.to_nat i) = Some e.
Definition keep (m : mesh2) (dom : bool) (e : Z) : bool := dom || negb (match nth_error (m2_edges m) (Z.to_nat e) with Some ed => is_domain_edge ed | None => false end).
Definition face_part (m : mesh2) (dom : bool) : list triplet :=
  flat_map (fun '(f, es) => flat_map (fun '(e, s) => if keep m dom e then [(e, f, sgnQ s)] else []) es) (m2_fbm m).
Lemma face_triplets_eq m dom : incidence_ok m -> face_triplets m dom = Some (face_part m dom).
Proof.
  intros OK. unfold face_triplets, face_part. assert (G : forall l acc, incl l (m2_fbm m) ->
    fold_left (fun acc '(f, es) => fold_left (fun acc '(e, s) => match acc, (if e <? 0 then None else nth_error (m2_edges m) (Z.to_nat e)) with
      | Some l, Some ed => Some (if dom || negb (is_domain_edge ed) then l ++ [(e, f, sgnQ s)] else l) | _, _ => None end) es acc) l (Some acc)
    = Some (acc ++ flat_map (fun '(f, es) => flat_map (fun '(e, s) => if keep m dom e then [(e, f, sgnQ s)] else []) es) l)).
  { induction l as [|[f es] l IH]; intros acc HI; cbn [fold_left flat_map]; [rewrite app_nil_r; auto|].
    assert (R : forall e s, In (e, s) es -> 0 <= e < num_cutedges m) by (apply (ok_edges m OK f es); apply HI; cbn; auto).
    assert (G2 : forall es' acc, incl es' es -> fold_left (fun acc '(e, s) => match acc, (if e <? 0 then None else nth_error (m2_edges m) (Z.to_nat e)) with
      | Some l, Some ed => Some (if dom || negb (is_domain_edge ed) then l ++ [(e, f, sgnQ s)] else l) | _, _ => None end) es' (Some acc) = Some (acc ++ flat_map (fun '(e, s) => if keep m dom e then [(e, f, sgnQ s)] else []) es')).
    { induction es' as [|[e s] es' IH']; intros acc0 HI'; cbn [fold_left flat_map]; [rewrite app_nil_r; auto|]. destruct (R e s) as [R1 R2]; [apply HI'; cbn; auto|].
      rewrite (proj2 (Z.ltb_ge e 0)) by auto. unfold keep at 1. destruct (nth_error (m2_edges m) (Z.to_nat e)) as [ed|] eqn:N; [|apply nth_error_None in N; unfold num_cutedges in R2; lia].
      rewrite IH' by (intros x Hx; apply HI'; cbn; auto). f_equal. destruct (dom || negb (is_domain_edge ed)); cbn [app]; rewrite <- ?app_assoc; auto. }
    rewrite G2 by apply incl_refl. rewrite IH by (intros x Hx; apply HI; cbn; auto). rewrite app_assoc. auto. }
  rewrite G by apply incl_refl. auto.
Qed.
Lemma face_part_In m dom r c v : In (r, c, v) (face_part m dom) <-> exists s, bounds m c r s /\ keep m dom r = true /\ v = sgnQ s.
Proof.
  unfold face_part, bounds. rewrite in_flat_map. split.
  - intros ([f es] & I & H). apply in_flat_map in H as ([e s] & I' & H). destruct (keep m dom e) eqn:K; [|destruct H]. destruct H as [[= <- <- <-]|[]]. eauto 10.
  - intros (s & (es & I & I') & K & ->). exists (c, es). split; auto. apply in_flat_map. exists (r, s). rewrite K. cbn; auto.
Qed.
Lemma NoDup_fst_inj (A B : Type) (l : list (A * B)) a b b' : NoDup (map fst l) -> In (a, b) l -> In (a, b') l -> b = b'.
Proof.
  induction l as [|[x y] l IH]; cbn; [intros _ []|]. intros ND. inversion ND as [|? ? NI ND']; subst. intros [E|I] [E'|I']; [congruence| | |auto].
  - injection E as -> ->. destruct NI. apply in_map_iff. exists (a, b'). auto.
  - injection E' as -> ->. destruct NI. apply in_map_iff. exists (a, b). auto.
Qed.
Lemma face_part_nodup m dom : incidence_ok m -> NoDup (map fst (face_part m dom)).
Proof.
  intros OK. unfold face_part. rewrite map_flat_map. apply NoDup_flat_map.
  - eapply NoDup_map_inv. apply (ok_faces m OK).
  - intros [f es] I. rewrite map_flat_map. destruct (ok_edges m OK f es I) as (ND & _ & _). apply NoDup_flat_map.
    + eapply NoDup_map_inv. exact ND.
    + intros [e s] _. destruct (keep m dom e); cbn; repeat constructor. intros [].
    + intros [e s] [e' s'] b I1 I2 H1 H2. destruct (keep m dom e), (keep m dom e'); cbn in H1, H2; try tauto. destruct H1 as [<-|[]], H2 as [[= ->]|[]]. f_equal. eapply NoDup_fst_inj; eauto.
  - intros [f es] [f' es'] [r c] I1 I2 H1 H2. assert (X : forall f es, In (r, c) (map fst (flat_map (fun '(e, s) => if keep m dom e then [(e, f, sgnQ s)] else []) es)) -> c = f).
    { intros f0 es0 H. apply in_map_iff in H as ([[? ?] ?] & [= -> ->] & H). apply in_flat_map in H as ([e s] & _ & H). destruct (keep m dom e); [|destruct H]. destruct H as [[= ]|[]]; auto. }
    apply X in H1, H2. subst. f_equal. eapply NoDup_fst_inj; eauto. apply (ok_faces m OK).
Qed.
Lemma keep_false m e : keep m true e = true. Proof. reflexivity. Qed.
(** *** the four blocks *)
Definition sign (s : bool) : Qc := if s then (- (1))%Qc else 1%Qc.
Definition bit (b : bool) : Qc := if b then 1%Qc else 0%Qc.
Local Open Scope Qc_scope.
Lemma shifted_coeff m dom r c : coeff (shifted_triplets m dom) r c = coeff (map (fun '(r, c, v) => (r, c, Z2Qc v)) (db_boundary_triplets (facet_pairs (m2_cells m) (m2_mask m)) dom)) (r - num_cutedges m)%Z (c - num_cutfaces m)%Z.
Proof.
  unfold shifted_triplets, coeff. rewrite !lsum_map. apply lsum_ext. intros [[a b] v] _. cbn.
  replace (num_cutedges m + a =? r)%Z with (a =? r - num_cutedges m)%Z by lia. replace (num_cutfaces m + b =? c)%Z with (b =? c - num_cutfaces m)%Z by lia. auto.
Qed.
Lemma combine_seq_NoDup (A : Type) (l : list A) : NoDup (combine (seq 0 (length l)) l).
Proof.
  apply NoDup_map_inv with (f := fst). generalize 0%nat. induction l as [|a l IH]; intros s; cbn; constructor; auto. intros H. apply in_map_iff in H as ([x y] & E & H). cbn in E. subst. apply in_combine_l, in_seq in H. lia.
Qed.
Lemma db_coeff ps dom k p c : facet_at ps k p -> (0 <= c)%Z ->
  coeff (map (fun '(r, c, v) => (r, c, Z2Qc v)) (db_boundary_triplets ps dom)) (Z.of_nat k) c =
  if dom || negb (is_boundary_facet p) then bit (snd p =? c)%Z - bit (fst p =? c)%Z else 0.
Proof.
  intros H C. unfold db_boundary_triplets. rewrite map_flat_map, coeff_flat. rewrite (@lsum_single _ _ _ (k, p)).
  - cbv beta iota. destruct (dom || _); [|reflexivity]. destruct p as [a b]. cbn [fst snd].
    destruct (Z.leb_spec 0 a), (Z.leb_spec 0 b); cbn [app map]; unfold coeff; cbn [lsum t_row t_col t_val fst snd]; rewrite ?Z.eqb_refl; cbn [andb];
    destruct (Z.eqb_spec a c), (Z.eqb_spec b c); try lia; unfold bit; rewrite ?Z2Qc_1, ?Z2Qc_opp; change (Z2Qc (-1)) with (Z2Qc (- (1))); rewrite ?Z2Qc_opp, ?Z2Qc_1; ring.
  - apply combine_seq_NoDup.
  - apply combine_seq_nth. exact H.
  - intros [j q] I N. apply combine_seq_nth in I. assert (NK : (Z.of_nat j =? Z.of_nat k)%Z = false). { apply Z.eqb_neq. intros E. apply N. assert (j = k) by lia. subst. unfold facet_at in H. congruence. }
    destruct (dom || _); [|reflexivity]. unfold coeff. destruct (0 <=? fst q)%Z, (0 <=? snd q)%Z; cbn [app map lsum t_row t_col t_val fst snd]; rewrite ?NK; cbn [andb]; ring.
Qed.
Lemma sgn_sign s : sgnQ s = sign s. Proof. reflexivity. Qed.
Lemma ext_coeff m e ed c : is_edge m e ed ->
  coeff (ext_triplets m) e c = match e2_ext ed with
    | Some (o, s) => if ((0 <=? o) && (cell_ix (m2_cells m) (m2_mask m) (unravel (m2_cells m) o) + num_cutfaces m =? c))%Z then sign s else 0
    | None => 0 end.
Proof.
  intros HE. unfold ext_triplets. rewrite coeff_flat. rewrite (@lsum_single _ _ _ (e, ed)).
  - cbv beta iota. destruct (e2_ext ed) as [[o s]|]; [|reflexivity]. destruct (0 <=? o)%Z; [|reflexivity]. unfold coeff. cbn [lsum t_row t_col t_val fst snd andb]. rewrite Z.eqb_refl. cbn [andb]. destruct (_ =? c)%Z; rewrite ?sgn_sign; ring.
  - apply enum_NoDup.
  - apply enum_In. exact HE.
  - intros [e' ed'] I N. apply enum_In in I. assert (X : (e' =? e)%Z = false). { apply Z.eqb_neq. intros ->. apply N. destruct HE, I. congruence. }
    destruct (e2_ext ed') as [[o s]|]; [|reflexivity]. destruct (0 <=? o)%Z; [|reflexivity]. unfold coeff. cbn [lsum t_row t_col t_val fst snd]. rewrite X. cbn [andb]. ring.
Qed.
Lemma face_coeff m dom e f : incidence_ok m -> (forall s, bounds m f e s -> coeff (face_part m dom) e f = if keep m dom e then sign s else 0) /\ ((forall s, ~ bounds m f e s) -> coeff (face_part m dom) e f = 0).
Proof.
  intros OK. split.
  - intros s H. destruct (keep m dom e) eqn:K.
    + rewrite <- sgn_sign. apply coeff_in; [apply face_part_nodup; auto|]. apply face_part_In. eauto.
    + apply coeff_0. intros v I. apply face_part_In in I as (s' & _ & K' & _). congruence.
  - intros H. apply coeff_0. intros v I. apply face_part_In in I as (s' & B & _). eapply H; eauto.
Qed.
Lemma is_edge_range m e ed : is_edge m e ed -> (0 <= e < num_cutedges m)%Z.
Proof. intros [H1 H2]. assert (Z.to_nat e < length (m2_edges m))%nat by (apply nth_error_Some; congruence). unfold num_cutedges. lia. Qed.
Lemma ext_range m r c v : incidence_ok m -> In (r, c, v) (ext_triplets m) -> (0 <= r < num_cutedges m)%Z /\ (num_cutfaces m <= c < num_faces2 m)%Z.
Proof.
  intros OK I. unfold ext_triplets in I. apply in_flat_map in I as ([e ed] & I & H). apply enum_In in I. destruct (e2_ext ed) as [[o s]|] eqn:E; [|destruct H]. destruct (Z.leb_spec 0 o); [|destruct H].
  destruct H as [H|[]]. assert (H2 := pair_equal_spec (e, cell_ix (m2_cells m) (m2_mask m) (unravel (m2_cells m) o) + num_cutfaces m)%Z (r, c) (sgnQ s) v). apply H2 in H as [H _]. injection H as <- <-.
  split; [apply (is_edge_range m e ed I)|]. assert (X : exterior (m2_cells m) (m2_mask m) (unravel (m2_cells m) o)) by (eapply (ok_ext m OK); eauto; destruct I; eapply nth_error_In; eauto).
  destruct (c33_index_bijection (m2_cells m) (m2_mask m)) as (_ & B & _). destruct (B _ X) as [R _]. unfold ext_cell_index in R. destruct X as [X _]. rewrite X in R. cbn [negb] in R. unfold num_faces2, ext_cells. lia.
Qed.
Lemma face_range m dom r c v : incidence_ok m -> In (r, c, v) (face_part m dom) -> (0 <= r < num_cutedges m)%Z /\ (0 <= c < num_cutfaces m)%Z.
Proof. intros OK I. apply face_part_In in I as (s & (es & I1 & I2) & _). destruct (ok_edges m OK c es I1) as (_ & R & R'). split; auto. eapply R'; eauto. Qed.
Lemma shifted_range m dom r c v : In (r, c, v) (shifted_triplets m dom) -> (num_cutedges m <= r < num_edges2 m)%Z /\ (num_cutfaces m <= c < num_faces2 m)%Z.
Proof.
  intros I. unfold shifted_triplets in I. apply in_map_iff in I as ([[a b] w] & E & I). assert (H2 := pair_equal_spec (num_cutedges m + a, num_cutfaces m + b)%Z (r, c) (Z2Qc w) v). apply H2 in E as [E _]. injection E as <- <-.
  apply c36_incidence in I as (k & p & F & -> & _ & C & V). unfold facet_at in F.
  assert (K : (k < length (facet_pairs (m2_cells m) (m2_mask m)))%nat) by (apply nth_error_Some; congruence). unfold facet_pairs in K. rewrite map_length in K.
  split; [unfold num_edges2, ext_facets; lia|]. unfold facet_pairs in F. rewrite nth_error_map in F. destruct (nth_error (facets _ _) k) as [[d q]|] eqn:N; [|discriminate]. injection F as <-. destruct q as [qa qb]. cbn [snd fst] in *.
  apply nth_error_In in N. apply c34_facets_exact in N as [_ N]. destruct (c33_index_bijection (m2_cells m) (m2_mask m)) as (_ & B & _).
  assert (b < ext_cells m)%Z; [|unfold num_faces2; lia]. unfold ext_cells. destruct N as [(x & H1 & H3 & -> & ->)|[(-> & x & H1 & _ & ->)|(_ & -> & x & H1 & _ & ->)]].
  - apply B in H1 as [H1 _], H3 as [H3 _]. lia.
  - apply B in H1 as [H1 _]. lia.
  - apply B in H1 as [H1 _]. lia.
Qed.
(** every coefficient of boundary(include_domain_boundary): rows = cut edges then exterior facets, columns = cut faces then exterior cells *)
Theorem c64_coefficients m dom : incidence_ok m -> exists B, boundary2 m dom = Some B /\
  (forall r c v, In (r, c, v) B -> (0 <= r < num_edges2 m)%Z /\ (0 <= c < num_faces2 m)%Z) /\
  (forall e ed f, is_edge m e ed -> (0 <= f < num_cutfaces m)%Z ->
     (forall s, bounds m f e s -> coeff B e f = if dom || negb (is_domain_edge ed) then sign s else 0) /\ ((forall s, ~ bounds m f e s) -> coeff B e f = 0)) /\
  (forall e ed i c, is_edge m e ed -> nth_error (cell_coords (m2_cells m) (m2_mask m)) i = Some c ->
     coeff B e (num_cutfaces m + Z.of_nat i)%Z = match e2_ext ed with Some (o, s) => if ((0 <=? o)%Z && coord_eqb (unravel (m2_cells m) o) c)%bool then sign s else 0 | None => 0 end) /\
  (forall k d p c, nth_error (facets (m2_cells m) (m2_mask m)) k = Some (d, p) -> (0 <= c)%Z ->
     coeff B (num_cutedges m + Z.of_nat k)%Z (num_cutfaces m + c)%Z = if dom || negb (is_boundary_facet p) then bit (snd p =? c)%Z - bit (fst p =? c)%Z else 0) /\
  (forall k f, (0 <= k)%Z -> (0 <= f < num_cutfaces m)%Z -> coeff B (num_cutedges m + k)%Z f = 0).
Proof.
  intros OK. unfold boundary2. rewrite (face_triplets_eq m dom OK). cbn [option_map]. eexists. split; [reflexivity|].
  assert (Z1 : forall r c, (r < num_cutedges m)%Z \/ (c < num_cutfaces m)%Z -> coeff (shifted_triplets m dom) r c = 0) by (intros r c H; apply coeff_0; intros v I; apply shifted_range in I; lia).
  assert (Z2 : forall r c, (num_cutedges m <= r)%Z \/ (num_cutfaces m <= c)%Z -> coeff (face_part m dom) r c = 0) by (intros r c H; apply coeff_0; intros v I; apply face_range in I; auto; lia).
  assert (Z3 : forall r c, (num_cutedges m <= r)%Z \/ (c < num_cutfaces m)%Z -> coeff (ext_triplets m) r c = 0) by (intros r c H; apply coeff_0; intros v I; apply ext_range in I; auto; lia).
  assert (NN : (0 <= num_cutfaces m)%Z) by (unfold num_cutfaces; lia). assert (NC : (0 <= num_cutedges m)%Z) by (unfold num_cutedges; lia). assert (NX : (0 <= ext_facets m)%Z) by (unfold ext_facets; lia).
  assert (NY : (0 <= ext_cells m)%Z) by (unfold ext_cells; destruct (c33_index_bijection (m2_cells m) (m2_mask m)) as (E & _); lia).
  split; [|split; [|split; [|split]]].
  - intros r c v I. rewrite !in_app_iff in I. destruct I as [I|[I|I]]; [apply shifted_range in I|apply face_range in I; auto|apply ext_range in I; auto]; unfold num_edges2, num_faces2 in *; lia.
  - intros e ed f HE Hf. assert (R := is_edge_range m e ed HE). rewrite !coeff_app, Z1, Z3 by lia.
    assert (KE : keep m dom e = dom || negb (is_domain_edge ed)). { unfold keep. destruct HE as [_ ->]. auto. }
    destruct (face_coeff m dom e f OK) as [F1 F2]. rewrite KE in F1. split; [intros s Hs; rewrite (F1 s Hs)|intros H; rewrite F2 by auto]; ring.
  - intros e ed i c HE Hi. assert (R := is_edge_range m e ed HE). rewrite !coeff_app, Z1, Z2 by lia. rewrite (ext_coeff m e ed _ HE). destruct (e2_ext ed) as [[o s]|] eqn:EE; [|ring].
    destruct (Z.leb_spec 0 o); cbn [andb]; [|ring]. destruct (c33_index_bijection (m2_cells m) (m2_mask m)) as (_ & B & B' & _).
    assert (X : exterior (m2_cells m) (m2_mask m) (unravel (m2_cells m) o)) by (eapply (ok_ext m OK); eauto; destruct HE; eapply nth_error_In; eauto).
    destruct (B _ X) as [RR NR]. destruct (B' _ _ Hi) as [Xc Ec]. assert (IE : cell_ix (m2_cells m) (m2_mask m) (unravel (m2_cells m) o) = ext_cell_index (m2_cells m) (m2_mask m) (unravel (m2_cells m) o)).
    { unfold ext_cell_index. destruct X as [X _]. rewrite X. auto. } rewrite IE.
    assert (EQ : (ext_cell_index (m2_cells m) (m2_mask m) (unravel (m2_cells m) o) + num_cutfaces m =? num_cutfaces m + Z.of_nat i)%Z = coord_eqb (unravel (m2_cells m) o) c).
    { apply Bool.eq_iff_eq_true. rewrite Z.eqb_eq, coord_eqb_eq. split.
      - intros E. assert (E2 : ext_cell_index (m2_cells m) (m2_mask m) (unravel (m2_cells m) o) = Z.of_nat i) by lia. rewrite E2, Nat2Z.id, Hi in NR. congruence.
      - intros ->. lia. }
    rewrite EQ. destruct (coord_eqb _ c); ring.
  - intros k d p c H C. rewrite !coeff_app, Z2, Z3 by lia. rewrite shifted_coeff. replace (num_cutedges m + Z.of_nat k - num_cutedges m)%Z with (Z.of_nat k) by lia. replace (num_cutfaces m + c - num_cutfaces m)%Z with c by lia.
    rewrite (db_coeff _ dom k p c); auto; [destruct (dom || _); ring|]. unfold facet_at, facet_pairs. rewrite nth_error_map, H. auto.
  - intros k f Hk Hf. rewrite !coeff_app, Z1, Z2, Z3 by lia. ring.
Qed.
(** an exterior cell is required: with a cell of the stencil the entry lands in the column of the last cut face *)
Theorem c64_exterior_needed m e ed o s : is_edge m e ed -> e2_ext ed = Some (o, s) -> (0 <= o)%Z -> ~ exterior (m2_cells m) (m2_mask m) (unravel (m2_cells m) o) ->
  coeff (ext_triplets m) e (num_cutfaces m - 1)%Z = sign s.
Proof.
  intros HE EE O NX. rewrite (ext_coeff m e ed _ HE), EE. rewrite (proj2 (Z.leb_le 0 o)) by auto. cbn [andb]. rewrite ix_neg; [|rewrite <- exterior_In; auto]. rewrite (proj2 (Z.eqb_eq _ _)) by lia. auto.
Qed.
(** signed count of the cells on the two sides of edge e *)
Definition edge_total (m : mesh2) (e : Z) (ed : cut_edge2) : Qc :=
  lsum (fun '(f, es) => lsum (fun '(e', s) => if (e' =? e)%Z then sign s else 0) es) (m2_fbm m) + match e2_ext ed with Some (o, s) => if (0 <=? o)%Z then sign s else 0 | None => 0 end.
(** every cut edge inside the domain has oppositely oriented cells on its two sides *)
Definition balanced (m : mesh2) : Prop := forall e ed, is_edge m e ed -> is_domain_edge ed = false -> edge_total m e ed = 0.
(** without the domain boundary constants are in the kernel of B, hence of the laplacian *)
Theorem c64_row_sums m B : incidence_ok m -> balanced m -> boundary2 m false = Some B -> forall r, mulv B (fun _ => 1) r = 0.
Proof.
  intros OK BA. unfold boundary2. rewrite (face_triplets_eq m false OK). cbn [option_map]. intros HB. apply Some_inj in HB. subst B. intros r. rewrite !mulv_app.
  assert (NC : (0 <= num_cutedges m)%Z) by (unfold num_cutedges; lia).
  assert (S0 : mulv (shifted_triplets m false) (fun _ => 1) r = 0).
  { assert (E : mulv (shifted_triplets m false) (fun _ => 1) r = Z2Qc (row_sum (r - num_cutedges m) (db_boundary_triplets (facet_pairs (m2_cells m) (m2_mask m)) false))).
    { unfold shifted_triplets, mulv. rewrite lsum_map. induction (db_boundary_triplets _ false) as [|[[a b] v] l IH]; [cbn; rewrite Z2Qc_0; auto|]. cbn [lsum row_sum fold_right t_row t_col t_val fst snd]. fold (row_sum (r - num_cutedges m) l).
      rewrite IH. replace (num_cutedges m + a =? r)%Z with (a =? r - num_cutedges m)%Z by lia. destruct (a =? r - num_cutedges m)%Z; rewrite ?Z2Qc_plus; ring. }
    rewrite E. assert (RS : row_sum (r - num_cutedges m) (db_boundary_triplets (facet_pairs (m2_cells m) (m2_mask m)) false) = 0%Z); [|rewrite RS, Z2Qc_0; auto].
    destruct (Z_lt_le_dec (r - num_cutedges m) 0) as [L|L]; [|destruct (nth_error (facets (m2_cells m) (m2_mask m)) (Z.to_nat (r - num_cutedges m))) as [[d p]|] eqn:N].
    - assert (X : forall t, (forall a b v, In (a, b, v) t -> (0 <= a)%Z) -> row_sum (r - num_cutedges m) t = 0%Z).
      { induction t as [|[[a b] v] t IH]; intros H; auto. cbn [row_sum fold_right]. fold (row_sum (r - num_cutedges m) t). rewrite IH by (intros; eapply H; cbn; eauto). destruct (Z.eqb_spec a (r - num_cutedges m)); auto. assert (0 <= a)%Z by (eapply H; cbn; eauto). lia. }
      apply X. intros a b v I. apply c36_incidence in I as (k & p & _ & -> & _). lia.
    - rewrite <- (Z2Nat.id (r - num_cutedges m)) by auto. eapply c36_exterior_rows_sum_to_zero; eauto.
    - assert (X : forall t, (forall a b v, In (a, b, v) t -> (a < r - num_cutedges m)%Z) -> row_sum (r - num_cutedges m) t = 0%Z).
      { induction t as [|[[a b] v] t IH]; intros H; auto. cbn [row_sum fold_right]. fold (row_sum (r - num_cutedges m) t). rewrite IH by (intros; eapply H; cbn; eauto). destruct (Z.eqb_spec a (r - num_cutedges m)); auto. assert (a < r - num_cutedges m)%Z by (eapply H; cbn; eauto). lia. }
      apply X. intros a b v I. apply c36_incidence in I as (k & p & F & -> & _). apply nth_error_None in N. unfold facet_at, facet_pairs in F. rewrite nth_error_map in F. destruct (nth_error (facets _ _) k) eqn:NK; [|discriminate].
      assert (k < length (facets (m2_cells m) (m2_mask m)))%nat by (apply nth_error_Some; congruence). lia. }
  rewrite S0. assert (RX : forall t, (forall r c v, In (r, c, v) t -> (0 <= r < num_cutedges m)%Z) -> ~ (0 <= r < num_cutedges m)%Z -> mulv t (fun _ => 1) r = 0).
  { intros t H NR. apply lsum_0. intros [[a b] v] I. cbn. apply H in I. destruct (Z.eqb_spec a r); auto. lia. }
  destruct (nth_error (m2_edges m) (Z.to_nat r)) as [ed|] eqn:N; [destruct (Z_lt_le_dec r 0) as [L|L]|].
  - rewrite !RX; [ring| |lia| |lia]; [intros ? ? ? I; apply ext_range in I; auto; tauto|intros ? ? ? I; apply face_range in I; auto; tauto].
  - assert (HE : is_edge m r ed) by (split; auto). assert (KE : keep m false r = negb (is_domain_edge ed)). { unfold keep. rewrite N. auto. }
    assert (F : mulv (face_part m false) (fun _ => 1) r = if is_domain_edge ed then 0 else lsum (fun '(f, es) => lsum (fun '(e', s) => if (e' =? r)%Z then sign s else 0) es) (m2_fbm m)).
    { unfold face_part. rewrite mulv_flat. destruct (is_domain_edge ed) eqn:DE.
      - apply lsum_0. intros [f es] _. rewrite mulv_flat. apply lsum_0. intros [e s] _. destruct (keep m false e) eqn:K; [|reflexivity]. unfold mulv. cbn [lsum t_row t_col t_val fst snd]. destruct (Z.eqb_spec e r); [subst; rewrite KE in K; discriminate|ring].
      - apply lsum_ext. intros [f es] _. rewrite mulv_flat. apply lsum_ext. intros [e s] _. destruct (keep m false e) eqn:K; unfold mulv; cbn [lsum t_row t_col t_val fst snd]; destruct (Z.eqb_spec e r); rewrite ?sgn_sign; try ring. subst. rewrite KE in K. discriminate. }
    assert (X : mulv (ext_triplets m) (fun _ => 1) r = match e2_ext ed with Some (o, s) => if (0 <=? o)%Z then sign s else 0 | None => 0 end).
    { unfold ext_triplets. rewrite mulv_flat. rewrite (@lsum_single _ _ _ (r, ed)).
      - cbv beta iota. destruct (e2_ext ed) as [[o s]|]; [|reflexivity]. destruct (0 <=? o)%Z; [|reflexivity]. unfold mulv. cbn [lsum t_row t_col t_val fst snd]. rewrite Z.eqb_refl, sgn_sign. ring.
      - apply enum_NoDup.
      - apply enum_In. auto.
      - intros [e' ed'] I NE. apply enum_In in I. destruct (e2_ext ed') as [[o s]|]; [|reflexivity]. destruct (0 <=? o)%Z; [|reflexivity]. unfold mulv. cbn [lsum t_row t_col t_val fst snd]. destruct (Z.eqb_spec e' r); [|ring]. subst. destruct NE. destruct I. congruence. }
    rewrite F, X. destruct (is_domain_edge ed) eqn:DE.
    + unfold is_domain_edge in DE. destruct (e2_ext ed) as [[o s]|]; [|discriminate]. apply Z.eqb_eq in DE. subst. cbn. ring.
    + assert (T := BA r ed HE DE). unfold edge_total in T. rewrite T. ring.
  - apply nth_error_None in N. rewrite !RX; [ring| |unfold num_cutedges; lia| |unfold num_cutedges; lia]; [intros ? ? ? I; apply ext_range in I; auto; tauto|intros ? ? ? I; apply face_range in I; auto; tauto].
Qed.
(** B^T diag(h) B: symmetric bilinear form, nonnegative when the hodge star is, with constants in the kernel *)
Theorem c64_laplacian m B h : incidence_ok m -> boundary2 m false = Some B ->
  (forall x z, lsum (fun c => z c * lap B h x c) (zseq (num_faces2 m)) = lsum (fun c => x c * lap B h z c) (zseq (num_faces2 m))) /\
  ((forall r, (0 <= r < num_edges2 m)%Z -> 0 <= h r) -> forall x, 0 <= lsum (fun c => x c * lap B h x c) (zseq (num_faces2 m))) /\
  (balanced m -> forall k c, lap B h (fun _ => k) c = 0).
Proof.
  intros OK HB. destruct (c64_coefficients m false OK) as (B' & HB' & R & _). rewrite HB in HB'. apply Some_inj in HB'. subst B'.
  assert (RR : Forall (fun t => 0 <= t_row t < num_edges2 m)%Z B) by (apply Forall_forall; intros [[a b] v] I; apply (R _ _ _ I)).
  assert (RC : Forall (fun t => 0 <= t_col t < num_faces2 m)%Z B) by (apply Forall_forall; intros [[a b] v] I; apply (R _ _ _ I)). split; [|split].
  - intros x z. rewrite !(lap_form h _ _ RR RC). apply form_sym.
  - intros H x. rewrite (lap_form h _ _ RR RC). apply form_psd. auto.
  - intros BA k c. unfold lap, mulTv. apply lsum_0. intros t _. assert (E : mulv B (fun _ => k) (t_row t) = 0). { assert (S := c64_row_sums m B OK BA HB (t_row t)). unfold mulv in *.
      rewrite (@lsum_ext _ _ (fun t0 => k * (if (t_row t0 =? t_row t)%Z then t_val t0 * 1 else 0))); [rewrite lsum_scale, S; ring|]. intros a _. destruct (_ =? _)%Z; ring. }
    rewrite E. destruct (_ =? c)%Z; ring.
Qed.
Example c64_nonvacuous : incidence_ok sample2 /\ balanced sample2 /\ exists B, boundary2 sample2 false = Some B /\ coeff B 1 0 = 1 /\ coeff B 1 1 = - (1) /\ coeff B 0 0 = 0.
Proof.
  split; [|split].
  - split.
    + repeat constructor. intros [].
    + intros f es [[= <- <-]|[]]. split; [repeat constructor; cbn; lia|]. split; [cbn; lia|]. intros e s. cbn. intros [[= <- <-]|[[= <- <-]|[[= <- <-]|[[= <- <-]|[]]]]]; lia.
    + intros e o s I E O. cbn in I. destruct I as [<-|[<-|[<-|[<-|[]]]]]; cbn in E; injection E as <- <-; try lia. split; reflexivity.
  - intros e ed [H1 H2] D. destruct (Z.to_nat e) as [|[|[|[|n]]]] eqn:N; cbn in H2; try (destruct n; discriminate); apply Some_inj in H2; subst ed; try discriminate D.
    assert (e = 1)%Z by lia. subst. apply Qc_is_canon. reflexivity.
  - eexists. split; [reflexivity|]. repeat split; apply Qc_is_canon; reflexivity.
Qed.

(** ** C65: edge lengths and the hodge star of the 2D exterior grid *)
(** a facet with normal axis d is the grid edge from g to g + e_(1-d) (C59); its length is the distance of its end points *)
Definition corner2 (m : mesh2) (c : coord) : q2 := (fst (m2_origin m) + fst (m2_dx m) * Z2Qc (at0 c 0), snd (m2_origin m) + snd (m2_dx m) * Z2Qc (at0 c 1)).
Definition facet_length (m : mesh2) (g : coord) (d : nat) : Qc := axis2 (corner2 m (step g (1 - d))) (1 - d) - axis2 (corner2 m g) (1 - d).
Definition facet_dual_length (m : mesh2) (g : coord) (d : nat) : Qc := axis2 (corner2 m (step g d)) d - axis2 (corner2 m g) d.
Lemma step_corner m g d : length g = 2%nat -> (d < 2)%nat -> axis2 (corner2 m (step g d)) d - axis2 (corner2 m g) d = axis2 (m2_dx m) d.
Proof. intros L D. destruct g as [|x [|y [|? ?]]]; try discriminate. destruct d as [|[|d]]; [| |lia]; unfold corner2, step, at0; cbn [upd nth axis2 fst snd]; rewrite Z2Qc_plus, Z2Qc_1; ring. Qed.
Lemma facet_axis shape mask k d p : nth_error (facets shape mask) k = Some (d, p) -> (d < length shape)%nat.
Proof. intros H. apply nth_error_In in H. destruct p. apply c34_facets_exact in H. tauto. Qed.
(** the length vector and the dual length vector report the two spacings in exchanged roles *)
Theorem c65_exterior_lengths_swapped m k d p g : length (m2_cells m) = 2%nat -> nth_error (facets (m2_cells m) (m2_mask m)) k = Some (d, p) -> length g = 2%nat ->
  nth_error (member_facet_volumes m) k = Some (facet_dual_length m g d) /\ nth_error (free_facet_volumes m) k = Some (facet_length m g d).
Proof.
  intros L H G. assert (D : (d < 2)%nat) by (apply facet_axis in H; lia). unfold member_facet_volumes, free_facet_volumes. rewrite !nth_error_map, H. cbn [option_map fst].
  unfold facet_length, facet_dual_length. rewrite !step_corner by (auto; lia). auto.
Qed.
(** edge_lengths ends with the first vector, dual_edge_lengths with the second *)
Theorem c65_vectors m have ml pv dv : edge_lengths2 m have ml = Some pv -> dual_edge_lengths2 m = Some dv -> have = true ->
  length pv = Z.to_nat (num_edges2 m) /\ length dv = length pv /\
  (forall k, nth_error pv (length (m2_edges m) + k) = nth_error (member_facet_volumes m) k) /\ (forall k, nth_error dv (length (m2_edges m) + k) = nth_error (free_facet_volumes m) k) /\
  (forall e ed x, is_edge m e ed -> nth_error pv (Z.to_nat e) = Some x -> match e2_id ed with MeshEdge _ => x = ml e | AxialEdge a _ => axial_length m a (e2_ix ed) = Some x end).
Proof.
  intros HP HD ->. unfold edge_lengths2, enum, zseq in HP. rewrite Nat2Z.id in HP.
  assert (G : forall (l : list cut_edge2) s pv, fold_right (fun '(i, e) acc => match acc, (match e2_id e with MeshEdge _ => Some (ml i) | AxialEdge a _ => axial_length m a (e2_ix e) end) with Some l, Some v => Some (v :: l) | _, _ => None end)
      (Some (member_facet_volumes m)) (combine (map Z.of_nat (seq s (length l))) l) = Some pv ->
    length pv = (length l + length (member_facet_volumes m))%nat /\ (forall k, nth_error pv (length l + k) = nth_error (member_facet_volumes m) k) /\
    (forall j ed x, nth_error l j = Some ed -> nth_error pv j = Some x -> match e2_id ed with MeshEdge _ => x = ml (Z.of_nat (s + j)) | AxialEdge a _ => axial_length m a (e2_ix ed) = Some x end)).
  { induction l as [|e l IH]; intros s pv0 H; cbn [length seq map combine fold_right] in H.
    - apply Some_inj in H. subst. split; auto. split; auto. intros [|j]; discriminate.
    - destruct (fold_right _ _ (combine _ l)) as [pv1|] eqn:F; [|discriminate]. destruct (IH _ _ F) as (I1 & I2 & I3). set (o := match e2_id e with MeshEdge _ => Some (ml (Z.of_nat s)) | AxialEdge a _ => axial_length m a (e2_ix e) end) in *.
      destruct o as [v|] eqn:O; [|discriminate]. apply Some_inj in H. subst pv0. cbn [length]. split; [lia|]. split; [intros k; cbn; auto|]. intros [|j] ed x.
      + cbn. intros [= <-] E. apply Some_inj in E. subst x. subst o. rewrite Nat.add_0_r. destruct (e2_id e); [apply Some_inj in O|]; auto.
      + cbn. intros H1 H2. specialize (I3 j ed x H1 H2). replace (s + S j)%nat with (S s + j)%nat by lia. auto. }
  destruct (G _ _ _ HP) as (G1 & G2 & G3).
  assert (LM : length (member_facet_volumes m) = length (facets (m2_cells m) (m2_mask m))) by (unfold member_facet_volumes; apply map_length).
  assert (LF : length (free_facet_volumes m) = length (facets (m2_cells m) (m2_mask m))) by (unfold free_facet_volumes; apply map_length).
  unfold dual_edge_lengths2 in HD. assert (ED : dv = map (fun e => match e2_id e with AxialEdge _ _ => axis2 (m2_dx m) (Z.to_nat (bound_axis (e2_mask e))) | MeshEdge _ => 0 end) (m2_edges m) ++ free_facet_volumes m).
  { destruct (m2_edges m); [discriminate|]. apply Some_inj in HD. auto. }
  split; [unfold num_edges2, ext_facets, num_cutedges; lia|]. split; [rewrite ED, app_length, map_length; lia|]. split; [auto|]. split.
  - intros k. rewrite ED. rewrite nth_error_app2 by (rewrite map_length; lia). f_equal. rewrite map_length. lia.
  - intros e ed x [E1 E2] E3. specialize (G3 _ _ _ E2 E3). cbn [Nat.add] in G3. rewrite Z2Nat.id in G3 by auto. auto.
Qed.
(** so the reported length of an exterior facet is its true length iff the two spacings agree *)
Theorem c65_exterior_length_refuted m k d p g : length (m2_cells m) = 2%nat -> nth_error (facets (m2_cells m) (m2_mask m)) k = Some (d, p) -> length g = 2%nat ->
  (nth_error (member_facet_volumes m) k = Some (facet_length m g d) <-> fst (m2_dx m) = snd (m2_dx m)).
Proof.
  intros L H G. assert (D : (d < 2)%nat) by (apply facet_axis in H; lia). destruct (c65_exterior_lengths_swapped m k d p g L H G) as [E _]. rewrite E.
  unfold facet_length, facet_dual_length. rewrite !step_corner by (auto; lia). destruct d as [|[|d]]; [| |lia]; cbn [axis2 Nat.sub]; (split; [intros X; apply Some_inj in X; auto|intros X; rewrite X; auto]).
Qed.
(** the length of an axial cut edge is the displacement of its ends along the free axis: negative when the edge is stored downwards *)
Theorem c65_axial_signed m a e pa pb : a = 0%Z \/ a = 1%Z -> Forall (v_wf 2) (m2_verts m) -> length (m2_cells m) = 2%nat -> vertex2 m (fst e) = Some pa -> vertex2 m (snd e) = Some pb ->
  axial_length m a e = Some (axis2 pb (Z.to_nat (1 - a)) - axis2 pa (Z.to_nat (1 - a))) /\ axial_length m a (snd e, fst e) = Some (- (axis2 pb (Z.to_nat (1 - a)) - axis2 pa (Z.to_nat (1 - a)))).
Proof.
  intros A W L. unfold vertex2, axial_length. cbn [fst snd]. destruct (masked_vertex _ _ (fst e)) as [va|] eqn:EA; [|discriminate]. destruct (masked_vertex _ _ (snd e)) as [vb|] eqn:EB; [|discriminate]. cbn [option_map].
  intros HA HB. apply Some_inj in HA, HB. subst pa pb.
  assert (WF : forall i v, masked_vertex (vshape2 m) (m2_verts m) i = Some v -> v_wf 2 v).
  { intros i v. unfold masked_vertex. destruct (i <? 0)%Z; [discriminate|]. destruct (i <? _)%Z.
    - intros E. apply Some_inj in E. subst v. assert (LU : forall s j, length (unravel s j) = length s) by (induction s; intros; cbn; auto). unfold v_wf, vertex_of_coord. cbn [v_coord v_quot v_clamped]. rewrite !repeat_length, LU. unfold vshape2. rewrite map_length. auto.
    - intros E. apply nth_error_In in E. rewrite Forall_forall in W. auto. }
  apply WF in EA as (A1 & A2 & _), EB as (B1 & B2 & _). destruct va as [ca qa fa], vb as [cb qb fb]. cbn [v_coord v_quot] in *.
  destruct ca as [|ca0 [|ca1 [|? ?]]]; try discriminate. destruct cb as [|cb0 [|cb1 [|? ?]]]; try discriminate. destruct qa as [|qa0 [|qa1 [|? ?]]]; try discriminate. destruct qb as [|qb0 [|qb1 [|? ?]]]; try discriminate.
  destruct A as [-> | ->]; [change (Z.to_nat (1 - 0)) with 1%nat|change (Z.to_nat (1 - 1)) with 0%nat]; unfold world, pos; cbn [zipwith v_coord v_quot nth axis2 fst snd]; rewrite !Z2Qc_minus; split; f_equal; ring.
Qed.
(** hence on a grid with dx = 2, dy = 1 the dual hodge star of every exterior facet is the reciprocal of |primal| / |dual| *)
Theorem c65_hodge_refuted m have ml pv dv k d p g : length (m2_cells m) = 2%nat -> have = true -> edge_lengths2 m have ml = Some pv -> dual_edge_lengths2 m = Some dv ->
  nth_error (facets (m2_cells m) (m2_mask m)) k = Some (d, p) -> length g = 2%nat -> cutoff < fst (m2_dx m) -> cutoff < snd (m2_dx m) ->
  nth_error (dual_hodge pv dv) (length (m2_edges m) + k) = Some (facet_dual_length m g d / facet_length m g d).
Proof.
  intros L -> HP HD H G C0 C1. destruct (c65_vectors m true ml pv dv HP HD eq_refl) as (LP & LD & VP & VD & _). destruct (c65_exterior_lengths_swapped m k d p g L H G) as [E1 E2].
  rewrite <- VP in E1. rewrite <- VD in E2. assert (D : (d < 2)%nat) by (apply facet_axis in H; lia).
  unfold dual_hodge. rewrite nth_error_map. assert (NC : forall (l l' : list Qc) j x y, nth_error l j = Some x -> nth_error l' j = Some y -> nth_error (combine l l') j = Some (x, y)).
  { induction l as [|a l IH]; intros [|b l'] [|j] x y; cbn; try discriminate; auto. intros X Y. apply Some_inj in X, Y. subst. auto. }
  rewrite (NC _ _ _ _ _ E1 E2). cbn [option_map]. unfold ratio. f_equal. assert (Q : qltb cutoff (facet_length m g d) = true); [|rewrite Q; auto].
  apply qltb_lt. unfold facet_length. rewrite step_corner by (auto; lia). destruct d as [|[|d]]; [| |lia]; cbn [axis2 Nat.sub]; auto.
Qed.
Example c65_example : let m := mkMesh2 (0, 0) (1 + 1, 1) [2; 1]%Z [] (m2_edges sample2) (m2_faces sample2) (m2_mask sample2) (m2_owner sample2) (m2_fbm sample2) [0%Z] in
  exists pv dv, edge_lengths2 m true (fun _ => 0) = Some pv /\ dual_edge_lengths2 m = Some dv /\ map this (dual_hodge pv dv) = [(1 # 2); (1 # 2); 2; 2; 2; (1 # 2)]%Q /\ facets (m2_cells m) (m2_mask m) = [(0%nat, (0, -2)%Z); (1%nat, (-2, 0)%Z)].
Proof. eexists _, _. split; [reflexivity|]. split; [reflexivity|]. split; vm_compute; reflexivity. Qed.

(** ** C45 (2D): hodge stars *)
Theorem c45_hodge_reciprocal pv dv i p d : nth_error pv i = Some p -> nth_error dv i = Some d ->
  exists a b, nth_error (dual_hodge pv dv) i = Some a /\ nth_error (primal_hodge pv dv) i = Some b /\
  (cutoff < p -> cutoff < d -> a * b = 1 /\ a * d = p /\ b * p = d) /\ (d <= cutoff -> a = 0) /\ (p <= cutoff -> b = 0) /\ (0 <= p -> 0 <= d -> 0 <= a /\ 0 <= b).
Proof.
  intros HP HD. assert (NC : forall (l l' : list Qc) j x y, nth_error l j = Some x -> nth_error l' j = Some y -> nth_error (combine l l') j = Some (x, y)).
  { induction l as [|a l IH]; intros [|b l'] [|j] x y; cbn; try discriminate; auto. intros X Y. apply Some_inj in X, Y. subst. auto. }
  exists (ratio p d), (ratio d p). unfold dual_hodge, primal_hodge. rewrite !nth_error_map, (NC _ _ _ _ _ HP HD). cbn [option_map]. split; auto. split; auto.
  assert (C0 : 0 < cutoff) by reflexivity. assert (NZ : forall x, cutoff < x -> x <> 0) by (intros x H ->; assert (X := Qclt_trans _ _ _ C0 H); revert X; apply Qcle_not_lt, Qcle_refl).
  unfold ratio. split; [|split; [|split]].
  - intros P D. rewrite (proj2 (qltb_lt _ _) P), (proj2 (qltb_lt _ _) D). assert (p <> 0) by auto. assert (d <> 0) by auto. split; [|split]; field; auto.
  - intros D. apply qltb_ge in D. rewrite D. auto.
  - intros P. apply qltb_ge in P. rewrite P. auto.
  - intros P D. assert (Q : forall x y, 0 <= x -> cutoff < y -> 0 <= x / y). { intros x y X Y. unfold Qcdiv. replace 0 with (0 * / y) by ring. apply Qcmult_le_compat_r; auto. unfold Qcle. rewrite this_inv. apply Qinv_le_0_compat. exact (Qclt_le_weak 0 y (Qclt_trans _ _ _ C0 Y)). }
    split; [destruct (qltb cutoff d) eqn:E|destruct (qltb cutoff p) eqn:E]; try apply Qcle_refl; apply Q; auto; apply qltb_lt; auto.
Qed.
Theorem c45_top_reciprocal cv i v : nth_error cv i = Some v -> exists b, nth_error (dual_hodge_top cv) i = Some v /\ nth_error (primal_hodge_top cv) i = Some b /\ (cutoff <= qabs v -> v * b = 1) /\ (qabs v < cutoff -> b = 0).
Proof.
  intros H. eexists. split; [exact H|]. unfold primal_hodge_top. rewrite nth_error_map, H. split; [reflexivity|]. split.
  - intros C. apply qltb_ge in C. rewrite C. assert (N : v <> 0) by (intros ->; revert C; vm_compute; discriminate). field. auto.
  - intros C. apply qltb_lt in C. rewrite C. auto.
Qed.
Example c45_example : map this (dual_hodge [Z2Qc 3; Z2Qc 2; 0] [Z2Qc 2; 0; Z2Qc 5]) = [3 # 2; 0; 0]%Q /\ map this (primal_hodge [Z2Qc 3; Z2Qc 2; 0] [Z2Qc 2; 0; Z2Qc 5]) = [2 # 3; 0; 0]%Q.
Proof. split; vm_compute; reflexivity. Qed.

(** regions(): one entry per cell in the numbering of the other queries, cut faces first, then the exterior cells *)
Theorem c62_regions m (i r : Z) :
  (forall f, (0 <= i)%Z -> nth_error (m2_faces m) (Z.to_nat i) = Some f -> (nth_error (regions2 m) (Z.to_nat i) = Some r <-> r = f2_region f)) /\
  (forall j, nth_error (m2_ext_regions m) j = Some r -> nth_error (regions2 m) (Z.to_nat (num_cutfaces m + Z.of_nat j)%Z) = Some r) /\
  length (regions2 m) = (length (m2_faces m) + length (m2_ext_regions m))%nat.
Proof.
  unfold regions2. split; [|split].
  - intros f Hi Hf. rewrite nth_error_app1 by (rewrite map_length; apply nth_error_Some; congruence). rewrite nth_error_map, Hf. cbn. split; congruence.
  - intros j Hj. unfold num_cutfaces. replace (Z.to_nat (Z.of_nat (length (m2_faces m)) + Z.of_nat j)) with (length (map f2_region (m2_faces m)) + j)%nat by (rewrite map_length; lia).
    rewrite nth_error_app2 by lia. replace (_ + j - _)%nat with j by lia. auto.
  - rewrite app_length, map_length. reflexivity.
Qed.
