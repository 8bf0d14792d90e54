(** Properties C54-C58: areas, projections, ids and volumes of adaptive grids. *)
From Verif Require Import Base Num Grid SmallestEdge SmallestEdgeProofs AdaptiveGrid AdaptiveFactory AdaptiveSpec AdaptiveProofs AdaptiveFaces
  AdaptiveFactoryProofs AdaptiveMore PropsAdaptive.
From Coq Require Import Permutation.
Local Open Scope Z_scope.

(** ** C54: area of an adaptive face *)
(** the area of a square of width w orthogonal to the axis *)
Definition true_area (dx : q3) (axis : nat) (w : Z) : Qc := (Z2Qc (w * w) * (qget3 dx (Nat.modulo (axis + 1) 3) * qget3 dx (Nat.modulo (axis + 2) 3)))%Qc.
Theorem c54_isotropic_face_area_partial h f : (af_axis f < 3)%nat -> face_volume (h, h, h) f = true_area (h, h, h) (af_axis f) (af_width f).
Proof.
  unfold face_volume, true_area, dws. intros H. destruct (af_axis f) as [|[|[|a]]]; try lia; cbn [Nat.add Nat.modulo Nat.divmod fst snd Nat.sub qget3]; ring.
Qed.
(** with different spacings the area uses the wrong two of the three spacings *)
Theorem c54_exact_face_area dx f : (af_axis f < 3)%nat ->
  face_volume dx f = (Z2Qc (af_width f * af_width f) * (qget3 dx (af_axis f) * qget3 dx (Nat.modulo (af_axis f + 1) 3)))%Qc.
Proof.
  unfold face_volume, dws. intros H. destruct dx as [[x y] z]. destruct (af_axis f) as [|[|[|a]]]; try lia; cbn [Nat.add Nat.modulo Nat.divmod fst snd Nat.sub qget3]; ring.
Qed.
Theorem c54_refuted : exists dx f, (af_axis f < 3)%nat /\ face_volume dx f <> true_area dx (af_axis f) (af_width f).
Proof.
  exists (1%Qc, 1%Qc, Z2Qc 2), (mkFace (0, 0, 0) 0 1 (-2, 0)). split; [cbn; lia|]. intros H. apply (f_equal (fun q => Qccompare q 1)) in H. vm_compute in H. discriminate.
Qed.

(** ** C55: the square used by boundary_centroids and grid_face_projection *)
(** the axis is always right; the low corner is right when the upper cell is not wider, otherwise it is one lower-cell width too low *)
Theorem c55_projection_square_partial shape cells f a b ca cb : pos3 shape -> wf_cells shape cells -> disjoint_cells cells -> (forall i c, In (i, c) cells -> dyadic c) ->
  In f (make_faces shape cells) -> af_dual f = (a, b) -> In (a, ca) cells -> In (b, cb) cells ->
  proj_axis ca cb = af_axis f /\ af_width f = Z.min (snd ca) (snd cb) /\
  (if snd ca <? snd cb then add3 (proj_corner ca cb) (af_axis f) (snd ca) else proj_corner ca cb) = af_corner f.
Proof.
  intros PS W D DY Hf E Ha Hb. destruct f as [c d w e]. cbn [af_dual af_axis af_width af_corner] in *. subst e.
  assert (Hd : (d < 3)%nat) by (apply faces_In in Hf; apply Hf).
  assert (M : meet shape cells d a b) by (apply faces_exist; auto; eexists; split; eauto).
  assert (NA := proj1 (proj2 W _ _ Ha)). assert (NB := proj1 (proj2 W _ _ Hb)).
  destruct M as [(N & x & O1 & O2)|[(-> & _)|(-> & _)]]; try lia.
  apply (cellsi shape cells W) in Ha. apply (cellsi shape cells W) in Hb.
  assert (B1 := proj1 (own_box shape cells W _ _ _ Ha) O1). assert (B2 := proj1 (own_box shape cells W _ _ _ Hb) O2).
  apply faces_In in Hf as (_ & _ & G). cbn [af_dual af_axis af_corner af_width fst snd] in G. destruct (own_geom shape cells W d a b N) as (ca' & cb' & Ca & Cb & G'); [eauto|].
  replace ca' with ca in * by congruence. replace cb' with cb in * by congruence. rewrite G' in G. clear G' Ca Cb ca' cb'. apply some_inj', pair_equal_spec in G as [GC GW].
  destruct (DY a ca) as (ka & Ka & Wa & Da); [apply (cellsi shape cells W); auto|]. destruct (DY b cb) as (kb & Kb & Wb & Db); [apply (cellsi shape cells W); auto|].
  assert (Qa : 0 < snd ca) by (rewrite Wa; apply Z.pow_pos_nonneg; lia). assert (Qb : 0 < snd cb) by (rewrite Wb; apply Z.pow_pos_nonneg; lia).
  assert (Pb : get3 (fst cb) d = get3 x d + 1).
  { assert (X := B2 d Hd). rewrite add3_get, Nat.eqb_refl in X by auto.
    destruct (Z.eq_dec (get3 (fst cb) d) (get3 x d + 1)); auto. exfalso. apply N. apply (D a ca b cb x); try (apply (cellsi shape cells W); auto); auto.
    intros i Hi. assert (Y := B2 i Hi). rewrite add3_get in Y by auto. destruct (Nat.eqb_spec i d) as [->|]; lia. }
  assert (Pa : get3 (fst ca) d + snd ca = get3 x d + 1).
  { assert (X := B1 d Hd).
    destruct (Z.eq_dec (get3 (fst ca) d + snd ca) (get3 x d + 1)); auto. exfalso. apply N. apply (D a ca b cb (add3 x d 1)); try (apply (cellsi shape cells W); auto); auto.
    intros i Hi. assert (Y := B1 i Hi). rewrite add3_get by auto. destruct (Nat.eqb_spec i d) as [->|]; lia. }
  assert (NS : forall i, (i < 3)%nat -> i <> d -> Z.abs (ctr2 ca i - ctr2 cb i) < snd ca + snd cb).
  { intros i Hi Hn. assert (X := B1 i Hi). assert (Y := B2 i Hi). rewrite add3_get, (proj2 (Nat.eqb_neq _ _)) in Y by auto. unfold ctr2.
    destruct (Z.le_gt_cases (snd ca) (snd cb)) as [L|L]; rewrite Wa, Wb in *.
    - destruct (nested ka kb (get3 (fst ca) i) (get3 (fst cb) i) (get3 x i)); auto; [|lia]. split; [lia|]. apply (Z.pow_le_mono_r_iff 2); lia.
    - destruct (nested kb ka (get3 (fst cb) i) (get3 (fst ca) i) (get3 x i)); auto; [|lia]. split; [lia|]. apply (Z.pow_le_mono_r_iff 2); lia. }
  assert (DD : ctr2 ca d - ctr2 cb d = - (snd ca + snd cb)) by (unfold ctr2; lia).
  assert (AX : proj_axis ca cb = d).
  { unfold proj_axis. assert (N0 := NS 0%nat ltac:(lia)). assert (N1 := NS 1%nat ltac:(lia)). assert (N2 := NS 2%nat ltac:(lia)).
    destruct d as [|[|[|d]]]; [| | |lia].
    - specialize (N1 ltac:(lia)). specialize (N2 ltac:(lia)). rewrite (proj2 (Z.ltb_ge (Z.abs (ctr2 ca 0 - ctr2 cb 0)) (Z.abs (ctr2 ca 1 - ctr2 cb 1)))) by lia. rewrite (proj2 (Z.ltb_ge _ _)) by lia. auto.
    - specialize (N0 ltac:(lia)). specialize (N2 ltac:(lia)). rewrite (proj2 (Z.ltb_lt (Z.abs (ctr2 ca 0 - ctr2 cb 0)) (Z.abs (ctr2 ca 1 - ctr2 cb 1)))) by lia. rewrite (proj2 (Z.ltb_ge _ _)) by lia. auto.
    - specialize (N0 ltac:(lia)). specialize (N1 ltac:(lia)). destruct (Z.abs (ctr2 ca 0 - ctr2 cb 0) <? _); rewrite (proj2 (Z.ltb_lt _ _)) by lia; auto. }
  split; auto. split; auto. unfold proj_corner. rewrite AX. rewrite (proj2 (Z.ltb_ge 0 (ctr2 ca d - ctr2 cb d))) by lia. rewrite <- GC.
  destruct (Z.ltb_spec (snd ca) (snd cb)) as [L|L].
  - rewrite (proj2 (Z.eqb_neq _ _)) by lia. replace (Z.min (snd ca) (snd cb)) with (snd ca) by lia. auto.
  - rewrite (proj2 (Z.eqb_eq _ _)) by lia. auto.
Qed.
(** so the square is wrong exactly for a narrow cell below a wider one *)
Theorem c55_refuted : exists shape cells f ca cb, pos3 shape /\ wf_cells shape cells /\ disjoint_cells cells /\ (forall i c, In (i, c) cells -> dyadic c) /\
  In f (make_faces shape cells) /\ In (fst (af_dual f), ca) cells /\ In (snd (af_dual f), cb) cells /\ proj_corner ca cb <> af_corner f.
Proof.
  exists (4, 2, 2), [(5, ((0, 0, 0), 1)); (7, ((1, 0, 0), 1)); (9, ((2, 0, 0), 2))], (mkFace (2, 0, 0) 0 1 (7, 9)), ((1, 0, 0), 1), ((2, 0, 0), 2).
  split; [intros [|[|[|d]]] Hd; cbn; lia|]. split; [|split; [|split]].
  - split; [repeat constructor|]. intros i b [[= <- <-]|[[= <- <-]|[[= <- <-]|[]]]]; (split; [lia|split; [cbn; lia|]]); intros p; unfold in_box, in_grid; rewrite !all3; cbn; lia.
  - intros i a j b p [[= <- <-]|[[= <- <-]|[[= <- <-]|[]]]] [[= <- <-]|[[= <- <-]|[[= <- <-]|[]]]]; auto; unfold in_box; rewrite !all3; cbn; lia.
  - intros i b [[= <- <-]|[[= <- <-]|[[= <- <-]|[]]]]; [exists 0|exists 0|exists 1]; (split; [lia|split; [reflexivity|]]); rewrite all3; cbn; repeat split; try apply Z.divide_0_r; try apply Z.divide_1_l; apply Z.divide_refl.
  - split; [vm_compute; tauto|]. split; [vm_compute; tauto|]. split; [vm_compute; tauto|]. vm_compute. congruence.
Qed.

(** ** C56: adaptive part of the boundary operator of a generated mesh *)
Lemma renumber_In n cells c b : In (c, b) (renumber n cells) <-> exists k i, nth_error cells k = Some (i, b) /\ c = n + Z.of_nat k.
Proof.
  unfold renumber. rewrite in_map_iff. 
  assert (G : forall (l : acells) s k x, In (k, x) (combine (seq s (length l)) l) <-> (s <= k)%nat /\ nth_error l (k - s) = Some x).
  { induction l as [|y l IH]; intros s k x; cbn [length seq combine].
    - split; [intros []|]. intros [_ H]. destruct (k - s)%nat; discriminate.
    - cbn [In]. rewrite IH. split.
      + intros [[= -> ->]|[L H]]; [rewrite Nat.sub_diag; auto|]. split; [lia|]. replace (k - s)%nat with (S (k - S s)) by lia. auto.
      + intros [L H]. destruct (Nat.eq_dec k s) as [->|NE]; [left; rewrite Nat.sub_diag in H; cbn in H; congruence|]. right. split; [lia|]. replace (k - s)%nat with (S (k - S s)) in H by lia. auto. }
  split.
  - intros ([k [i b']] & E & H). apply pair_equal_spec in E as [<- <-]. apply G in H as [_ H]. rewrite Nat.sub_0_r in H. exists k, i. auto.
  - intros (k & i & H & ->). exists (k, (i, b)). split; auto. apply G. rewrite Nat.sub_0_r. split; [lia|auto].
Qed.
Lemma combine_seq_In (A : Type) (l : list A) k x : In (k, x) (combine (seq 0 (length l)) l) <-> nth_error l k = Some x.
Proof.
  assert (G : forall (l : list A) s k x, In (k, x) (combine (seq s (length l)) l) <-> (s <= k)%nat /\ nth_error l (k - s) = Some x).
  { clear. induction l as [|y l IH]; intros s k x; cbn [length seq combine].
    - split; [intros []|]. intros [_ H]. destruct (k - s)%nat; discriminate.
    - cbn [In]. rewrite IH. split.
      + intros [[= -> ->]|[L H]]; [rewrite Nat.sub_diag; auto|]. split; [lia|]. replace (k - s)%nat with (S (k - S s)) by lia. auto.
      + intros [L H]. destruct (Nat.eq_dec k s) as [->|NE]; [left; rewrite Nat.sub_diag in H; cbn in H; congruence|]. right. split; [lia|]. replace (k - s)%nat with (S (k - S s)) in H by lia. auto. }
  rewrite G, Nat.sub_0_r. intuition lia.
Qed.
Lemma renumber_wf shape n cells : 0 <= n -> wf_cells shape cells -> disjoint_cells cells -> wf_cells shape (renumber n cells) /\ disjoint_cells (renumber n cells).
Proof.
  intros Hn [W1 W2] D. split; [split|].
  - unfold renumber. clear. generalize 0%nat. induction cells as [|[i b] cells IH]; intros s; cbn [length seq combine map]; [constructor|]. cbn [fst]. constructor; [|apply IH].
    clear IH. assert (Hs : (s < S s)%nat) by lia. revert Hs. generalize (S s). induction cells as [|[j c] cells IH]; intros t Hs; cbn [length seq combine map]; constructor.
    + cbn [fst]. apply Z.compare_lt_iff. lia.
    + apply IH. lia.
  - intros c b H. apply renumber_In in H as (k & i & H & ->). apply nth_error_In in H. split; [lia|]. apply (W2 i b H).
  - intros i a j b p Hi Hj Ha Hb. apply renumber_In in Hi as (k & i' & Hk & ->), Hj as (k' & j' & Hk' & ->). f_equal. f_equal.
    assert (i' = j') by (eapply D; eauto using nth_error_In). subst. apply (ssorted_NoDup Zcompare_total) in W1.
    rewrite NoDup_nth_error in W1. apply W1; [rewrite map_length; apply nth_error_Some; congruence|]. rewrite !nth_error_map, Hk, Hk'. auto.
Qed.
(** For cells whose ids are the grid index of their corner (what the factory makes) the mesh's triplets, computed after the cells have been
    renumbered from n while the faces keep the original ids, are -1 at the new id of the lower cell and +1 at the new id of the upper cell. *)
Theorem c56_generated_boundary_triplets shape cells n off dom r c v : pos3 shape -> wf_cells shape cells -> disjoint_cells cells ->
  (forall i b, In (i, b) cells -> i = index3 shape (fst b)) -> 0 <= n ->
  In (r, c, v) (ag_boundary_triplets shape (renumber n cells) (make_faces shape cells) off dom) <->
  exists k f, nth_error (make_faces shape cells) k = Some f /\ r = off + Z.of_nat k /\
    (dom = true \/ fst (af_dual f) <> -2 /\ snd (af_dual f) <> -2) /\
    ((v = -1 /\ exists b, In (fst (af_dual f), b) cells /\ In (c, b) (renumber n cells)) \/
     (v = 1 /\ exists b, In (snd (af_dual f), b) cells /\ In (c, b) (renumber n cells))).
Proof.
  intros PS W D ID Hn. destruct (renumber_wf shape n cells Hn W D) as [W' D'].
  assert (GET : forall l b, In (l, b) cells -> forall c, (match unravel (let '(n, m, k) := shape in [n; m; k]) l with [x; y; z] => grid_from_cells (renumber n cells) (x, y, z) | _ => -1 end) = c <-> In (c, b) (renumber n cells)).
  { intros l b Hl e. assert (HB : in_box b (fst b)) by (intros d Hd; assert (X := proj1 (proj2 (proj2 W l b Hl))); lia).
    assert (HG := proj2 (proj2 (proj2 W l b Hl)) _ HB). rewrite (ID l b Hl).
    assert (U : unravel (let '(n, m, k) := shape in [n; m; k]) (index3 shape (fst b)) = let '(x, y, z) := fst b in [x; y; z]).
    { apply in3_grid in HG. destruct shape as [[sn sm] sk], (fst b) as [[x y] z]. cbn [in3 index3] in *. apply unravel_ravel; auto. }
    rewrite U. assert (V : forall (g : c3 -> Z) (q : c3), match (let '(x, y, z) := q in [x; y; z]) with [x; y; z] => g (x, y, z) | _ => -1 end = g q) by (intros g [[x y] z]; reflexivity).
    rewrite V. clear U V.
    assert (EXN : exists e', In (e', b) (renumber n cells)). { apply In_nth_error in Hl as [k Hk]. exists (n + Z.of_nat k). apply renumber_In. eauto. }
    destruct EXN as [e' He']. assert (G : grid_from_cells (renumber n cells) (fst b) = e').
    { apply (gfc_owner shape); auto; [apply (proj2 W' e' b He')|]. exists b; auto. }
    rewrite G. split; [intros <-; auto|]. intros He. apply (D' e' b e b (fst b)); auto. }
  assert (OWN : forall f, In f (make_faces shape cells) -> forall l, (l = fst (af_dual f) \/ l = snd (af_dual f)) -> 0 <= l -> exists b, In (l, b) cells).
  { intros f Hf l HL Hl. assert (M : meet shape cells (af_axis f) (fst (af_dual f)) (snd (af_dual f))).
    { apply (faces_exist shape cells PS W D); [apply faces_In in Hf; apply Hf|]. exists f. split; auto. split; auto. apply surjective_pairing. }
    destruct M as [(_ & x & (b1 & H1 & _) & (b2 & H2 & _))|[(E & x & (b1 & H1 & _) & _)|(E & x & (b1 & H1 & _) & _)]]; destruct HL as [->| ->]; try lia; eauto. }
  assert (NEG : forall f, In f (make_faces shape cells) -> forall l b, (l = fst (af_dual f) \/ l = snd (af_dual f)) -> In (l, b) cells -> 0 <= l) by (intros; apply (proj2 W l b); auto).
  unfold ag_boundary_triplets. rewrite in_flat_map. split.
  - intros ([k f] & Hk & H). apply combine_seq_In in Hk. assert (HF := nth_error_In _ _ Hk). exists k, f. destruct (af_dual f) as [l h] eqn:ED. cbn [fst snd] in *.
    destruct (dom || _) eqn:DM; [|destruct H]. assert (DM' : dom = true \/ l <> -2 /\ h <> -2).
    { apply orb_true_iff in DM as [->|DM]; auto. right. apply negb_true_iff, orb_false_iff in DM as [A B]. apply Z.eqb_neq in A, B. auto. }
    split; auto. apply in_app_iff in H as [H|H].
    + destruct (Z.leb_spec 0 l) as [L|L]; [|destruct H]. destruct H as [H|[]]. apply pair_equal_spec in H as [H <-]. apply pair_equal_spec in H as [<- H]. split; auto. split; auto.
      left. split; auto. destruct (OWN f HF l) as [b Hb]; auto; [rewrite ED; auto|]. exists b. split; auto. apply (GET l b Hb); auto.
    + destruct (Z.leb_spec 0 h) as [L|L]; [|destruct H]. destruct H as [H|[]]. apply pair_equal_spec in H as [H <-]. apply pair_equal_spec in H as [<- H]. split; auto. split; auto.
      right. split; auto. destruct (OWN f HF h) as [b Hb]; auto; [rewrite ED; auto|]. exists b. split; auto. apply (GET h b Hb); auto.
  - intros (k & f & Hk & -> & DM & H). exists (k, f). split; [apply combine_seq_In; auto|]. assert (HF := nth_error_In _ _ Hk). assert (NF := NEG f HF).
    destruct (af_dual f) as [l h] eqn:ED. cbn [fst snd] in *.
    assert (DM' : dom || negb ((l =? -2) || (h =? -2)) = true).
    { destruct DM as [->|[A B]]; auto. apply Z.eqb_neq in A, B. rewrite A, B, orb_true_r. auto. }
    rewrite DM'. apply in_app_iff. destruct H as [(-> & b & Hb & Hc)|(-> & b & Hb & Hc)].
    + left. rewrite (proj2 (Z.leb_le 0 l)) by (eapply NF; eauto). left. f_equal. f_equal. apply (GET l b Hb); auto.
    + right. rewrite (proj2 (Z.leb_le 0 h)) by (eapply NF; eauto). left. f_equal. f_equal. apply (GET h b Hb); auto.
Qed.
(** a 2x2x2 grid with one active cell: seven unit cells, ids 1..7, renumbered from 2 *)
Definition seven : acells := factory_cells (2, 2, 2) (fun p => c3_eqb p (0, 0, 0)) (Some 0).
Lemma seven_ok : wf_cells (2, 2, 2) seven /\ disjoint_cells seven /\ forall i b, In (i, b) seven -> i = index3 (2, 2, 2) (fst b).
Proof.
  destruct (c24_cells_tile_the_inactive_region_partial 1 (fun p => c3_eqb p (0, 0, 0)) (Some 0)) as (_ & W & D & I); [lia|left; exists 0; split; [auto|lia]|].
  split; auto. split; auto. intros i b H. apply I in H. apply H.
Qed.
Example c56_example : In (10, 2, -1) (ag_boundary_triplets (2, 2, 2) (renumber 2 seven) (make_faces (2, 2, 2) seven) 7 false).
Proof. vm_compute. tauto. Qed.

(** ** C57: what uses dual-edge ids as cell ids is wrong on the generated grid, and the boundary operator is wrong after reloading *)
Theorem c57_refuted_dual_lengths : exists f a b, In f (make_faces (2, 2, 2) seven) /\ In (fst (af_dual f), a) seven /\ In (snd (af_dual f), b) seven /\
  dual_edge_pair (renumber 2 seven) f <> Some (a, b).
Proof.
  exists (mkFace (0, 1, 1) 1 1 (1, 3)), ((0, 0, 1), 1), ((0, 1, 1), 1). split; [vm_compute; tauto|]. split; [vm_compute; tauto|]. split; [vm_compute; tauto|]. vm_compute. discriminate.
Qed.
Theorem c57_refuted_wrong_pair : exists f a b, In f (make_faces (2, 2, 2) seven) /\ dual_edge_pair (renumber 2 seven) f = Some (a, b) /\ ~ In (fst (af_dual f), a) seven.
Proof.
  exists (mkFace (1, 1, 1) 0 1 (3, 7)), ((0, 1, 0), 1), ((1, 1, 0), 1). split; [vm_compute; tauto|]. split; [vm_compute; auto|]. vm_compute. intuition congruence.
Qed.
(** when faces are rebuilt from the cells (make_faces on the stored ids) every interior dual edge names its two cells *)
Theorem c57_dual_pairs_of_rebuilt_faces_partial shape cells f : pos3 shape -> wf_cells shape cells -> disjoint_cells cells -> In f (make_faces shape cells) ->
  fst (af_dual f) <> -2 -> snd (af_dual f) <> -2 ->
  exists a b, dual_edge_pair cells f = Some (a, b) /\ In (fst (af_dual f), a) cells /\ In (snd (af_dual f), b) cells.
Proof.
  intros PS W D Hf N1 N2. assert (M : meet shape cells (af_axis f) (fst (af_dual f)) (snd (af_dual f))).
  { apply (faces_exist shape cells PS W D); [apply faces_In in Hf; apply Hf|]. exists f. split; auto. split; auto. apply surjective_pairing. }
  destruct M as [(N & x & (a & Ha & _) & (b & Hb & _))|[(E & _)|(E & _)]]; try contradiction. exists a, b. split; auto.
  unfold dual_edge_pair, is_valid_edge. apply (cellsi shape cells W) in Ha. apply (cellsi shape cells W) in Hb. rewrite Ha, Hb, (proj2 (Z.eqb_neq _ _)) by auto. auto.
Qed.
(** but then the boundary operator looks those ids up as grid indices *)
Theorem c57_refuted_reloaded_boundary : let new := renumber 2 seven in exists f k, nth_error (make_faces (2, 2, 2) new) k = Some f /\
  fst (af_dual f) <> -2 /\ snd (af_dual f) <> -2 /\ ~ In (Z.of_nat k, fst (af_dual f), -1) (ag_boundary_triplets (2, 2, 2) new (make_faces (2, 2, 2) new) 0 true).
Proof.
  cbv zeta. exists (mkFace (0, 1, 1) 1 1 (2, 4)), 13%nat. split; [vm_compute; reflexivity|]. split; [cbn; lia|]. split; [cbn; lia|]. vm_compute. intuition congruence.
Qed.

(** ** C58: volumes *)
(** if the cells tile the unit cells satisfying P, the cell volumes add up to the number of those unit cells times the unit cell volume *)
Definition qsum (l : list Qc) : Qc := fold_right Qcplus 0%Qc l.
Theorem c58_volumes_add_up shape cells (P : c3 -> bool) vol : wf_cells shape cells -> tiles shape (fun p => P p = true) cells ->
  qsum (map (fun ib => cell_volume vol (snd ib)) cells) = (vol * Z2Qc (Z.of_nat (length (filter P (loop3 (0, 0, 0)%Z shape)))))%Qc.
Proof.
  intros W T. rewrite <- (Permutation_length (boxes_perm shape cells P W T)). assert (W2 := proj2 W). clear W T.
  induction cells as [|[i b] cells IH]; cbn [map flat_map length qsum fold_right].
  - change (Z2Qc (Z.of_nat 0)) with 0%Qc. ring.
  - fold (qsum (map (fun ib => cell_volume vol (snd ib)) cells)). rewrite IH by (intros; eapply W2; simpl; eauto). rewrite app_length, Nat2Z.inj_add, Z2Qc_plus.
    cbn [snd]. rewrite box_len by (assert (X := W2 i b (or_introl eq_refl)); lia). unfold cell_volume. rewrite !Z2Qc_mult. ring.
Qed.
(** so the factory's cells have the volume of the inactive region *)
Theorem c58_factory_volume_partial k (original : c3 -> bool) ml vol : (1 <= k)%nat -> let shape := cube3 (2 ^ Z.of_nat k) in
  (exists m, ml = Some m /\ 0 <= m < Z.of_nat k) \/ (exists p, in_grid shape p /\ original p = true) ->
  qsum (map (fun ib => cell_volume vol (snd ib)) (factory_cells shape original ml)) = (vol * Z2Qc (Z.of_nat (length (filter (fun p => negb (original p)) (loop3 (0, 0, 0)%Z shape)))))%Qc.
Proof.
  intros Hk shape HA. destruct (c24_cells_tile_the_inactive_region_partial k original ml Hk HA) as ([T1 T2] & W & _). apply c58_volumes_add_up; auto. split.
  - intros i b p H1 H2. destruct (T1 i b p H1 H2) as [G E]. split; auto. fold shape in E. rewrite E. auto.
  - intros p G E. apply T2; auto. apply negb_true_iff; auto.
Qed.
Example c58_example : length (filter (fun p => negb (c3_eqb p (0, 0, 0))) (loop3 (0, 0, 0) (4, 4, 4))) = 63%nat.
Proof. reflexivity. Qed.
