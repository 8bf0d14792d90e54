(** Property C126: faces_fully_utilized. *)
From Coq Require Import Permutation.
From Verif Require Import Base Num CoordMask Vertex VertexProofs ThresholdProofs Grid SmallestEdge AdaptiveGrid AdaptiveSpec AdaptiveProofs AdaptiveFaces PropsAdaptive PropsAdaptive2 Mesh Sparse Volume Mesh2 Boundary3 PropsBoundary3 Interp PropsInterp Queries3 PropsQueries3 Validation PropsValidation3.
Set Implicit Arguments.
Local Open Scope Z_scope.

(** Specification: x is one, up to 1e-5 *)
Definition near_one (x : Qc) : Prop := (qabs (x - 1) <= Q2Qc (1 # 100000))%Qc.
(** total barycentric area of the pieces of input triangle j *)
Definition used_of (m : mesh3) (j : Z) : Qc := lsum (fun '(_, b) => if bf_parent b =? j then ((1 + 1) * bary_area (bf_barys b))%Qc else 0%Qc) (m_bary m).
(** the barycentric area of a piece is nonnegative *)
Definition not_inverted (m : mesh3) : Prop := forall i b, In (i, b) (m_bary m) -> (0 <= bary_area (bf_barys b))%Qc.
(** q is a grid face: its position is inside the grid of faces of its axis *)
Definition is_grid_face (m : mesh3) (q : c3 * nat) : Prop := (snd q < 3)%nat /\ 0 <= get3 (fst q) (snd q) <= get3 (cshape m) (snd q) /\ forall i, (i < 3)%nat -> i <> snd q -> 0 <= get3 (fst q) i < get3 (cshape m) i.
Lemma grid_faces3_In m q : In q (grid_faces3 m) <-> is_grid_face m q.
Proof.
  unfold grid_faces3, is_grid_face. rewrite in_flat_map. destruct q as [c d]. cbn [fst snd]. split.
  - intros (k & K & I). apply in_map_iff in I as (c' & E & I). apply pair_equal_spec in E as [-> ->]. assert (Hd : (d < 3)%nat) by (cbn in K; lia). apply loop_pos in I as [A B]; auto.
  - intros (Hd & A & B). exists d. split; [cbn; lia|]. apply in_map_iff. exists c. split; auto. apply loop_pos; auto.
Qed.
Lemma gface_eqb_eq (a b : c3 * nat) : gface_eqb a b = true <-> a = b.
Proof. destruct a as [a i], b as [b j]. unfold gface_eqb. cbn [fst snd]. rewrite andb_true_iff, c3_eqb_eq, Nat.eqb_eq. split; [intros [-> ->]; auto|intros E; apply pair_equal_spec in E; auto]. Qed.
Lemma within5_spec x : within5 x = true <-> near_one x.
Proof. unfold within5, near_one. rewrite negb_true_iff. apply qltb_ge. Qed.
Lemma face_sum_app A B q : face_sum (A ++ B) q = (face_sum A q + face_sum B q)%Qc.
Proof. apply lsum_app. Qed.
Lemma face_sum_absent G q : (forall r v, ~ In (r, q, v) G) -> face_sum G q = 0%Qc.
Proof. intros H. apply lsum_0. intros [[r k] v] I. destruct (gface_eqb k q) eqn:E; auto. apply gface_eqb_eq in E. subst k. destruct (H r v I). Qed.

(** ** the two parts, exactly *)
Theorem c126_triangles_exactly m : bary_utilized m = if (match m_bary m with [] => true | _ => false end) then None else
  Some (forallb (fun '(_, b) => negb (qltb ((1 + 1) * bary_area (bf_barys b)) 0)) (m_bary m) && forallb (fun j => within5 (used_of m j)) (zrange 0 (length (m_origF m)))).
Proof.
  unfold bary_utilized, face_bary_volumes. destruct (m_bary m) as [|b0 l0] eqn:E; [auto|]. rewrite <- E. rewrite map_map.
  destruct (map _ (m_bary m)) eqn:X; [exfalso; rewrite E in X; discriminate|]. rewrite <- X. clear X. f_equal. f_equal.
  - generalize (m_bary m). clear. intros l. induction l as [|[i b] l IH]; auto. cbn [map forallb]. rewrite IH. auto.
  - clear. unfold col_sum, used_of. generalize (zrange 0 (length (m_origF m))). intros r. induction r as [|j r IH]; auto. cbn [forallb]. rewrite IH. f_equal. f_equal. rewrite lsum_map. apply lsum_ext. intros [i b] _. auto.
Qed.
Lemma two_le (x : Qc) : (0 <= (1 + 1) * x)%Qc <-> (0 <= x)%Qc.
Proof. unfold Qcle. q_push. split; intros; nra. Qed.
Theorem c126_accepts_exactly m FV C : cut_face_entries m true FV = Some C -> (forall r q v, In (r, q, v) C -> is_grid_face m q) ->
  (forall r q v, In (r, q, v) (grid_face_projection (m_cubes m) (m_afaces m) (Z.of_nat (length (m_faces m)))) -> is_grid_face m q) ->
  (faces_fully_utilized m FV = Some true <->
   m_bary m <> [] /\ not_inverted m /\ (forall j, 0 <= j < Z.of_nat (length (m_origF m)) -> near_one (used_of m j)) /\
   forall q, is_grid_face m q -> near_one (face_sum (grid_face_projection (m_cubes m) (m_afaces m) (Z.of_nat (length (m_faces m)))) q + face_sum C q)%Qc).
Proof.
  intros HC RC RP. unfold faces_fully_utilized, grid_utilized, face_grid_volume3. rewrite HC. cbn [option_map]. set (P := grid_face_projection _ _ _) in *.
  replace (forallb (fun '(_, k, _) => existsb (gface_eqb k) (grid_faces3 m)) (P ++ C)) with true.
  2:{ symmetry. apply forallb_forall. intros [[r q] v] I. apply existsb_exists. exists q. split; [|apply gface_eqb_eq; auto]. apply grid_faces3_In. apply in_app_or in I as [I|I]; eauto. }
  rewrite c126_triangles_exactly. destruct (m_bary m) as [|b0 l0] eqn:E; [split; [discriminate|intros [H _]; congruence]|]. assert (NN : m_bary m <> []) by (rewrite E; discriminate). rewrite <- E. clear b0 l0 E.
  assert (A : forallb (fun '(_, b) => negb (qltb ((1 + 1) * bary_area (bf_barys b)) 0)) (m_bary m) = true <-> not_inverted m).
  { rewrite forallb_forall. unfold not_inverted. split.
    - intros H i b I. specialize (H _ I). cbn beta iota in H. apply negb_true_iff, qltb_ge in H. apply (proj1 (two_le _) H).
    - intros H [i b] I. apply negb_true_iff, qltb_ge. apply (proj2 (two_le _) (H i b I)). }
  assert (B : forallb (fun j => within5 (used_of m j)) (zrange 0 (length (m_origF m))) = true <-> forall j, 0 <= j < Z.of_nat (length (m_origF m)) -> near_one (used_of m j)).
  { rewrite forallb_forall. split; intros H j I; [apply within5_spec, H, zrange_In; lia|apply within5_spec, H]. apply zrange_In in I. lia. }
  assert (D : forallb (fun q => within5 (face_sum (P ++ C) q)) (grid_faces3 m) = true <-> forall q, is_grid_face m q -> near_one (face_sum P q + face_sum C q)%Qc).
  { rewrite forallb_forall. split; intros H q I.
    - rewrite <- face_sum_app. apply within5_spec, H, grid_faces3_In, I.
    - apply within5_spec. rewrite face_sum_app. apply H, grid_faces3_In, I. }
  split.
  - intros H. apply Some_inj in H. apply andb_prop in H as [H1 H3]. apply andb_prop in H1 as [H1 H2]. split; [exact NN|].
    split; [apply A; auto|]. split; [apply B; auto|apply D; auto].
  - intros (_ & H1 & H2 & H3). f_equal. rewrite (proj2 A H1), (proj2 B H2), (proj2 D H3). auto.
Qed.

(** ** the projection of the exterior faces *)
Lemma unit_squares_In c k w y : (k < 3)%nat -> In y (unit_squares c k w) <-> on_square c k w y.
Proof.
  intros Hk. unfold unit_squares, on_square. rewrite in_flat_map. split.
  - intros (i & Hi & I). apply in_map_iff in I as (j & <- & Hj). apply zrange_In in Hi, Hj. destruct c as [[x0 y0] z0]. destruct k as [|[|[|k]]]; [| | |lia]; cbn; split; try lia; intros [|[|[|q]]] Hq Hn; cbn; lia.
  - intros [E H]. exists (get3 y (Nat.modulo (k + 1) 3) - get3 c (Nat.modulo (k + 1) 3)).
    assert (U := H (Nat.modulo (k + 1) 3)). assert (V := H (Nat.modulo (k + 2) 3)). rewrite in_map_iff. split.
    + apply zrange_In. destruct k as [|[|[|k]]]; [| | |lia]; cbn in *; lia.
    + exists (get3 y (Nat.modulo (k + 2) 3) - get3 c (Nat.modulo (k + 2) 3)). rewrite zrange_In. destruct c as [[x0 y0] z0], y as [[x1 y1] z1].
      destruct k as [|[|[|k]]]; [| | |lia]; cbn in *; (split; [repeat apply f_equal2; lia|lia]).
Qed.
Lemma projection_In cells fs off r q v : In (r, q, v) (grid_face_projection cells fs off) -> exists f ca cb, In f fs /\ dual_edge_pair cells f = Some (ca, cb) /\ snd q = proj_axis ca cb /\ In (fst q) (unit_squares (proj_corner ca cb) (proj_axis ca cb) (Z.min (snd ca) (snd cb))).
Proof.
  unfold grid_face_projection. rewrite in_flat_map. intros ((i & f) & I & J). exists f. destruct (dual_edge_pair cells f) as [[ca cb]|]; [|contradiction]. exists ca, cb. apply in_map_iff in J as (a & E & J).
  apply pair_equal_spec in E as [E _]. apply pair_equal_spec in E as [_ <-]. cbn [fst snd]. unfold enum in I. apply in_combine_r in I. auto.
Qed.
Lemma dual_pair_spec shape cells f ca cb : wf_cells shape cells -> dual_edge_pair cells f = Some (ca, cb) -> fst (af_dual f) <> snd (af_dual f) /\ In (fst (af_dual f), ca) cells /\ In (snd (af_dual f), cb) cells.
Proof.
  intros W. unfold dual_edge_pair, is_valid_edge. destruct (Z.eqb_spec (fst (af_dual f)) (snd (af_dual f))) as [|NE]; cbn [negb andb]; [discriminate|].
  destruct (cell_at cells (fst (af_dual f))) as [a|] eqn:A; [|discriminate]. destruct (cell_at cells (snd (af_dual f))) as [b|] eqn:B; [|discriminate]. intros E. apply Some_inj in E. apply pair_equal_spec in E as [-> ->].
  split; auto. split; apply (cellsi shape cells W); auto.
Qed.
Lemma owns_unique cells i j p : disjoint_cells cells -> owns cells i p -> owns cells j p -> i = j.
Proof. intros D (a & A & Ba) (b & B & Bb). exact (D i a j b p A B Ba Bb). Qed.
(** where the projected squares lie: on the square where the two cells touch, or, when the lower cell is narrower, on the low side of the lower cell *)
Lemma projection_place shape cells f ca cb y : AdaptiveFaces.pos3 shape -> wf_cells shape cells -> disjoint_cells cells -> (forall i c, In (i, c) cells -> dyadic c) -> In f (make_faces shape cells) -> dual_edge_pair cells f = Some (ca, cb) ->
  In y (unit_squares (proj_corner ca cb) (proj_axis ca cb) (Z.min (snd ca) (snd cb))) ->
  let d := af_axis f in proj_axis ca cb = d /\ (d < 3)%nat /\
  ((snd cb <= snd ca /\ owns cells (fst (af_dual f)) (add3 y d (-1)) /\ owns cells (snd (af_dual f)) y) \/ (snd ca < snd cb /\ owns cells (fst (af_dual f)) y /\ get3 y d = get3 (fst ca) d)).
Proof.
  intros PS W D DY Hf HE I d. destruct (@dual_pair_spec shape _ _ _ _ W HE) as (NE & Ia & Ib). destruct (af_dual f) as [a b] eqn:E. cbn [fst snd] in *.
  destruct (@c55_projection_square_partial shape cells f a b ca cb PS W D DY Hf E Ia Ib) as (AX & WD & CO). assert (Hd : (d < 3)%nat) by (apply faces_In in Hf; apply Hf).
  split; auto. split; auto. rewrite AX in I. apply unit_squares_In in I; auto. rewrite <- WD in I.
  assert (Na := proj1 (proj2 W _ _ Ia)). assert (Nb := proj1 (proj2 W _ _ Ib)).
  assert (G := fun y => @c26_face_geometry shape cells f a b PS W D DY Hf E y). cbn beta in G. destruct (Z.eqb_spec a (-2)); [lia|]. destruct (Z.eqb_spec b (-2)); [lia|].
  destruct (Z.ltb_spec (snd ca) (snd cb)) as [L|L].
  - right. split; [lia|]. assert (S : on_square (af_corner f) d (af_width f) (add3 y d (snd ca))).
    { rewrite <- CO. unfold on_square in *. fold d in I |- *. destruct I as [I1 I2]. rewrite !add3_get, Nat.eqb_refl by auto. split; [lia|]. intros i Hi Hn. rewrite !add3_get by auto. destruct (Nat.eqb_spec i d); [congruence|]. apply I2; auto. }
    apply G in S as [S1 S2]. fold d in S1, S2. rewrite add3_add3 in S1. destruct S1 as (ca' & Ia' & B1). assert (ca' = ca) by (apply (cellsi shape cells W) in Ia, Ia'; congruence). subst ca'.
    assert (Wa := proj1 (proj2 (proj2 W _ _ Ia))).
    assert (Q : get3 y d = get3 (fst ca) d).
    { (* the lower cell ends where the upper one begins *)
      destruct S2 as (cb' & Ib' & B2). assert (X := B1 d Hd). rewrite add3_get, Nat.eqb_refl in X by auto.
      destruct (Z.eq_dec (get3 y d) (get3 (fst ca) d)); auto. exfalso. apply NE. apply (D a ca b cb' (add3 y d (snd ca))); auto. intros i Hi. assert (Y := B1 i Hi). rewrite add3_get in Y |- * by auto. destruct (Nat.eqb_spec i d) as [->|]; lia. }
    split; auto. exists ca. split; auto. intros i Hi. assert (X := B1 i Hi). rewrite add3_get in X by auto. destruct (Nat.eqb_spec i d) as [->|]; lia.
  - left. split; [lia|]. rewrite CO in I. apply G in I. exact I.
Qed.
(** every projected square is a grid face *)
Lemma projection_in_grid m off : AdaptiveFaces.pos3 (cshape m) -> wf_cells (cshape m) (m_cubes m) -> disjoint_cells (m_cubes m) -> (forall i c, In (i, c) (m_cubes m) -> dyadic c) -> m_afaces m = make_faces (cshape m) (m_cubes m) ->
  forall r q v, In (r, q, v) (grid_face_projection (m_cubes m) (m_afaces m) off) -> is_grid_face m q.
Proof.
  intros PS W D DY FM r q v I. apply projection_In in I as (f & ca & cb & Hf & HE & AX & I). rewrite FM in Hf. destruct (@projection_place (cshape m) (m_cubes m) f ca cb (fst q) PS W D DY Hf HE I) as (A1 & A2 & A3).
  unfold is_grid_face. rewrite AX, A1. split; auto. assert (G : forall j p, owns (m_cubes m) j p -> AdaptiveSpec.in_grid (cshape m) p) by (intros j p (b & Ib & B); apply (proj2 W) in Ib; apply Ib, B).
  assert (Y : AdaptiveSpec.in_grid (cshape m) (fst q)) by (destruct A3 as [(_ & _ & O)|(_ & O & _)]; eauto). split; [specialize (Y (af_axis f) A2); lia|]. intros i Hi _. apply Y, Hi.
Qed.
(** Inside a wide exterior cell nothing is projected: for every well-formed exterior grid, both ids consistent (c57) *)
Lemma projection_inside_cell shape cells off i b y d : AdaptiveFaces.pos3 shape -> wf_cells shape cells -> disjoint_cells cells -> (forall i c, In (i, c) cells -> dyadic c) -> (d < 3)%nat -> In (i, b) cells -> in_box b y -> in_box b (add3 y d (-1)) ->
  face_sum (grid_face_projection cells (make_faces shape cells) off) (y, d) = 0%Qc.
Proof.
  intros PS W D DY Hd Ib B1 B2. apply face_sum_absent. intros r v I. apply projection_In in I as (f & ca & cb & Hf & HE & AX & I). cbn [fst snd] in *. destruct (@dual_pair_spec shape _ _ _ _ W HE) as (NE & Ia & _).
  destruct (@projection_place shape cells f ca cb y PS W D DY Hf HE I) as (A1 & A2 & A3). rewrite A1 in AX. subst d. assert (O1 : owns cells i y) by (exists b; split; assumption). assert (O2 : owns cells i (add3 y (af_axis f) (-1))) by (exists b; split; assumption).
  destruct A3 as [(_ & P1 & P2)|(_ & P1 & P2)].
  - apply NE. transitivity i; [exact (owns_unique D P1 O2)|exact (owns_unique D O1 P2)].
  - assert (i = fst (af_dual f)) by (exact (owns_unique D O1 P1)). subst i. assert (b = ca) by (apply (cellsi shape cells W) in Ib, Ia; congruence). subst b. assert (X := B2 (af_axis f) A2). rewrite add3_get, Nat.eqb_refl in X by auto. lia.
Qed.
Definition unit_cells (cells : acells) : Prop := forall i b, In (i, b) cells -> snd b = 1.
Lemma unit_dyadic b : snd b = 1 -> dyadic b.
Proof. intros H. exists 0. split; [lia|]. split; auto. intros. apply Z.divide_1_l. Qed.
Lemma unit_squares_1 c k : unit_squares c k 1 = [c].
Proof. unfold unit_squares. cbn [Z.to_nat Pos.to_nat Pos.iter_op zrange seq map flat_map app]. change (Pos.to_nat 1) with 1%nat. unfold zrange. cbn [seq map flat_map app]. rewrite Z.add_0_l. cbn. rewrite !add3_0. auto. Qed.
(** With exterior cells of width one, a grid face gets exactly one from the projection when both its sides are exterior, and nothing otherwise *)
Theorem c126_projection_unit shape cells off y d : AdaptiveFaces.pos3 shape -> wf_cells shape cells -> disjoint_cells cells -> unit_cells cells -> (d < 3)%nat ->
  face_sum (grid_face_projection cells (make_faces shape cells) off) (y, d) = if (0 <=? grid_from_cells cells y) && (0 <=? grid_from_cells cells (add3 y d (-1))) then 1%Qc else 0%Qc.
Proof.
  intros PS W D U Hd. assert (DY : forall i c, In (i, c) cells -> dyadic c) by (intros i c I; apply unit_dyadic, (U i), I).
  assert (NN : forall p, 0 <= grid_from_cells cells p <-> exists i, owns cells i p) by (intros p; apply gfc_nonneg; intros i b I; apply (proj2 W) in I; lia).
  destruct ((0 <=? grid_from_cells cells y) && (0 <=? grid_from_cells cells (add3 y d (-1)))) eqn:E.
  - apply andb_prop in E as [E1 E2]. apply Z.leb_le in E1, E2. apply NN in E1 as (b & Ob), E2 as (a & Oa).
    assert (NE : a <> b).
    { intros ->. destruct Oa as (ca & Ia & Ba), Ob as (cb & Ib & Bb). assert (ca = cb) by (apply (cellsi shape cells W) in Ia, Ib; congruence). subst cb. assert (S1 := U _ _ Ia). assert (X := Ba d Hd). assert (Y := Bb d Hd). rewrite add3_get, Nat.eqb_refl in X by auto. lia. }
    destruct (c26_one_face_per_meeting_pair shape cells PS W D) as (ND & _ & MT). destruct (proj2 (MT d a b Hd)) as (f & Hf & Fa & Fd).
    { left. split; auto. exists (add3 y d (-1)). split; auto. rewrite add3_add3. change (-1 + 1) with 0. rewrite add3_0. exact Ob. }
    unfold face_sum, grid_face_projection. rewrite lsum_flat.
    transitivity (lsum (fun f' => lsum (fun '(_, k, v) => if gface_eqb k (y, d) then v else 0%Qc) (match dual_edge_pair cells f' with None => [] | Some (ca, cb) => map (fun a => (0, (a, proj_axis ca cb), (1 / (Z2Qc (Z.min (snd ca) (snd cb)) * Z2Qc (Z.min (snd ca) (snd cb))))%Qc)) (unit_squares (proj_corner ca cb) (proj_axis ca cb) (Z.min (snd ca) (snd cb))) end)) (make_faces shape cells)).
    { etransitivity; [|apply lsum_enum]. apply lsum_ext. intros [i f'] _. destruct (dual_edge_pair cells f') as [[ca cb]|]; auto. rewrite !lsum_map. apply lsum_ext. auto. }
    rewrite (@lsum_single _ _ (make_faces shape cells) f).
    + destruct Oa as (ca & Ia & Ba), Ob as (cb & Ib & Bb). assert (S1 := U _ _ Ia). assert (S2 := U _ _ Ib).
      assert (DP : dual_edge_pair cells f = Some (ca, cb)).
      { unfold dual_edge_pair, is_valid_edge. rewrite Fd. cbn [fst snd]. rewrite (proj1 (cellsi shape cells W _ _) Ia), (proj1 (cellsi shape cells W _ _) Ib). rewrite (proj2 (Z.eqb_neq _ _) NE). auto. }
      rewrite DP, S1, S2. change (Z.min 1 1) with 1. rewrite unit_squares_1. destruct (@c55_projection_square_partial shape cells f a b ca cb PS W D DY Hf Fd Ia Ib) as (AX & WD & CO).
      rewrite S1, S2 in CO. change (1 <? 1) with false in CO. cbv iota in CO. cbn [map lsum]. rewrite AX, CO, Fa.
      assert (Q : af_corner f = y).
      { assert (G := proj2 (@c26_face_geometry shape cells f a b PS W D DY Hf Fd y)). assert (Na := proj1 (proj2 W _ _ Ia)). assert (Nb := proj1 (proj2 W _ _ Ib)). destruct (Z.eqb_spec a (-2)); [lia|]. destruct (Z.eqb_spec b (-2)); [lia|].
        rewrite Fa in G. specialize (G ltac:(split; eexists; eauto)). rewrite WD, S1, S2 in G. destruct G as [G1 G2]. assert (X : forall i, (i < 3)%nat -> get3 (af_corner f) i = get3 y i) by (intros i Hi; destruct (Nat.eq_dec i d) as [->|N]; [auto|specialize (G2 i Hi N); lia]).
        apply c3_ext; apply X; lia. }
      rewrite Q. replace (gface_eqb (y, d) (y, d)) with true by (symmetry; apply gface_eqb_eq; auto). change (Z2Qc 1) with 1%Qc. field. discriminate.
    + apply NoDup_map_inv in ND. exact ND.
    + exact Hf.
    + intros f' Hf' NF. destruct (dual_edge_pair cells f') as [[ca cb]|] eqn:DP; auto. rewrite lsum_map. apply lsum_0. intros p Ip. destruct (gface_eqb (p, proj_axis ca cb) (y, d)) eqn:G; auto. exfalso. apply gface_eqb_eq, pair_equal_spec in G as [-> G].
      destruct (@dual_pair_spec shape _ _ _ _ W DP) as (_ & Ia & Ib). assert (S1 := U _ _ Ia). assert (S2 := U _ _ Ib). destruct (@projection_place shape cells f' ca cb y PS W D DY Hf' DP Ip) as (A1 & _ & A3). rewrite A1 in G.
      destruct A3 as [(_ & P1 & P2)|(L & _)]; [|lia]. rewrite G in P1. apply NF. assert (DU : af_dual f' = af_dual f).
      { rewrite Fd. rewrite (surjective_pairing (af_dual f')). f_equal; eapply owns_unique; eauto. }
      clear -ND Hf Hf' Fa G DU. revert ND Hf Hf'. generalize (make_faces shape cells). intros l. induction l as [|x l IH]; intros ND I J; [contradiction|]. cbn [map] in ND. apply NoDup_cons_iff in ND as [N1 N2].
      assert (K : (af_axis f', af_dual f') = (af_axis f, af_dual f)) by congruence.
      destruct I as [->|I], J as [->|J]; auto.
      * exfalso. apply N1. rewrite <- K. apply in_map_iff. exists f'. auto.
      * exfalso. apply N1. rewrite K. apply in_map_iff. exists f. auto.
  - apply face_sum_absent. intros r v I. apply projection_In in I as (f & ca & cb & Hf & HE & AX & I). cbn [fst snd] in *. destruct (@dual_pair_spec shape _ _ _ _ W HE) as (_ & Ia & Ib). assert (S1 := U _ _ Ia). assert (S2 := U _ _ Ib).
    destruct (@projection_place shape cells f ca cb y PS W D DY Hf HE I) as (A1 & A2 & A3). rewrite A1 in AX. subst d. destruct A3 as [(_ & P1 & P2)|(L & _)]; [|lia].
    assert (X1 : 0 <= grid_from_cells cells y) by (apply NN; eauto). assert (X2 : 0 <= grid_from_cells cells (add3 y (af_axis f) (-1))) by (apply NN; eauto). apply Z.leb_le in X1, X2. rewrite X1, X2 in E. discriminate.
Qed.

(** ** C126 *)
Definition exterior_at (m : mesh3) (p : c3) : bool := 0 <=? grid_from_cells (m_cubes m) p.
(** For a loaded mesh whose exterior cells all have width one, the check accepts exactly when no piece of an input triangle is inverted, the pieces of every triangle add up to it, every grid face with an
    exterior cell on both sides gets nothing (up to 1e-5) from the cut faces and every other grid face - those on the wall of the domain included - is filled by cut faces. *)
Theorem c126_unit_exactly_partial m FV C : AdaptiveFaces.pos3 (cshape m) -> wf_cells (cshape m) (m_cubes m) -> disjoint_cells (m_cubes m) -> unit_cells (m_cubes m) -> m_afaces m = make_faces (cshape m) (m_cubes m) ->
  cut_face_entries m true FV = Some C -> (forall r q v, In (r, q, v) C -> is_grid_face m q) ->
  (faces_fully_utilized m FV = Some true <->
   m_bary m <> [] /\ not_inverted m /\ (forall j, 0 <= j < Z.of_nat (length (m_origF m)) -> near_one (used_of m j)) /\
   forall y d, is_grid_face m (y, d) -> near_one ((if exterior_at m y && exterior_at m (add3 y d (-1)) then 1 else 0) + face_sum C (y, d))%Qc).
Proof.
  intros PS W D U FM HC RC. rewrite (@c126_accepts_exactly m FV C HC RC).
  - apply and_iff_compat_l, and_iff_compat_l, and_iff_compat_l. split; intros H.
    + intros y d G. specialize (H _ G). rewrite FM, c126_projection_unit in H; auto. apply G.
    + intros [y d] G. assert (Hd : (d < 3)%nat) by apply G. rewrite FM, c126_projection_unit by assumption. exact (H y d G).
  - intros r q v. eapply projection_in_grid; eauto. intros i c I. apply unit_dyadic, (U i), I.
Qed.
(** The pieces of a triangle that tile it are accepted *)
Theorem c126_tiled_triangle m j : tiles (map (fun p => bf_barys (snd p)) (filter (fun p => bf_parent (snd p) =? j) (m_bary m))) -> near_one (used_of m j).
Proof.
  intros T. set (ps := map (fun '(fid, b) => (fid, (bf_barys b, bf_parent b))) (m_bary m)).
  assert (EQ : map (fun p : Z * (list q3 * Z) => fst (snd p)) (filter (fun p => (snd (snd p) =? j)%Z) ps) = map (fun p => bf_barys (snd p)) (filter (fun p => (bf_parent (snd p) =? j)%Z) (m_bary m))).
  { subst ps. clear. induction (m_bary m) as [|[i b] l IH]; auto. cbn [map filter snd]. destruct (bf_parent b =? j)%Z; cbn [map fst snd]; rewrite IH; auto. }
  assert (H := c70_column_sums ps j). rewrite EQ in H. specialize (H T).
  assert (S : used_of m j = 1%Qc).
  { rewrite <- H. unfold used_of, mulTv, face_bary_volumes, ps. rewrite !lsum_map. apply lsum_ext. intros [i b] _. unfold t_row, t_col, t_val. cbn [fst snd]. destruct (bf_parent b =? j); ring. }
  unfold near_one. rewrite S. replace (1 - 1)%Qc with 0%Qc by ring. vm_compute. discriminate.
Qed.
Lemma not_near_zero : ~ near_one 0.
Proof. unfold near_one. intros H. revert H. vm_compute. intros H. apply H. reflexivity. Qed.
(** Whatever the cut faces do, a grid face that gets nothing makes the check fail *)
Lemma missing_face m FV C q : cut_face_entries m true FV = Some C -> is_grid_face m q -> face_sum (grid_face_projection (m_cubes m) (m_afaces m) (Z.of_nat (length (m_faces m)))) q = 0%Qc -> face_sum C q = 0%Qc -> faces_fully_utilized m FV <> Some true.
Proof.
  intros HC G P Q H. unfold faces_fully_utilized, grid_utilized, face_grid_volume3 in H. rewrite HC in H. cbn [option_map] in H. destruct (bary_utilized m) as [b|]; [|discriminate].
  destruct (forallb _ (_ ++ C)); [|discriminate]. apply Some_inj in H. apply andb_prop in H as [_ H]. rewrite forallb_forall in H. apply grid_faces3_In in G. apply H in G. apply within5_spec in G. rewrite face_sum_app, P, Q in G. apply not_near_zero. exact G.
Qed.
(** REFUTED: a mesh with an exterior cell wider than one is never accepted (unless cut faces lie inside that cell) ... *)
Theorem c126_wide_cell_refuted m FV C i b y d : AdaptiveFaces.pos3 (cshape m) -> wf_cells (cshape m) (m_cubes m) -> disjoint_cells (m_cubes m) -> (forall i c, In (i, c) (m_cubes m) -> dyadic c) -> m_afaces m = make_faces (cshape m) (m_cubes m) ->
  cut_face_entries m true FV = Some C -> (d < 3)%nat -> In (i, b) (m_cubes m) -> in_box b y -> in_box b (add3 y d (-1)) -> (forall r v, ~ In (r, (y, d), v) C) ->
  faces_fully_utilized m FV <> Some true.
Proof.
  intros PS W D DY FM HC Hd Ib B1 B2 NC. apply (@missing_face m FV C (y, d) HC).
  - assert (G := proj2 (proj2 (proj2 W _ _ Ib)) y B1). split; [exact Hd|]. cbn [fst snd]. split; [specialize (G d Hd); lia|]. intros k Hk _. apply G, Hk.
  - rewrite FM. apply (@projection_inside_cell (cshape m) (m_cubes m) _ i b y d); auto.
  - apply face_sum_absent. exact NC.
Qed.
(** ... and neither is a mesh of unit exterior cells one of which lies at the wall of the domain (unless a cut face lies on that wall) *)
Theorem c126_wall_refuted m FV C y d : AdaptiveFaces.pos3 (cshape m) -> wf_cells (cshape m) (m_cubes m) -> disjoint_cells (m_cubes m) -> unit_cells (m_cubes m) -> m_afaces m = make_faces (cshape m) (m_cubes m) ->
  cut_face_entries m true FV = Some C -> is_grid_face m (y, d) -> get3 y d = 0 -> (forall r v, ~ In (r, (y, d), v) C) -> faces_fully_utilized m FV <> Some true.
Proof.
  intros PS W D U FM HC G E NC. assert (Hd : (d < 3)%nat) by apply G. apply (@missing_face m FV C (y, d) HC G); [|apply face_sum_absent; exact NC]. rewrite FM, c126_projection_unit by auto.
  assert (X : 0 <=? grid_from_cells (m_cubes m) (add3 y d (-1)) = false).
  { apply Z.leb_gt. destruct (Z.lt_ge_cases (grid_from_cells (m_cubes m) (add3 y d (-1))) 0) as [|N]; auto. exfalso. apply gfc_nonneg in N as (j & b & Ib & B); [|intros k b Ib; apply (proj2 W) in Ib; lia].
    assert (Q := proj2 (proj2 (proj2 W _ _ Ib)) _ B d Hd). rewrite add3_get, Nat.eqb_refl in Q by auto. lia. }
  rewrite X, andb_false_r. auto.
Qed.
(** concretely: the row of PropsValidation3 with one whole triangle *)
Definition row_tri : mesh3 := let m := row_loaded in
  mkMesh (m_origin m) (m_dx m) (m_vshape m) (m_verts m) (m_cut_edges m) (m_active m) (m_origV m) [(0, 1, 2)] (m_faces m) (m_cells m) (m_folded m) [(0, mkBary [(1, 0, 0); (0, 1, 0); (0, 0, 1)]%Qc 0)] (m_cubes m) (m_afaces m) (m_regions m).
Example c126_wall_case : bary_utilized row_tri = Some true /\ cut_face_entries row_tri true [1; 1]%Qc = Some [] /\ faces_fully_utilized row_tri [1; 1]%Qc = Some false /\ is_grid_face row_tri ((0, 0, 0), 0%nat).
Proof.
  split; [vm_compute; reflexivity|]. split; [vm_compute; reflexivity|]. split; [vm_compute; reflexivity|]. split; [cbn; lia|]. cbn [fst snd]. split; [vm_compute; split; discriminate|].
  intros [|[|[|i]]] Hi Hn; try lia; vm_compute; split; auto; discriminate.
Qed.
Example c126_two_cells : face_sum (grid_face_projection two_cells (make_faces (4, 2, 2) two_cells) 0) ((2, 0, 0), 0%nat) = 1%Qc /\ face_sum (grid_face_projection two_cells (make_faces (4, 2, 2) two_cells) 0) ((1, 0, 0), 0%nat) = 0%Qc.
Proof. split; apply Qc_is_canon; vm_compute; reflexivity. Qed.
(** a fully cut one-cell domain that is accepted: six axial faces, each with its grid area, and one triangle *)
Definition cube_face (ax : Z) (loop : list Z) (k : mask) (N : q3) : cut_face := mkCutFace k [loop] (AxialFace ax 0) N None None None.
Definition one_cell : mesh3 := mkMesh (0, 0, 0)%Qc (1, 1, 1)%Qc (2, 2, 2) [] [] (fun _ => true) [] [(0, 1, 2)]
  [cube_face 0 [0; 1; 3; 2] [Some 0; None; None] (1, 0, 0)%Qc; cube_face 0 [4; 5; 7; 6] [Some 1; None; None] (1, 0, 0)%Qc;
   cube_face 1 [0; 4; 5; 1] [None; Some 0; None] (0, 1, 0)%Qc; cube_face 1 [2; 6; 7; 3] [None; Some 1; None] (0, 1, 0)%Qc;
   cube_face 2 [0; 2; 6; 4] [None; None; Some 0] (0, 0, 1)%Qc; cube_face 2 [1; 3; 7; 5] [None; None; Some 1] (0, 0, 1)%Qc] [] []
  [(6, mkBary [(1, 0, 0); (0, 1, 0); (0, 0, 1)]%Qc 0)] [] [] [].
Example c126_accepted : faces_fully_utilized one_cell [1; 1; 1; 1; 1; 1]%Qc = Some true /\ unit_cells (m_cubes one_cell) /\ m_afaces one_cell = make_faces (cshape one_cell) (m_cubes one_cell).
Proof. split; [vm_compute; reflexivity|]. split; [intros i b []|reflexivity]. Qed.
(** ... and is refused when one of them is reported with the opposite normal, although it still covers its grid face *)
Theorem c126_normal_refuted : exists m FV, (forall f, In f (m_faces m) -> mask_count (cf_mask f) = 1%nat) /\ faces_fully_utilized m FV = Some false /\
  exists g, faces_fully_utilized (mkMesh (m_origin m) (m_dx m) (m_vshape m) (m_verts m) (m_cut_edges m) (m_active m) (m_origV m) (m_origF m) (map g (m_faces m)) (m_cells m) (m_folded m) (m_bary m) (m_cubes m) (m_afaces m) (m_regions m)) FV = Some true /\
  forall f, cf_loops (g f) = cf_loops f /\ (cf_N (g f) = cf_N f \/ cf_N (g f) = (fun '(x, y, z) => (- x, - y, - z)%Qc) (cf_N f)).
Proof.
  set (flip := fun f => mkCutFace (cf_mask f) (cf_loops f) (cf_id f) ((fun '(x, y, z) => (- x, - y, - z)%Qc) (cf_N f)) (cf_ext f) (cf_tri f) (cf_triV f)).
  exists (mkMesh (0, 0, 0)%Qc (1, 1, 1)%Qc (2, 2, 2) [] [] (fun _ => true) [] [(0, 1, 2)] (map flip (m_faces one_cell)) [] [] (m_bary one_cell) [] [] []), [1; 1; 1; 1; 1; 1]%Qc. cbn [m_origin m_dx m_vshape m_verts m_cut_edges m_active m_origV m_origF m_faces m_cells m_folded m_bary m_cubes m_afaces m_regions].
  split; [|split; [vm_compute; reflexivity|]].
  - intros f I. vm_compute in I. repeat destruct I as [<-|I]; try contradiction; reflexivity.
  - exists flip. split; [vm_compute; reflexivity|]. intros f. unfold flip. cbn [cf_loops cf_N]. auto.
Qed.

(** ** the rows of the projection *)
Lemma enum_at (A : Type) (l : list A) k a : In (k, a) (enum l) <-> 0 <= k /\ nth_error l (Z.to_nat k) = Some a.
Proof.
  unfold enum, zseq. rewrite Nat2Z.id. assert (G : forall (l : list A) s, In (k, a) (combine (map Z.of_nat (seq s (length l))) l) <-> Z.of_nat s <= k /\ nth_error l (Z.to_nat k - s) = Some a).
  { clear. induction l as [|b l IH]; intros s; cbn [length seq map combine In]; [split; [tauto|]; intros [_ H]; destruct (Z.to_nat k - s)%nat; discriminate|]. rewrite IH. split.
    - intros [E|[H E]]; [injection E as <- <-; split; [lia|]; rewrite Nat2Z.id, Nat.sub_diag; auto|]. split; [lia|]. replace (Z.to_nat k - s)%nat with (S (Z.to_nat k - S s)) by lia. auto.
    - intros [H E]. destruct (Z.to_nat k - s)%nat as [|n] eqn:D; [left; injection E as ->; f_equal; lia|]. right. split; [lia|]. replace (Z.to_nat k - S s)%nat with n by lia. auto. }
  rewrite (G l 0%nat), Nat.sub_0_r. tauto.
Qed.
Lemma enum_nodup (A : Type) (l : list A) : NoDup (enum l).
Proof.
  unfold enum, zseq. rewrite Nat2Z.id. assert (G : forall (l : list A) s, NoDup (combine (map Z.of_nat (seq s (length l))) l)); [|apply G].
  clear. induction l as [|b l IH]; intros s; cbn [length seq map combine]; constructor; auto. intros I. apply in_combine_l in I. apply in_map_iff in I as (j & E & J). apply in_seq in J. lia.
Qed.
Lemma unit_squares_length c k w : 0 <= w -> Z.of_nat (length (unit_squares c k w)) = w * w.
Proof.
  intros W. unfold unit_squares. assert (G : forall (l : list Z), Z.of_nat (length (flat_map (fun i => map (fun j => add3 (add3 c (Nat.modulo (k + 1) 3) i) (Nat.modulo (k + 2) 3) j) (zrange 0 (Z.to_nat w))) l)) = Z.of_nat (length l) * w).
  { induction l as [|x l IH]; [reflexivity|]. cbn [flat_map]. rewrite app_length, Nat2Z.inj_add, IH, map_length, zrange_length, Z2Nat.id by auto. cbn [length]. lia. }
  rewrite G, zrange_length, Z2Nat.id by auto. reflexivity.
Qed.
(** the row of an exterior face is [offset] plus its place among the exterior faces: its entries add up to one, each of them 1 / w^2 where w is the width of the narrower of the two cells, in one entry for each of the w^2 grid
    faces of its square; a face with no cell on one side has an empty row, and there are no other rows *)
Theorem c126_rows cells fs off : (forall i c, In (i, c) cells -> 0 < snd c) ->
  (forall r q v, In (r, q, v) (grid_face_projection cells fs off) <-> exists f a b, off <= r /\ nth_error fs (Z.to_nat (r - off)) = Some f /\ dual_edge_pair cells f = Some (a, b) /\
     In (fst q) (unit_squares (proj_corner a b) (proj_axis a b) (Z.min (snd a) (snd b))) /\ snd q = proj_axis a b /\ v = (1 / (Z2Qc (Z.min (snd a) (snd b)) * Z2Qc (Z.min (snd a) (snd b))))%Qc) /\
  forall i f, 0 <= i -> nth_error fs (Z.to_nat i) = Some f ->
    lsum (fun '(r, _, v) => if r =? off + i then v else 0%Qc) (grid_face_projection cells fs off) = match dual_edge_pair cells f with Some _ => 1%Qc | None => 0%Qc end.
Proof.
  intros PW. split.
  - intros r [y k] v. unfold grid_face_projection. rewrite in_flat_map. cbn [fst snd]. split.
    + intros ((i & f) & I & J). apply enum_at in I as [I0 I]. destruct (dual_edge_pair cells f) as [[ca cb]|] eqn:DP; [|destruct J]. apply in_map_iff in J as (a & E & J). apply pair_equal_spec in E as [E <-]. apply pair_equal_spec in E as [<- E]. apply pair_equal_spec in E as [<- <-].
      exists f, ca, cb. split; [lia|]. replace (off + i - off) with i by ring. auto.
    + intros (f & a & b & L & N & DP & J & -> & ->). exists (r - off, f). split; [apply enum_at; split; [lia|auto]|]. rewrite DP. apply in_map_iff. exists y. split; [|exact J]. replace (off + (r - off)) with r by ring. reflexivity.
  - intros i f Hi Hf. unfold grid_face_projection. rewrite lsum_flat. erewrite (lsum_single _ (x := (i, f)) (enum_nodup fs)); [|apply enum_at; auto|].
    + destruct (dual_edge_pair cells f) as [[a b]|] eqn:DP; [|reflexivity]. rewrite lsum_map, Z.eqb_refl. set (w := Z.min (snd a) (snd b)).
      assert (WP : 0 < w). { unfold dual_edge_pair in DP. destruct (is_valid_edge _ _); [|discriminate]. destruct (cell_at cells (fst (af_dual f))) as [a'|] eqn:A; [|discriminate]. destruct (cell_at cells (snd (af_dual f))) as [b'|] eqn:B; [|discriminate]. apply Some_inj in DP. apply pair_equal_spec in DP as [-> ->].
        unfold cell_at in A, B. assert (MF : forall k c, map_find Z.compare k cells = Some c -> In (k, c) cells) by (clear; induction cells as [|[k' c'] l IH]; cbn; intros k c H; [discriminate|]; destruct (Z.compare_spec k k') as [->|X|X]; [injection H as ->; auto|discriminate || (right; apply IH; auto)|right; apply IH; auto]). apply MF in A, B. apply PW in A, B. unfold w. lia. }
      assert (G : forall (l : list c3) (k : Qc), lsum (fun _ => k) l = (Z2Qc (Z.of_nat (length l)) * k)%Qc). { induction l as [|x l IH]; intros k; [cbn; rewrite Z2Qc_0; ring|]. cbn [lsum length]. rewrite IH, Nat2Z.inj_succ, <- Z.add_1_l, Z2Qc_plus, Z2Qc_1. ring. }
      rewrite G, unit_squares_length by lia. rewrite Z2Qc_mult. assert (NZ : Z2Qc w <> 0%Qc) by (intros X; rewrite <- Z2Qc_0 in X; assert (Y := proj2 (Z2Qc_lt 0 w) WP); rewrite X in Y; exact (Qclt_not_le _ _ Y (Qcle_refl _))). field. auto.
    + intros [j g] I NE. apply enum_at in I as [J0 J]. destruct (dual_edge_pair cells g) as [[a b]|]; [|reflexivity]. rewrite lsum_map. apply lsum_0. intros x _. destruct (Z.eqb_spec (off + j) (off + i)) as [E|]; auto. exfalso. apply NE. assert (j = i) by lia. subst j. congruence.
Qed.
