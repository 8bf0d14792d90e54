(** Properties C05-C11: vertices and masked geometry (exact arithmetic). *)
From Verif Require Import Base Num CoordMask CoordMaskSpec CoordMaskProofs Vertex VertexSpec VertexProofs ThresholdProofs.
Local Open Scope Qc_scope.

(** a non-trivial sample vertex: (3, 2.25, 7) in 3D *)
Definition sample_v : vertex := mkVertex [3; 2; 7]%Z [0; Q2Qc (1 # 4); 0] [true; false; true].
Definition sample_w : vertex := mkVertex [3; 2; 6]%Z [0; Q2Qc (3 # 4); qhalf] [true; false; false].
Example sample_ok : v_wf 3 sample_v /\ normalised sample_v /\ flags_exact sample_v
  /\ v_wf 3 sample_w /\ normalised sample_w /\ flags_exact sample_w.
Proof.
  unfold v_wf, normalised, flags_exact; simpl.
  repeat split; auto; repeat (constructor; try split); try reflexivity; try discriminate.
Qed.

(** C05 *)
Theorem c05_vertex_incidence : forall D v x, v_wf D v -> normalised v ->
  (In x (v_possible_cells v) <-> in_closed_cell x (pos v)).
Proof. exact v_possible_cells_In. Qed.
Example c05_ex : v_possible_cells sample_v = [[2; 2; 6]; [2; 2; 7]; [3; 2; 6]; [3; 2; 7]]%Z.
Proof. reflexivity. Qed.

(** C06: single list of vertices (edges, one loop) *)
Theorem c06_element_incidence : forall V D C S,
  (forall i, In i C -> v_wf D (V i) /\ normalised (V i)) ->
  (exists e, forall i, In i C -> in_closed_cell e (pos (V i))) ->
  geometry_possible_cells V C = Some S ->
  forall x, In x S <-> forall i, In i C -> in_closed_cell x (pos (V i)).
Proof. exact geometry_cells_spec. Qed.
(** several loops *)
Theorem c06_face_incidence : forall V D (C : list (list Z)) S,
  C <> [] -> (forall l, In l C -> l <> []) ->
  (forall l i, In l C -> In i l -> v_wf D (V i) /\ normalised (V i)) ->
  (exists e, forall l i, In l C -> In i l -> in_closed_cell e (pos (V i))) ->
  geometry_possible_cells2 V C = Some S ->
  forall x, In x S <-> forall l i, In l C -> In i l -> in_closed_cell x (pos (V i)).
Proof. exact geometry_cells2_spec. Qed.
(** the element- and the generator-level computation agree *)
Theorem c06_generator_agrees : forall V D C, C <> [] ->
  (forall i, In i C -> v_wf D (V i) /\ normalised (V i)) ->
  (exists e, forall i, In i C -> in_closed_cell e (pos (V i))) ->
  geometry_possible_cells V C = Some (gen_possible_cells V C).
Proof. exact gen_eq_geometry. Qed.
(** the generator computation needs no common cell: it is always the intersection *)
Theorem c06_generator_is_intersection : forall V D C x, C <> [] ->
  (forall i, In i C -> v_wf D (V i) /\ normalised (V i)) ->
  (In x (gen_possible_cells V C) <-> forall i, In i C -> in_closed_cell x (pos (V i))).
Proof. exact gen_possible_cells_In. Qed.
(** the common-cell hypothesis is necessary for the mask computation *)
Theorem c06_common_cell_needed : exists V C S x,
  (forall i, In i C -> v_wf 1 (V i) /\ normalised (V i)) /\
  geometry_possible_cells V C = Some S /\ In x S /\
  exists i, In i C /\ ~ in_closed_cell x (pos (V i)).
Proof.
  exists (fun i => if (i =? 0)%Z then mkVertex [0]%Z [qhalf] [false] else mkVertex [5]%Z [qhalf] [false]).
  exists [0; 1]%Z, [[0]]%Z, [0]%Z. split.
  - intros i [<-|[<-|[]]]; (split; [repeat split; reflexivity|]); (constructor; [split; [discriminate|reflexivity]|constructor]).
  - split; [reflexivity|]. split; [left; reflexivity|]. exists 1%Z. split; [right; left; reflexivity|].
    intros H. inversion H as [|a b c d [H1 H2]]; subst. revert H2. unfold Qcle. vm_compute. intros HH; apply HH; reflexivity.
Qed.
Definition sample_V (i : Z) : vertex := if (i =? 0)%Z then sample_v else sample_w.
Example c06_ex : geometry_possible_cells sample_V [0; 1]%Z = Some [[2; 2; 6]; [3; 2; 6]]%Z
  /\ (exists e, forall i, In i [0; 1]%Z -> in_closed_cell e (pos (sample_V i))).
Proof.
  split; [reflexivity|]. exists [3; 2; 6]%Z. intros i [<-|[<-|[]]]; repeat constructor; discriminate.
Qed.

(** C07 *)
Theorem c07_from_vertex : forall p,
  pos (from_vertex p) = p /\ normalised (from_vertex p) /\ flags_exact (from_vertex p) /\
  v_coord (from_vertex p) = map qfloor p /\ v_wf (length p) (from_vertex p).
Proof.
  exact (fun p => conj (from_vertex_pos p) (conj (from_vertex_normalised p) (conj (from_vertex_flags p)
    (conj (from_vertex_floor p) (from_vertex_wf p))))).
Qed.
Theorem c07_repair : forall v, pos (repair v) = pos v /\ normalised (repair v).
Proof. exact (fun v => conj (repair_pos v) (repair_normalised v)). Qed.
Theorem c07_repair_fixpoint : forall v D, v_wf D v -> normalised v -> repair v = v.
Proof. exact repair_id. Qed.
(** floor is the mathematical floor *)
Theorem c07_floor : forall x, Z2Qc (qfloor x) <= x /\ x < Z2Qc (qfloor x) + 1.
Proof. exact qfloor_spec. Qed.
Example c07_ex : let r := from_vertex [Q2Qc (-1 # 4); Z2Qc 2; Q2Qc (7 # 3)] in
  v_coord r = [-1; 2; 2]%Z /\ map this (v_quot r) = [3 # 4; 0; 1 # 3]%Q /\ v_clamped r = [false; true; false].
Proof. repeat split; reflexivity. Qed.

(** C08 *)
Theorem c08_irreflexive : forall a, v_ltb a a = false.
Proof. exact v_ltb_irrefl. Qed.
Theorem c08_transitive : forall D a b c, v_wf D a -> v_wf D b -> v_wf D c ->
  v_ltb a b = true -> v_ltb b c = true -> v_ltb a c = true.
Proof. exact v_ltb_trans. Qed.
Theorem c08_total_up_to_eq : forall D a b, v_wf D a -> v_wf D b ->
  (v_eqb a b = true <-> v_ltb a b = false /\ v_ltb b a = false).
Proof. exact v_incomparable_eq. Qed.
Theorem c08_eq_is_same_point : forall D a b, v_wf D a -> v_wf D b -> normalised a -> normalised b ->
  (v_eqb a b = true <-> pos a = pos b).
Proof. exact v_eqb_pos. Qed.
Example c08_ex : v_ltb sample_w sample_v = true /\ v_ltb sample_v sample_w = false.
Proof. split; reflexivity. Qed.

(** C09 *)
Theorem c09_add : forall a b D, v_wf D a -> v_wf D b ->
  pos (v_add a b) = vec_add (pos a) (pos b) /\ normalised (v_add a b) /\
  (flags_sound a -> flags_sound b -> flags_sound (v_add a b)).
Proof. exact (fun a b D HA HB => conj (v_add_pos a b D HA HB) (conj (v_add_normalised a b) (v_add_flags D a b HA HB))). Qed.
Theorem c09_sub : forall a b D, v_wf D a -> v_wf D b ->
  pos (v_sub a b) = vec_sub (pos a) (pos b) /\ normalised (v_sub a b) /\
  (flags_sound a -> flags_sound b -> flags_sound (v_sub a b)).
Proof. exact (fun a b D HA HB => conj (v_sub_pos a b D HA HB) (conj (v_sub_normalised a b) (v_sub_flags D a b HA HB))). Qed.
Theorem c09_scale : forall s a D, v_wf D a ->
  pos (v_scale s a) = vec_scale s (pos a) /\ normalised (v_scale s a) /\ flags_sound (v_scale s a).
Proof. exact (fun s a D HA => conj (v_scale_pos s a D HA) (conj (v_scale_normalised s a) (v_scale_flags s a D HA))). Qed.
Theorem c09_lerp : forall a b t D, v_wf D a -> v_wf D b ->
  pos (v_lerp a b t) = vec_add (vec_scale (1 - t) (pos a)) (vec_scale t (pos b)) /\ normalised (v_lerp a b t) /\
  (flags_sound a -> flags_sound b -> flags_sound (v_lerp a b t)).
Proof. exact (fun a b t D HA HB => conj (v_lerp_pos a b t D HA HB) (conj (v_lerp_normalised a b t) (v_lerp_flags D a b t HA HB))). Qed.
(** a shared clamped plane stays clamped along a lerp *)
Theorem c09_lerp_keeps_shared_plane : forall D a b t i c, v_wf D a -> v_wf D b ->
  nth_error (optional_index a) i = Some (Some c) -> nth_error (optional_index b) i = Some (Some c) ->
  nth_error (v_clamped (v_lerp a b t)) i = Some true.
Proof. exact v_lerp_keeps. Qed.
Example c09_ex : v_clamped (v_lerp sample_v sample_w qhalf) = [true; false; false]
  /\ v_coord (v_lerp sample_v sample_w qhalf) = [3; 2; 6]%Z
  /\ map this (v_quot (v_lerp sample_v sample_w qhalf)) = [0; 1 # 2; 3 # 4]%Q.
Proof. repeat split; reflexivity. Qed.

(** C10: for every axis, either nothing changes and the point is at least t away from every plane, or the
    axis moves by less than 2t onto a plane and is flagged. *)
Theorem c10_thresholding : forall t v D i, v_wf D v -> normalised v -> 0 <= t -> t <= qhalf -> (i < D)%nat ->
  exists p p' q' b b', nth_error (pos v) i = Some p /\ nth_error (pos (apply_thresholding t v)) i = Some p' /\
    nth_error (v_quot (apply_thresholding t v)) i = Some q' /\ 0 <= q' /\ q' < 1 /\
    nth_error (v_clamped v) i = Some b /\ nth_error (v_clamped (apply_thresholding t v)) i = Some b' /\
    ((p' = p /\ b' = b /\ (forall z, t <= qabs (p - Z2Qc z))) \/
     (b' = true /\ exists z, p' = Z2Qc z /\ qabs (p - p') < t + t)).
Proof. exact apply_thresholding_axis. Qed.
Theorem c10_normalised : forall t v D, v_wf D v -> normalised v -> 0 <= t -> t <= qhalf ->
  normalised (apply_thresholding t v).
Proof. exact apply_thresholding_normalised. Qed.
Theorem c10_idempotent : forall t v, apply_thresholding t (apply_thresholding t v) = apply_thresholding t v.
Proof. exact apply_thresholding_idem. Qed.
Example c10_ex : let t := Q2Qc (1 # 10) in
  let r := apply_thresholding t (mkVertex [3; 2; 7]%Z [Q2Qc (1 # 20); Q2Qc (17 # 20); Q2Qc (1 # 2)] [false; false; false]) in
  v_coord r = [3; 3; 7]%Z /\ map this (v_quot r) = [0; 0; 1 # 2]%Q /\ v_clamped r = [true; true; false].
Proof. repeat split; reflexivity. Qed.

(** C11: exact characterisation of approx: distance within eps AND the same integer part. *)
Theorem c11_approx_partial : forall D a b, v_wf D a -> v_wf D b -> normalised a -> normalised b ->
  (approx threshold_epsilon a b = true <->
   v_coord b = v_coord a /\ Forall2 (fun p p' => qabs (p - p') <= threshold_epsilon) (pos a) (pos b)).
Proof. intros D a b HA HB NA NB. exact (approx_spec threshold_epsilon D a b HA HB NA NB eq_refl). Qed.
(** in particular it is sound *)
Theorem c11_approx_sound_partial : forall D a b, v_wf D a -> v_wf D b -> normalised a -> normalised b ->
  approx threshold_epsilon a b = true -> Forall2 (fun p p' => qabs (p - p') <= threshold_epsilon) (pos a) (pos b).
Proof. intros D a b HA HB NA NB H. exact (proj2 (proj1 (approx_spec threshold_epsilon D a b HA HB NA NB eq_refl) H)). Qed.
(** and incomplete: two points 2^-40 apart on either side of a plane are not approx *)
Theorem c11_approx_refuted : exists a b, v_wf 1 a /\ v_wf 1 b /\ normalised a /\ normalised b /\
  Forall2 (fun p p' => qabs (p - p') <= threshold_epsilon) (pos a) (pos b) /\
  approx threshold_epsilon a b = false /\ approx threshold_epsilon b a = false.
Proof.
  exists (mkVertex [3]%Z [0] [true]), (mkVertex [2]%Z [Q2Qc (1099511627775 # 1099511627776)] [false]).
  repeat split; try reflexivity; repeat (constructor; try split); try discriminate.
Qed.

(** C67: clamping a vertex: it lands on every plane of the mask, stays normalised, and the other coordinates do not move *)
Lemma nth_error_pos v i : nth_error (pos v) i = match nth_error (v_coord v) i, nth_error (v_quot v) i with Some c, Some q => Some (Z2Qc c + q) | _, _ => None end.
Proof. unfold pos. rewrite nth_error_zipwith. destruct (nth_error (v_coord v) i), (nth_error (v_quot v) i); auto. Qed.
Theorem c67_clamp_vertex : forall D m v, v_wf D v -> length m = D -> let w := clamp_vertex m v in
  v_wf D w /\ (normalised v -> normalised w) /\ (flags_exact v -> flags_exact w) /\
  (forall i x, binds m i x -> nth_error (pos w) i = Some (Z2Qc x) /\ binds (v_mask w) i x) /\
  (forall i, ~ bound m i -> nth_error (pos w) i = nth_error (pos v) i).
Proof.
  intros D m [c q b] (Lc & Lq & Lb) Lm. cbn [v_coord v_quot v_clamped] in *. cbn zeta. unfold clamp_vertex. cbn [v_coord v_quot v_clamped].
  assert (LB : length (as_bitset m) = D) by (unfold as_bitset; rewrite map_length; auto).
  split; [|split; [|split; [|split]]].
  - unfold v_wf, clamp_coord, bitset_or. cbn [v_coord v_quot v_clamped]. rewrite !zipwith_length by lia. lia.
  - unfold normalised. cbn [v_quot]. clear Lc Lb LB. revert D m Lq Lm. induction q as [|x q IH]; intros [|D] [|o m] Lq Lm H; cbn in Lq, Lm; try discriminate; cbn [zipwith]; auto.
    inversion H as [|? ? H1 H2]; subst. constructor; [|apply (IH D); auto]. destruct o; auto. split; [apply Qcle_refl|reflexivity].
  - unfold flags_exact. cbn [v_quot v_clamped]. clear Lc LB. revert D m b Lq Lb Lm. induction q as [|x q IH]; intros [|D] [|o m] [|y b] Lq Lb Lm H; cbn in Lq, Lm, Lb; try discriminate; [constructor|].
    inversion H as [|? ? ? ? H1 H2]; subst. unfold bitset_or, as_bitset. cbn [map zipwith]. constructor; [|apply (IH D); auto]. destruct o; cbn [is_some]; [rewrite orb_true_r; tauto|rewrite orb_false_r; auto].
  - intros i x B. unfold binds in B |- *. rewrite nth_error_pos. unfold v_mask, clamp_coord. cbn [v_coord v_quot]. rewrite !nth_error_zipwith, B.
    assert (i < D)%nat by (rewrite <- Lm; apply nth_error_Some; congruence).
    destruct (nth_error c i) eqn:Ec; [|apply nth_error_None in Ec; lia]. destruct (nth_error q i) eqn:Eq; [|apply nth_error_None in Eq; lia]. split; [f_equal; ring|]. reflexivity.
  - intros i N. rewrite !nth_error_pos. unfold clamp_coord. cbn [v_coord v_quot]. rewrite !nth_error_zipwith.
    destruct (nth_error m i) as [[x|]|] eqn:E; [exfalso; apply N; exists x; auto| |].
    + destruct (nth_error c i), (nth_error q i); auto.
    + apply nth_error_None in E. rewrite (proj2 (nth_error_None c i)) by lia. auto.
Qed.
Example c67_vertex_ex : pos (clamp_vertex [None; Some 5%Z; None] sample_v) = [Z2Qc 3; Z2Qc 5; Z2Qc 7] /\ v_wf 3 sample_v.
Proof. split; [|apply sample_ok]. cbn. repeat (apply f_equal2; [apply Qc_is_canon; reflexivity|]). reflexivity. Qed.

(** C68: the clamped flags of a vertex and its mask tell the same story when the flags are exact *)
Theorem c68_flags : forall D v, v_wf D v -> flags_exact v -> optional_index v = v_mask v /\
  (forall i x, binds (optional_index v) i x -> nth_error (pos v) i = Some (Z2Qc x)) /\
  (is_grid_vertex v = true <-> pos v = map Z2Qc (v_coord v)) /\
  (normalised v -> forall i x, nth_error (pos v) i = Some (Z2Qc x) -> binds (optional_index v) i x).
Proof.
  intros D [c q b] (Lc & Lq & Lb) FE. cbn [v_coord v_quot v_clamped] in *. unfold flags_exact in FE. cbn [v_quot v_clamped] in FE.
  assert (OM : optional_index (mkVertex c q b) = v_mask (mkVertex c q b)).
  { unfold optional_index, v_mask. cbn [v_coord v_quot v_clamped]. revert D c q b Lc Lq Lb FE. induction D as [|D IH]; intros [|x c] [|y q] [|z b] Lc Lq Lb FE; cbn in Lc, Lq, Lb; try discriminate; auto.
    inversion FE as [|? ? ? ? H1 H2]; subst. cbn [zipwith]. f_equal; [|apply IH; auto]. destruct (qeqb y 0) eqn:E; [apply qeqb_eq in E; apply H1 in E; rewrite E; auto|]. destruct z; auto. rewrite (proj1 H1 eq_refl) in E. discriminate. }
  split; [exact OM|]. split; [|split].
  - rewrite OM. intros i x. unfold binds, v_mask. rewrite nth_error_pos. cbn [v_coord v_quot]. rewrite nth_error_zipwith. destruct (nth_error c i); [|discriminate]. destruct (nth_error q i) as [y|]; [|discriminate].
    destruct (qeqb y 0) eqn:E; [|discriminate]. apply qeqb_eq in E. subst y. intros H. injection H as ->. f_equal. ring.
  - clear OM. unfold is_grid_vertex, pos. cbn [v_coord v_quot v_clamped]. revert D c q b Lc Lq Lb FE. induction D as [|D IH]; intros [|x c] [|y q] [|z b] Lc Lq Lb FE; cbn in Lc, Lq, Lb; try discriminate; [cbn; tauto|].
    inversion FE as [|? ? ? ? H1 H2]; subst. cbn [zipwith map forallb]. rewrite andb_true_iff. assert (IH' := IH c q b ltac:(auto) ltac:(auto) ltac:(auto) H2). split.
    + intros [-> A]. rewrite (proj1 H1 eq_refl). f_equal; [ring|]. apply IH'. exact A.
    + intros E. assert (E1 := f_equal (hd 0) E). assert (E2 := f_equal (@tl _) E). cbn [hd tl] in E1, E2. split; [apply H1|apply IH'; auto].
      replace y with (Z2Qc x + y - Z2Qc x) by ring. rewrite E1. ring.
  - intros N i x H. rewrite OM. revert H. unfold binds, v_mask. rewrite nth_error_pos. cbn [v_coord v_quot]. rewrite nth_error_zipwith. unfold normalised in N. cbn [v_quot] in N.
    destruct (nth_error c i) as [z|]; [|discriminate]. destruct (nth_error q i) as [y|] eqn:Ey; [|discriminate]. intros H. apply Some_inj in H. rewrite Forall_forall in N. destruct (N y (nth_error_In _ _ Ey)) as [N1 N2].
    assert (F : qfloor (Z2Qc x) = z) by (apply qfloor_unique; rewrite <- H; qc_lra). assert (F' : qfloor (Z2Qc x) = x) by (apply qfloor_unique; qc_lra).
    assert (ZX : z = x) by congruence. clear F F'. subst z. assert (Y : y = 0) by (replace y with (Z2Qc x + y - Z2Qc x) by ring; rewrite H; ring). subst y. reflexivity.
Qed.
Example c68_ex : flags_exact sample_v /\ optional_index sample_v = [Some 3; None; Some 7]%Z /\ is_grid_vertex sample_v = false /\ is_grid_vertex (vertex_of_coord [1; 2]%Z) = true.
Proof. split; [apply sample_ok|]. auto. Qed.

(** C06 for the generator on several loops; None is exactly the undefined access to an empty first loop *)
Theorem c06_generator_loops : forall V D (C : list (list Z)), (forall l i, In l C -> In i l -> v_wf D (V i) /\ normalised (V i)) ->
  (gen_possible_cells2 V C = None <-> exists t, C = [] :: t) /\
  (forall S, gen_possible_cells2 V C = Some S -> C <> [] -> forall x, In x S <-> forall l i, In l C -> In i l -> in_closed_cell x (pos (V i))).
Proof.
  intros V D C W. split.
  - destruct C as [|[|f l] t]; cbn; [split; [discriminate|intros [? ?]; discriminate]|split; eauto|split; [discriminate|intros [? ?]; discriminate]].
  - destruct C as [|[|f l] t]; cbn [gen_possible_cells2]; [congruence|discriminate|]. intros S H _ x. apply Some_inj in H; subst S. rewrite intersect_loop_In.
    rewrite (v_possible_cells_In D) by (apply (W (f :: l)); cbn; auto). split.
    + intros [_ A] l' i Hl Hi. rewrite <- (v_possible_cells_In D) by (apply (W l'); auto). apply A. apply in_map_iff. exists i. split; auto. apply in_concat. eauto.
    + intros A. split; [apply (A (f :: l)); cbn; auto|]. intros s Hs. apply in_map_iff in Hs as (i & <- & Hi). apply in_concat in Hi as (l' & Hl & Hi). rewrite (v_possible_cells_In D) by (apply (W l'); auto). eauto.
Qed.
Example c06_loops_ex : gen_possible_cells2 sample_V [[0; 1]; [1]]%Z = Some [[2; 2; 6]; [3; 2; 6]]%Z.
Proof. reflexivity. Qed.

Print Assumptions c05_vertex_incidence.
Print Assumptions c06_element_incidence.
Print Assumptions c06_face_incidence.
Print Assumptions c06_generator_agrees.
Print Assumptions c06_generator_is_intersection.
Print Assumptions c06_common_cell_needed.
Print Assumptions c07_from_vertex.
Print Assumptions c07_repair.
Print Assumptions c07_repair_fixpoint.
Print Assumptions c08_irreflexive.
Print Assumptions c08_transitive.
Print Assumptions c08_total_up_to_eq.
Print Assumptions c08_eq_is_same_point.
Print Assumptions c09_add.
Print Assumptions c09_sub.
Print Assumptions c09_scale.
Print Assumptions c09_lerp.
Print Assumptions c09_lerp_keeps_shared_plane.
Print Assumptions c10_thresholding.
Print Assumptions c10_normalised.
Print Assumptions c10_idempotent.
Print Assumptions c11_approx_partial.
Print Assumptions c11_approx_sound_partial.
Print Assumptions c11_approx_refuted.
