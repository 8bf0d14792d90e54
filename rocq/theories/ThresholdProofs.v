From Verif Require Import Base Num CoordMask CoordMaskSpec CoordMaskProofs Vertex VertexSpec VertexProofs.
Local Open Scope Qc_scope.

Lemma qabs_cases x : (0 <= x /\ qabs x = x) \/ (x < 0 /\ qabs x = - x).
Proof.
  unfold qabs. destruct (qltb x 0) eqn:E; [right; apply qltb_lt in E|left; apply qltb_ge in E]; auto.
Qed.
Lemma qabs_le x e : qabs x <= e <-> - e <= x /\ x <= e.
Proof. destruct (qabs_cases x) as [[H ->]|[H ->]]; (split; [intros; split; qc_lra|intros [? ?]; qc_lra]). Qed.
Lemma qabs_nonneg x : 0 <= qabs x.
Proof. destruct (qabs_cases x) as [[H ->]|[H ->]]; qc_lra. Qed.

Lemma negb_qltb e x : negb (qltb e x) = true <-> x <= e.
Proof. rewrite negb_true_iff. apply qltb_ge. Qed.

(** ** one axis of apply_thresholding *)
Lemma threshold_axis_spec t c q b c' q' b' :
  0 <= q -> q < 1 -> 0 <= t -> t <= qhalf -> threshold_axis t c q b = (c', q', b') ->
  (* either untouched and not strictly within t of a plane *)
  (c' = c /\ q' = q /\ b' = b /\ t <= q /\ t <= 1 - q) \/
  (* or moved down *)
  (c' = c /\ q' = 0 /\ b' = true /\ q < t) \/
  (* or up *)
  (c' = (c + 1)%Z /\ q' = 0 /\ b' = true /\ qhalf <= q /\ 1 - q < t * (q + 1) /\ 1 - q < t + t).
Proof.
  intros H0 H1 Ht0 Ht1. unfold threshold_axis. destruct (qltb q qhalf) eqn:E.
  - apply qltb_lt in E. destruct (qltb q t) eqn:E2.
    + apply qltb_lt in E2. intros [= <- <- <-]. right; left; auto.
    + apply qltb_ge in E2. intros [= <- <- <-]. left. repeat split; auto; qc_lra.
  - apply qltb_ge in E. destruct (qltb (- t * qabs (q + 1)) (q - 1)) eqn:E2.
    + apply qltb_lt in E2. intros [= <- <- <-]. right; right. repeat split; auto.
      * destruct (qabs_cases (q + 1)) as [[H H']|[H H']]; rewrite H' in E2; qc_lra.
      * assert (HH : 1 - q < t * (q + 1)) by (destruct (qabs_cases (q + 1)) as [[H H']|[H H']]; rewrite H' in E2; qc_lra).
        apply Qclt_le_trans with (1 := HH). unfold Qcle in *. unfold Qclt in *. q_push. nra.
    + apply qltb_ge in E2. intros [= <- <- <-]. left. repeat split; auto; try qc_lra.
      assert (HH : t * (q + 1) <= 1 - q) by (destruct (qabs_cases (q + 1)) as [[H H']|[H H']]; rewrite H' in E2; qc_lra).
      apply Qcle_trans with (2 := HH). unfold Qcle in *. unfold Qclt in *. q_push. nra.
Qed.

Lemma threshold_axis_idem t c q b c' q' b' :
  threshold_axis t c q b = (c', q', b') -> threshold_axis t c' q' b' = (c', q', b').
Proof.
  intros H. assert (H' := H). unfold threshold_axis in H. destruct (qltb q qhalf) eqn:E.
  - destruct (qltb q t) eqn:E2.
    + injection H as <- <- <-. unfold threshold_axis.
      replace (qltb 0 qhalf) with true by reflexivity. destruct (qltb 0 t) eqn:E3; auto.
    + injection H as <- <- <-; auto.
  - destruct (qltb (- t * qabs (q + 1)) (q - 1)) eqn:E2.
    + injection H as <- <- <-. unfold threshold_axis.
      replace (qltb 0 qhalf) with true by reflexivity. destruct (qltb 0 t); auto.
    + injection H as <- <- <-; auto.
Qed.

Lemma threshold_loop_length t cs qs bs D c q b : length cs = D -> length qs = D -> length bs = D ->
  threshold_loop t cs qs bs = (c, q, b) -> length c = D /\ length q = D /\ length b = D.
Proof.
  revert qs bs D c q b; induction cs as [|x cs IH]; intros [|y qs] [|z bs] D c q b; simpl; intros H1 H2 H3 H; simpl in *;
    try (subst; discriminate).
  - injection H as <- <- <-; auto.
  - destruct (threshold_axis t x y z) as [[c1 q1] b1]. destruct (threshold_loop t cs qs bs) as [[cs1 qs1] bs1] eqn:E.
    injection H as <- <- <-. destruct D as [|D]; [discriminate|].
    destruct (IH qs bs D cs1 qs1 bs1 ltac:(congruence) ltac:(congruence) ltac:(congruence) E) as (? & ? & ?); simpl; lia.
Qed.

Lemma threshold_loop_nth t cs qs bs c q b i : threshold_loop t cs qs bs = (c, q, b) ->
  forall ci qi bi, nth_error cs i = Some ci -> nth_error qs i = Some qi -> nth_error bs i = Some bi ->
  exists c1 q1 b1, threshold_axis t ci qi bi = (c1, q1, b1) /\
   nth_error c i = Some c1 /\ nth_error q i = Some q1 /\ nth_error b i = Some b1.
Proof.
  revert qs bs c q b i; induction cs as [|x cs IH]; intros [|y qs] [|z bs] c q b i H; simpl in H;
    try (intros ci qi bi; destruct i; simpl; congruence).
  destruct (threshold_axis t x y z) as [[c1 q1] b1] eqn:E1. destruct (threshold_loop t cs qs bs) as [[cs1 qs1] bs1] eqn:E.
  injection H as <- <- <-. intros ci qi bi. destruct i as [|i]; simpl.
  - intros [= <-] [= <-] [= <-]. eauto 10.
  - eapply IH; eauto.
Qed.

Lemma threshold_loop_idem t cs qs bs c q b :
  threshold_loop t cs qs bs = (c, q, b) -> threshold_loop t c q b = (c, q, b).
Proof.
  revert qs bs c q b; induction cs as [|x cs IH]; intros [|y qs] [|z bs] c q b; simpl; intros H;
    try (injection H as <- <- <-; reflexivity).
  destruct (threshold_axis t x y z) as [[c1 q1] b1] eqn:E1. destruct (threshold_loop t cs qs bs) as [[cs1 qs1] bs1] eqn:E.
  injection H as <- <- <-. simpl. rewrite (threshold_axis_idem _ _ _ _ _ _ _ E1), (IH _ _ _ _ _ E). reflexivity.
Qed.

Lemma apply_thresholding_idem t v : apply_thresholding t (apply_thresholding t v) = apply_thresholding t v.
Proof.
  unfold apply_thresholding. destruct (threshold_loop t (v_coord v) (v_quot v) (v_clamped v)) as [[c q] b] eqn:E.
  simpl. rewrite (threshold_loop_idem _ _ _ _ _ _ _ E). reflexivity.
Qed.

Lemma apply_thresholding_wf t v D : v_wf D v -> v_wf D (apply_thresholding t v).
Proof.
  intros (A1 & A2 & A3). unfold apply_thresholding.
  destruct (threshold_loop t (v_coord v) (v_quot v) (v_clamped v)) as [[c q] b] eqn:E.
  exact (threshold_loop_length _ _ _ _ _ _ _ _ A1 A2 A3 E).
Qed.

(** per axis description of the result *)
Lemma apply_thresholding_axis t v D i : v_wf D v -> normalised v -> 0 <= t -> t <= qhalf -> (i < D)%nat ->
  exists p p' q' b b', nth_error (pos v) i = Some p /\ nth_error (pos (apply_thresholding t v)) i = Some p' /\
    nth_error (v_quot (apply_thresholding t v)) i = Some q' /\ 0 <= q' /\ q' < 1 /\
    nth_error (v_clamped v) i = Some b /\ nth_error (v_clamped (apply_thresholding t v)) i = Some b' /\
    ((p' = p /\ b' = b /\ (forall z, t <= qabs (p - Z2Qc z))) \/
     (b' = true /\ exists z, p' = Z2Qc z /\ qabs (p - p') < t + t)).
Proof.
  intros HW HN Ht0 Ht1 Hi. assert (HW' := apply_thresholding_wf t v D HW).
  destruct (pos_nth_wf D v i HW Hi) as (c & q & b & Hc & Hq & Hb & Hp).
  unfold normalised in HN; rewrite Forall_nth_error in HN. destruct (HN _ _ Hq) as [Q0 Q1].
  unfold apply_thresholding in *.
  destruct (threshold_loop t (v_coord v) (v_quot v) (v_clamped v)) as [[c' q'] b'] eqn:E.
  destruct (threshold_loop_nth _ _ _ _ _ _ _ i E _ _ _ Hc Hq Hb) as (c1 & q1 & b1 & E1 & H1 & H2 & H3).
  exists (Z2Qc c + q), (Z2Qc c1 + q1), q1, b, b1.
  split; auto. split; [apply pos_nth_error; auto|]. split; auto.
  destruct (threshold_axis_spec t c q b c1 q1 b1 Q0 Q1 Ht0 Ht1 E1) as [(-> & -> & -> & F1 & F2)|[(-> & -> & -> & F1)|(-> & -> & -> & F1 & F2 & F3)]].
  - split; [auto|]. split; [auto|]. split; [auto|]. split; [auto|]. left. split; [auto|]. split; [auto|]. intros z.
    destruct (Z_le_gt_dec z c) as [Hz|Hz].
    + apply Z2Qc_le in Hz. destruct (qabs_cases (Z2Qc c + q - Z2Qc z)) as [[G ->]|[G ->]]; qc_lra.
    + assert (Hz' : (c + 1 <= z)%Z) by lia. apply Z2Qc_le in Hz'. rewrite Z2Qc_plus, Z2Qc_1 in Hz'.
      destruct (qabs_cases (Z2Qc c + q - Z2Qc z)) as [[G ->]|[G ->]]; qc_lra.
  - split; [qc_lra|]. split; [qc_lra|]. split; [auto|]. split; [auto|]. right. split; auto. exists c. split; [ring|].
    destruct (qabs_cases (Z2Qc c + q - (Z2Qc c + 0))) as [[G ->]|[G ->]]; qc_lra.
  - split; [qc_lra|]. split; [qc_lra|]. split; [auto|]. split; [auto|]. right. split; auto. exists (c + 1)%Z. split; [ring|].
    rewrite Z2Qc_plus, Z2Qc_1.
    destruct (qabs_cases (Z2Qc c + q - (Z2Qc c + 1 + 0))) as [[G ->]|[G ->]]; qc_lra.
Qed.

Lemma apply_thresholding_normalised t v D : v_wf D v -> normalised v -> 0 <= t -> t <= qhalf ->
  normalised (apply_thresholding t v).
Proof.
  intros HW HN H0 H1. unfold normalised. apply Forall_nth_error. intros i q Hq.
  assert (HW' := apply_thresholding_wf t v D HW).
  assert (Hi : (i < D)%nat) by (destruct HW' as (_ & <- & _); eapply nth_error_Some_lt; eauto).
  destruct (apply_thresholding_axis t v D i HW HN H0 H1 Hi) as (p & p' & q' & b & b' & _ & _ & Hq' & G1 & G2 & _).
  rewrite Hq in Hq'. apply Some_inj in Hq'. subst; auto.
Qed.

(** ** approx *)
Lemma approx_axis_spec e c q oc oq : 0 <= q -> q < 1 -> 0 <= oq -> oq < 1 -> e < qhalf ->
  (approx_axis e c q oc oq = true <-> oc = c /\ qabs (q - oq) <= e).
Proof.
  intros H0 H1 H2 H3 He. unfold approx_axis.
  destruct (qltb q qhalf) eqn:E; [apply qltb_lt in E|apply qltb_ge in E];
    (destruct (oc =? c)%Z eqn:Eo; [apply Z.eqb_eq in Eo; rewrite negb_qltb; tauto|apply Z.eqb_neq in Eo]).
  - destruct (oc + 1 =? c)%Z eqn:E1; [|split; [discriminate|tauto]].
    rewrite negb_qltb, qabs_le. split; [|tauto]. intros [F1 F2]. exfalso. qc_lra.
  - destruct (oc - 1 =? c)%Z eqn:E1; [|split; [discriminate|tauto]].
    rewrite negb_qltb, qabs_le. split; [|tauto]. intros [F1 F2]. exfalso. qc_lra.
Qed.

Lemma approx_loop_spec e cs qs ocs oqs D : length cs = D -> length qs = D -> length ocs = D -> length oqs = D ->
  Forall (fun q => 0 <= q /\ q < 1) qs -> Forall (fun q => 0 <= q /\ q < 1) oqs -> e < qhalf ->
  (approx_loop e cs qs ocs oqs = true <-> ocs = cs /\ Forall2 (fun q oq => qabs (q - oq) <= e) qs oqs).
Proof.
  revert qs ocs oqs D; induction cs as [|c cs IH]; intros [|q qs] [|oc ocs] [|oq oqs] D L1 L2 L3 L4 F1 F2 He;
    simpl in *; try (subst; discriminate).
  - split; auto.
  - inversion F1 as [|? ? [A1 A2] F1']; subst; inversion F2 as [|? ? [B1 B2] F2']; subst.
    assert (HS := approx_axis_spec e c q oc oq A1 A2 B1 B2 He).
    destruct (approx_axis e c q oc oq).
    + rewrite (IH _ _ _ (length cs)) by (auto; lia). destruct HS as [HS _]. destruct (HS eq_refl) as [-> HS'].
      split; [intros [-> H]; auto|]. intros [[= ->] H]; inversion H; auto.
    + split; [discriminate|]. intros [[= -> ->] H]; inversion H; subst. apply HS; auto.
Qed.

Lemma approx_spec e D a b : v_wf D a -> v_wf D b -> normalised a -> normalised b -> e < qhalf ->
  (approx e a b = true <-> v_coord b = v_coord a /\ Forall2 (fun p p' => qabs (p - p') <= e) (pos a) (pos b)).
Proof.
  intros HA HB NA NB He. assert (HA' := HA); assert (HB' := HB). destruct HA as (A1 & A2 & A3), HB as (B1 & B2 & B3).
  unfold approx. rewrite (approx_loop_spec e _ _ _ _ D) by auto.
  split; intros [HC HF]; split; auto; rewrite Forall2_nth in *.
  - rewrite !(pos_length D) by auto. split; auto. intros i p p' Hp Hp'.
    apply nth_error_pos in Hp as (c & q & Hc & Hq & ->). apply nth_error_pos in Hp' as (c' & q' & Hc' & Hq' & ->).
    rewrite HC, Hc in Hc'. apply Some_inj in Hc' as <-.
    replace (Z2Qc c + q - (Z2Qc c + q')) with (q - q') by ring. eapply HF; eauto.
  - split; [congruence|]. intros i q q' Hq Hq'.
    destruct (nth_error_lt _ (v_coord a) i) as [c Hc]; [rewrite A1, <- A2; eapply nth_error_Some_lt; eauto|].
    replace (q - q') with (Z2Qc c + q - (Z2Qc c + q')) by ring. destruct HF as [_ HF]. apply (HF i).
    + apply pos_nth_error; auto.
    + apply pos_nth_error; auto. congruence.
Qed.

(** ** clamp(Vertex) *)
Lemma clamp_vertex_wf m v D : length m = D -> v_wf D v -> v_wf D (clamp_vertex m v).
Proof.
  intros Hm (A1 & A2 & A3). unfold clamp_vertex, v_wf, clamp_coord, bitset_or, as_bitset; simpl.
  rewrite !zipwith_length; rewrite ?map_length; try congruence. auto.
Qed.

Lemma v_incomparable_eq D a b : v_wf D a -> v_wf D b ->
  (v_eqb a b = true <-> v_ltb a b = false /\ v_ltb b a = false).
Proof.
  intros HA HB. split.
  - intros H. split; [apply (v_ltb_eqb D); auto|]. apply (v_ltb_eqb D); auto.
    rewrite v_eqb_key in *. intuition congruence.
  - intros []; apply (v_ltb_total D); auto.
Qed.

Lemma lerp_flags_nth ca cb ba bb br i x y a b r : nth_error ca i = Some x -> nth_error cb i = Some y ->
  nth_error ba i = Some a -> nth_error bb i = Some b -> nth_error br i = Some r ->
  nth_error (lerp_flags ca cb ba bb br) i = Some (if (x =? y)%Z && a && b then true else r).
Proof.
  revert cb ba bb br i; induction ca as [|x' ca IH]; intros [|y' cb] [|a' ba] [|b' bb] [|r' br] [|i]; simpl; try discriminate.
  - intros [= ->] [= ->] [= ->] [= ->] [= ->]; reflexivity.
  - apply IH.
Qed.

Lemma v_lerp_keeps D a b t i c : v_wf D a -> v_wf D b ->
  nth_error (optional_index a) i = Some (Some c) -> nth_error (optional_index b) i = Some (Some c) ->
  nth_error (v_clamped (v_lerp a b t)) i = Some true.
Proof.
  intros HA HB H1 H2. unfold optional_index in *. rewrite nth_error_zipwith in *.
  destruct (nth_error (v_coord a) i) as [ca|] eqn:Ea; [|discriminate].
  destruct (nth_error (v_clamped a) i) as [[]|] eqn:Eb; try discriminate. injection H1 as ->.
  destruct (nth_error (v_coord b) i) as [cb|] eqn:Ec; [|discriminate].
  destruct (nth_error (v_clamped b) i) as [[]|] eqn:Ed; try discriminate. injection H2 as ->.
  assert (HW : v_wf D (v_add (v_scale (1 - t) a) (v_scale t b))) by (apply v_add_wf; apply v_scale_wf; auto).
  destruct HW as (_ & _ & HW). destruct (nth_error_lt _ (v_clamped (v_add (v_scale (1 - t) a) (v_scale t b))) i) as [r Hr].
  { rewrite HW. destruct HA as (<- & _). eapply nth_error_Some_lt; eauto. }
  unfold v_lerp. cbn [v_clamped]. rewrite (lerp_flags_nth _ _ _ _ _ _ _ _ _ _ _ Ea Ec Eb Ed Hr).
  rewrite Z.eqb_refl. reflexivity.
Qed.

Lemma geometry_cells2_spec V D (C : list (list Z)) S :
  C <> [] -> (forall l, In l C -> l <> []) ->
  (forall l i, In l C -> In i l -> v_wf D (V i) /\ normalised (V i)) ->
  (exists e, forall l i, In l C -> In i l -> in_closed_cell e (pos (V i))) ->
  geometry_possible_cells2 V C = Some S ->
  forall x, In x S <-> forall l i, In l C -> In i l -> in_closed_cell x (pos (V i)).
Proof.
  intros H1 H2 H3 [e He] HS x.
  assert (HC : forall i, In i (concat C) <-> exists l, In l C /\ In i l).
  { intros i. rewrite in_concat. split; intros (l & ? & ?); eauto. }
  rewrite (geometry_cells2_concat V D) in HS; auto.
  2:{ intros i Hi; apply HC in Hi as (l & ? & ?); eapply H3; eauto. }
  rewrite (geometry_cells_spec V D (concat C) S); auto.
  - split; [intros H l i Hl Hi; apply H, HC; eauto|intros H i Hi; apply HC in Hi as (l & ? & ?); eauto].
  - intros i Hi; apply HC in Hi as (l & ? & ?); eauto.
  - exists e; intros i Hi; apply HC in Hi as (l & ? & ?); eauto.
Qed.
