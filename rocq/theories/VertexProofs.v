From Verif Require Import Base Num CoordMask CoordMaskSpec CoordMaskProofs Vertex VertexSpec.
Local Open Scope Qc_scope.

Lemma Some_inj (A : Type) (x y : A) : Some x = Some y -> x = y.
Proof. congruence. Qed.

Lemma Forall2_nth (A B : Type) (R : A -> B -> Prop) l l' :
  Forall2 R l l' <-> length l = length l' /\
    forall i a b, nth_error l i = Some a -> nth_error l' i = Some b -> R a b.
Proof.
  split.
  - induction 1 as [|a b l l' Hab H IH]; simpl; split; auto.
    + intros [|i]; discriminate.
    + destruct IH; congruence.
    + intros [|i] x y; simpl; [intros [= <-] [= <-]; auto|apply IH].
  - revert l'; induction l as [|a l IH]; intros [|b l'] [HL H]; simpl in HL; try discriminate; auto.
    constructor; [apply (H 0%nat); auto|]. apply IH; split; [congruence|].
    intros i x y; apply (H (S i)).
Qed.

Lemma Forall_nth_error (A : Type) (P : A -> Prop) l :
  Forall P l <-> forall i a, nth_error l i = Some a -> P a.
Proof.
  rewrite Forall_forall; split; intros H.
  - intros i a Hi; apply H; eapply nth_error_In; eauto.
  - intros x Hx; apply In_nth_error in Hx as [i Hi]; eauto.
Qed.

Lemma nth_error_lt (A : Type) (l : list A) i : (i < length l)%nat -> exists a, nth_error l i = Some a.
Proof. intros H; destruct (nth_error l i) eqn:E; eauto. apply nth_error_None in E; lia. Qed.

Lemma nth_error_Some_lt (A : Type) (l : list A) i a : nth_error l i = Some a -> (i < length l)%nat.
Proof. intros H; apply nth_error_Some; congruence. Qed.

Ltac ptwise := apply nth_error_ext; intros i;
  rewrite ?nth_error_zipwith, ?nth_error_map, ?nth_error_zipwith, ?nth_error_map, ?nth_error_zipwith, ?nth_error_map.

Lemma pos_length D v : v_wf D v -> length (pos v) = D.
Proof. intros (H1 & H2 & H3). unfold pos. rewrite zipwith_length; congruence. Qed.

Lemma nth_error_pos v i p : nth_error (pos v) i = Some p ->
  exists c q, nth_error (v_coord v) i = Some c /\ nth_error (v_quot v) i = Some q /\ p = Z2Qc c + q.
Proof.
  unfold pos. rewrite nth_error_zipwith.
  destruct (nth_error (v_coord v) i) as [c|]; [|discriminate].
  destruct (nth_error (v_quot v) i) as [q|]; [|discriminate].
  intros [= <-]; eauto.
Qed.

Lemma pos_nth_error v i c q : nth_error (v_coord v) i = Some c -> nth_error (v_quot v) i = Some q ->
  nth_error (pos v) i = Some (Z2Qc c + q).
Proof. intros H1 H2; unfold pos; rewrite nth_error_zipwith, H1, H2; auto. Qed.

(** ** repair / from_vertex *)
Lemma repair_pos v : pos (repair v) = pos v.
Proof.
  unfold pos, repair; simpl. ptwise.
  destruct (nth_error (v_coord v) i), (nth_error (v_quot v) i); simpl; auto.
  f_equal. rewrite Z2Qc_plus. ring.
Qed.

Lemma frac_range q : 0 <= q - Z2Qc (qfloor q) /\ q - Z2Qc (qfloor q) < 1.
Proof. destruct (qfloor_spec q) as [H1 H2]. split; qc_lra. Qed.

Lemma repair_normalised v : normalised (repair v).
Proof.
  unfold normalised, repair; simpl. apply Forall_forall; intros x Hx.
  apply in_map_iff in Hx as (q & <- & _). apply frac_range.
Qed.

Lemma repair_wf D v : v_wf D v -> v_wf D (repair v).
Proof.
  intros (H1 & H2 & H3). unfold v_wf, repair; simpl. rewrite zipwith_length, map_length; [auto|congruence].
Qed.

Lemma repair_id v D : v_wf D v -> normalised v -> repair v = v.
Proof.
  intros (H1 & H2 & H3) HN. destruct v as [c q b]; unfold repair; simpl in *. f_equal.
  - apply nth_error_ext; intros i. rewrite nth_error_zipwith.
    destruct (nth_error c i) as [ci|] eqn:Ec; auto.
    destruct (nth_error_lt _ q i) as [qi Hq]; [rewrite H2, <- H1; eapply nth_error_Some_lt; eauto|].
    rewrite Hq. f_equal. unfold normalised in HN; simpl in HN. rewrite Forall_nth_error in HN.
    destruct (HN _ _ Hq). rewrite (qfloor_unique (z:=0)); [lia|qc_lra|qc_lra].
  - apply nth_error_ext; intros i. rewrite nth_error_map.
    destruct (nth_error q i) as [qi|] eqn:Hq; auto. simpl. f_equal.
    unfold normalised in HN; simpl in HN. rewrite Forall_nth_error in HN.
    destruct (HN _ _ Hq). rewrite (qfloor_unique (z:=0)); qc_lra.
Qed.

Lemma nth_error_repeat (A : Type) (a : A) n i : nth_error (repeat a n) i = if (i <? n)%nat then Some a else None.
Proof.
  revert i; induction n as [|n IH]; intros [|i]; simpl; auto. rewrite IH. reflexivity.
Qed.

Lemma from_vertex_wf p : v_wf (length p) (from_vertex p).
Proof.
  unfold from_vertex, v_wf, repair, bs_from_quot; simpl.
  rewrite zipwith_length by (rewrite repeat_length; auto). rewrite !map_length, repeat_length; auto.
Qed.

Lemma from_vertex_pos p : pos (from_vertex p) = p.
Proof.
  transitivity (pos (repair (vertex_cq (repeat 0%Z (length p)) p))); [reflexivity|].
  rewrite repair_pos. unfold pos, vertex_cq; simpl. ptwise.
  rewrite nth_error_repeat. destruct (i <? length p)%nat eqn:E.
  - destruct (nth_error p i); auto. f_equal. rewrite Z2Qc_0. ring.
  - apply Nat.ltb_ge in E. rewrite (proj2 (nth_error_None _ _)); auto.
Qed.

Lemma from_vertex_normalised p : normalised (from_vertex p).
Proof. exact (repair_normalised (vertex_cq (repeat 0%Z (length p)) p)). Qed.

Lemma bs_from_quot_exact q : Forall2 (fun (b : bool) q => b = true <-> q = 0) (bs_from_quot q) q.
Proof.
  induction q as [|x q IH]; simpl; constructor; auto. apply qeqb_eq.
Qed.

Lemma from_vertex_flags p : flags_exact (from_vertex p).
Proof. apply bs_from_quot_exact. Qed.

Lemma from_vertex_floor p : v_coord (from_vertex p) = map qfloor p.
Proof.
  unfold from_vertex, repair; simpl. ptwise. rewrite nth_error_repeat.
  destruct (i <? length p)%nat eqn:E.
  - destruct (nth_error p i); auto.
  - apply Nat.ltb_ge in E. rewrite (proj2 (nth_error_None _ _)); auto.
Qed.

(** a normalised vertex is determined by its position *)
Lemma normalised_floor c q : 0 <= q /\ q < 1 -> qfloor (Z2Qc c + q) = c.
Proof. intros []; apply qfloor_unique; qc_lra. Qed.

Lemma pos_inj D a b : v_wf D a -> v_wf D b -> normalised a -> normalised b ->
  pos a = pos b -> v_coord a = v_coord b /\ v_quot a = v_quot b.
Proof.
  intros (A1 & A2 & A3) (B1 & B2 & B3) NA NB HP.
  unfold normalised in *; rewrite Forall_nth_error in NA, NB.
  assert (HH : forall i, (i < D)%nat ->
     nth_error (v_coord a) i = nth_error (v_coord b) i /\ nth_error (v_quot a) i = nth_error (v_quot b) i).
  { intros i Hi.
    destruct (nth_error_lt _ (v_coord a) i ltac:(lia)) as [ca Hca].
    destruct (nth_error_lt _ (v_coord b) i ltac:(lia)) as [cb Hcb].
    destruct (nth_error_lt _ (v_quot a) i ltac:(lia)) as [qa Hqa].
    destruct (nth_error_lt _ (v_quot b) i ltac:(lia)) as [qb Hqb].
    assert (E : nth_error (pos a) i = nth_error (pos b) i) by congruence.
    rewrite (pos_nth_error _ _ _ _ Hca Hqa), (pos_nth_error _ _ _ _ Hcb Hqb) in E. apply Some_inj in E.
    assert (ca = cb).
    { rewrite <- (normalised_floor ca qa), <- (normalised_floor cb qb); eauto. congruence. }
    subst. rewrite Hca, Hcb, Hqa, Hqb. split; auto. f_equal.
    assert (qa = qb) by qc_lra. auto. }
  split; apply nth_error_ext; intros i; destruct (lt_dec i D) as [Hi|Hi];
    try (apply HH; assumption).
  - rewrite (proj2 (nth_error_None (v_coord a) i)) by lia. symmetry; apply nth_error_None; lia.
  - rewrite (proj2 (nth_error_None (v_quot a) i)) by lia. symmetry; apply nth_error_None; lia.
Qed.

(** ** ordering *)
Lemma quot_lt_lex a b : length a = length b ->
  quot_lt a b = match lex_cmp qcmp a b with Lt => true | _ => false end.
Proof.
  revert b; induction a as [|x a IH]; intros [|y b] H; simpl in *; try discriminate; auto.
  unfold qltb, qeqb. destruct (qcmp x y); auto.
Qed.

Definition v_key (v : vertex) : coord * list Qc := (v_coord v, v_quot v).
Definition v_cmp (a b : vertex) : comparison := pair_cmp zlex (lex_cmp qcmp) (v_key a) (v_key b).

Lemma key_total : TotalCmp (pair_cmp zlex (lex_cmp qcmp)).
Proof. apply pair_cmp_total; [apply zlex_total|apply lex_cmp_total, qcmp_total]. Qed.

Lemma v_ltb_cmp D a b : v_wf D a -> v_wf D b -> (v_ltb a b = true <-> v_cmp a b = Lt).
Proof.
  intros (A1 & A2 & A3) (B1 & B2 & B3). unfold v_ltb, v_cmp, pair_cmp; simpl.
  destruct (zlex (v_coord a) (v_coord b)); try (split; congruence).
  rewrite quot_lt_lex by congruence. destruct (lex_cmp qcmp (v_quot a) (v_quot b)); split; congruence.
Qed.

Lemma v_eqb_key a b : v_eqb a b = true <-> v_coord a = v_coord b /\ v_quot a = v_quot b.
Proof.
  unfold v_eqb.
  rewrite <- (tc_eq zlex_total), <- (tc_eq (lex_cmp_total qcmp_total)).
  destruct (lex_cmp qcmp (v_quot a) (v_quot b)); destruct (zlex (v_coord a) (v_coord b)); intuition congruence.
Qed.

Lemma v_eqb_cmp a b : v_eqb a b = true <-> v_cmp a b = Eq.
Proof.
  rewrite v_eqb_key. unfold v_cmp. rewrite (tc_eq key_total). unfold v_key.
  split; [intros [-> ->]; auto|intros [=]; auto].
Qed.

Lemma v_ltb_irrefl a : v_ltb a a = false.
Proof.
  unfold v_ltb. rewrite (tc_refl zlex_total).
  induction (v_quot a) as [|x q IH]; simpl; auto. unfold qltb, qeqb. rewrite (tc_refl qcmp_total); auto.
Qed.

Lemma v_ltb_trans D a b c : v_wf D a -> v_wf D b -> v_wf D c ->
  v_ltb a b = true -> v_ltb b c = true -> v_ltb a c = true.
Proof.
  intros HA HB HC. rewrite !(v_ltb_cmp D) by auto. unfold v_cmp. apply (tc_trans key_total).
Qed.

Lemma v_ltb_total D a b : v_wf D a -> v_wf D b ->
  v_ltb a b = false -> v_ltb b a = false -> v_eqb a b = true.
Proof.
  intros HA HB H1 H2. rewrite v_eqb_cmp.
  assert (v_cmp a b <> Lt) by (rewrite <- (v_ltb_cmp D) by auto; congruence).
  assert (v_cmp b a <> Lt) by (rewrite <- (v_ltb_cmp D) by auto; congruence).
  unfold v_cmp in *. rewrite (tc_anti key_total (v_key a) (v_key b)) in H0.
  destruct (pair_cmp zlex (lex_cmp qcmp) (v_key a) (v_key b)); simpl in *; congruence.
Qed.

Lemma v_ltb_eqb D a b : v_wf D a -> v_wf D b -> v_eqb a b = true -> v_ltb a b = false.
Proof.
  intros HA HB H. rewrite v_eqb_cmp in H. destruct (v_ltb a b) eqn:E; auto.
  rewrite (v_ltb_cmp D) in E by auto. congruence.
Qed.

Lemma v_eqb_pos D a b : v_wf D a -> v_wf D b -> normalised a -> normalised b ->
  (v_eqb a b = true <-> pos a = pos b).
Proof.
  intros HA HB NA NB. rewrite v_eqb_key. split.
  - unfold pos; intros [-> ->]; auto.
  - apply (pos_inj D); auto.
Qed.

(** ** arithmetic *)
Lemma v_add_pos a b D : v_wf D a -> v_wf D b -> pos (v_add a b) = vec_add (pos a) (pos b).
Proof.
  intros (A1 & A2 & A3) (B1 & B2 & B3). unfold v_add. rewrite repair_pos. unfold pos, vec_add; simpl.
  ptwise.
  destruct (nth_error (v_coord a) i) eqn:E1, (nth_error (v_coord b) i) eqn:E2, (nth_error (v_quot a) i) eqn:E3,
    (nth_error (v_quot b) i) eqn:E4; simpl; auto. f_equal. rewrite Z2Qc_plus. ring.
Qed.

Lemma v_sub_pos a b D : v_wf D a -> v_wf D b -> pos (v_sub a b) = vec_sub (pos a) (pos b).
Proof.
  intros (A1 & A2 & A3) (B1 & B2 & B3). unfold v_sub. rewrite repair_pos. unfold pos, vec_sub; simpl.
  ptwise.
  destruct (nth_error (v_coord a) i) eqn:E1, (nth_error (v_coord b) i) eqn:E2, (nth_error (v_quot a) i) eqn:E3,
    (nth_error (v_quot b) i) eqn:E4; simpl; auto. f_equal. rewrite Z2Qc_minus. ring.
Qed.

Lemma v_add_wf a b D : v_wf D a -> v_wf D b -> v_wf D (v_add a b).
Proof.
  intros (A1 & A2 & A3) (B1 & B2 & B3). apply repair_wf. unfold v_wf, bitset_and; simpl.
  rewrite !zipwith_length by congruence. auto.
Qed.
Lemma v_sub_wf a b D : v_wf D a -> v_wf D b -> v_wf D (v_sub a b).
Proof.
  intros (A1 & A2 & A3) (B1 & B2 & B3). apply repair_wf. unfold v_wf, bitset_and; simpl.
  rewrite !zipwith_length by congruence. auto.
Qed.

Lemma v_scale_wf s a D : v_wf D a -> v_wf D (v_scale s a).
Proof.
  intros (A1 & A2 & A3). unfold v_scale.
  assert (H := from_vertex_wf (map (fun c => s * Z2Qc c) (v_coord a))).
  rewrite map_length, A1 in H. destruct H as (F1 & F2 & F3).
  set (r := from_vertex _) in *. clearbody r. unfold v_wf; simpl.
  assert (length (zipwith (fun x q => x + s * q) (v_quot r) (v_quot a)) = D) by (rewrite zipwith_length; congruence).
  rewrite repeat_length, map_length, (zipwith_length _ (v_coord r)) by congruence. auto.
Qed.

Lemma v_scale_pos s a D : v_wf D a -> pos (v_scale s a) = vec_scale s (pos a).
Proof.
  intros (A1 & A2 & A3). unfold v_scale.
  assert (HP := from_vertex_pos (map (fun c => s * Z2Qc c) (v_coord a))).
  assert (H := from_vertex_wf (map (fun c => s * Z2Qc c) (v_coord a))).
  rewrite map_length, A1 in H. destruct H as (F1 & F2 & F3).
  set (r := from_vertex _) in *. clearbody r.
  transitivity (pos (repair (mkVertex (v_coord r) (zipwith (fun x q => x + s * q) (v_quot r) (v_quot a)) (v_clamped r)))); [reflexivity|].
  rewrite repair_pos. apply nth_error_ext; intros i.
  assert (HPi : nth_error (pos r) i = nth_error (map (fun c => s * Z2Qc c) (v_coord a)) i) by congruence.
  unfold pos, vec_scale in *; simpl. rewrite nth_error_map in HPi.
  rewrite nth_error_zipwith in *. rewrite nth_error_zipwith, nth_error_map, nth_error_zipwith.
  destruct (nth_error (v_coord r) i) as [c1|] eqn:E1; destruct (nth_error (v_quot r) i) as [q1|] eqn:E2;
  destruct (nth_error (v_coord a) i) as [c2|] eqn:E3; destruct (nth_error (v_quot a) i) as [q2|] eqn:E4; simpl in *;
   try discriminate; auto; try congruence.
  f_equal. apply Some_inj in HPi. transitivity (Z2Qc c1 + q1 + s * q2); [ring|]. rewrite HPi. ring.
Qed.

Lemma v_add_normalised a b : normalised (v_add a b).
Proof. apply repair_normalised. Qed.
Lemma v_sub_normalised a b : normalised (v_sub a b).
Proof. apply repair_normalised. Qed.
Lemma v_scale_normalised s a : normalised (v_scale s a).
Proof.
  unfold normalised, v_scale. cbv zeta.
  match goal with |- Forall _ (v_quot (mkVertex _ (v_quot (repair ?v)) _)) => exact (repair_normalised v) end.
Qed.
Lemma v_lerp_normalised a b t : normalised (v_lerp a b t).
Proof. apply (v_add_normalised (v_scale (1 - t) a) (v_scale t b)). Qed.

Lemma v_lerp_pos a b t D : v_wf D a -> v_wf D b ->
  pos (v_lerp a b t) = vec_add (vec_scale (1 - t) (pos a)) (vec_scale t (pos b)).
Proof.
  intros HA HB. transitivity (pos (v_add (v_scale (1 - t) a) (v_scale t b))); [reflexivity|].
  rewrite (v_add_pos _ _ D) by (apply v_scale_wf; auto).
  rewrite !(v_scale_pos _ _ D) by auto. reflexivity.
Qed.

Lemma lerp_flags_length ca cb ba bb br D : length ca = D -> length cb = D -> length ba = D ->
  length bb = D -> length br = D -> length (lerp_flags ca cb ba bb br) = D.
Proof.
  revert cb ba bb br D; induction ca as [|x ca IH]; intros [|y cb] [|a ba] [|b bb] [|r br] D; simpl; intros; try congruence; auto.
  destruct D; try discriminate. f_equal. apply IH; congruence.
Qed.

Lemma v_lerp_wf a b t D : v_wf D a -> v_wf D b -> v_wf D (v_lerp a b t).
Proof.
  intros HA HB.
  assert (H : v_wf D (v_add (v_scale (1 - t) a) (v_scale t b))) by (apply v_add_wf; apply v_scale_wf; auto).
  destruct H as (H1 & H2 & H3). unfold v_lerp, v_wf; simpl. split; [auto|split; [auto|]].
  destruct HA as (A1 & A2 & A3), HB as (B1 & B2 & B3). apply lerp_flags_length; auto.
Qed.

(** flags *)
Lemma integral_frac x z : x = Z2Qc z -> x - Z2Qc (qfloor x) = 0.
Proof. intros ->. rewrite qfloor_Z. ring. Qed.

(** a normalised vertex whose i-th position is integral has quot 0 there *)
Lemma normalised_integral v i c q z : normalised v -> nth_error (v_coord v) i = Some c ->
  nth_error (v_quot v) i = Some q -> Z2Qc c + q = Z2Qc z -> q = 0 /\ c = z.
Proof.
  intros HN Hc Hq E. unfold normalised in HN; rewrite Forall_nth_error in HN.
  assert (H := HN _ _ Hq). assert (F := normalised_floor c q H). rewrite E, qfloor_Z in F. subst z.
  split; auto. qc_lra.
Qed.

Lemma flags_sound_nth v : flags_sound v <-> length (v_clamped v) = length (v_quot v) /\
  forall i q, nth_error (v_clamped v) i = Some true -> nth_error (v_quot v) i = Some q -> q = 0.
Proof.
  unfold flags_sound. rewrite Forall2_nth. split; intros [H1 H2]; split; auto.
  - intros i q Hb Hq; eapply H2; eauto.
  - intros i b q Hb Hq ->; eauto.
Qed.

Lemma pos_nth_wf D v i : v_wf D v -> (i < D)%nat -> exists c q b,
  nth_error (v_coord v) i = Some c /\ nth_error (v_quot v) i = Some q /\ nth_error (v_clamped v) i = Some b /\
  nth_error (pos v) i = Some (Z2Qc c + q).
Proof.
  intros (A1 & A2 & A3) Hi.
  destruct (nth_error_lt _ (v_coord v) i ltac:(lia)) as [c Hc].
  destruct (nth_error_lt _ (v_quot v) i ltac:(lia)) as [q Hq].
  destruct (nth_error_lt _ (v_clamped v) i ltac:(lia)) as [b Hb].
  exists c, q, b. repeat split; auto. apply pos_nth_error; auto.
Qed.

Lemma v_add_flags_gen (op : vertex -> vertex -> vertex) (zop : Z -> Z -> Z) (qop : Qc -> Qc -> Qc) D a b :
  (forall x y, Z2Qc (zop x y) = qop (Z2Qc x) (Z2Qc y)) ->
  v_clamped (op a b) = bitset_and (v_clamped a) (v_clamped b) ->
  pos (op a b) = zipwith qop (pos a) (pos b) ->
  normalised (op a b) -> v_wf D (op a b) ->
  v_wf D a -> v_wf D b -> flags_sound a -> flags_sound b -> flags_sound (op a b).
Proof.
  intros Hop Hcl Hpos HN HWr HA HB FA FB.
  rewrite flags_sound_nth in *. destruct FA as [_ FA], FB as [_ FB].
  split; [destruct HWr as (?&?&?); congruence|].
  intros i q Hb Hq. assert (Hi : (i < D)%nat) by (destruct HWr as (?&R2&?); rewrite <- R2; eapply nth_error_Some_lt; eauto).
  destruct (pos_nth_wf D a i HA Hi) as (ca & qa & ba & Hca & Hqa & Hba & Hpa).
  destruct (pos_nth_wf D b i HB Hi) as (cb & qb & bb & Hcb & Hqb & Hbb & Hpb).
  destruct (pos_nth_wf D _ i HWr Hi) as (cr & qr & br & Hcr & Hqr & Hbr & Hpr).
  rewrite Hcl in Hb. unfold bitset_and in Hb. rewrite nth_error_zipwith, Hba, Hbb in Hb. injection Hb as Hb.
  apply andb_true_iff in Hb as [-> ->].
  assert (qa = 0) by eauto. assert (qb = 0) by eauto. subst.
  rewrite Hpos, nth_error_zipwith, Hpa, Hpb in Hpr. apply Some_inj in Hpr.
  replace (Z2Qc ca + 0) with (Z2Qc ca) in Hpr by ring. replace (Z2Qc cb + 0) with (Z2Qc cb) in Hpr by ring.
  rewrite <- Hop in Hpr. rewrite Hq in Hqr; injection Hqr as ->.
  eapply normalised_integral; eauto.
Qed.

Lemma v_add_flags D a b : v_wf D a -> v_wf D b -> flags_sound a -> flags_sound b -> flags_sound (v_add a b).
Proof.
  intros HA HB. apply (v_add_flags_gen v_add Z.add Qcplus D); auto using Z2Qc_plus, v_add_normalised, v_add_wf.
  apply (v_add_pos _ _ D); auto.
Qed.
Lemma v_sub_flags D a b : v_wf D a -> v_wf D b -> flags_sound a -> flags_sound b -> flags_sound (v_sub a b).
Proof.
  intros HA HB. apply (v_add_flags_gen v_sub Z.sub Qcminus D); auto using Z2Qc_minus, v_sub_normalised, v_sub_wf.
  apply (v_sub_pos _ _ D); auto.
Qed.

Lemma v_scale_flags s a D : v_wf D a -> flags_sound (v_scale s a).
Proof.
  intros HA. rewrite flags_sound_nth. assert (H := v_scale_wf s a D HA).
  split; [destruct H as (?&?&?); congruence|]. intros i q Hb _. unfold v_scale in Hb; simpl in Hb.
  apply nth_error_In in Hb. apply repeat_spec in Hb. discriminate.
Qed.

Lemma nth_error_lerp_flags ca cb ba bb br i v :
  nth_error (lerp_flags ca cb ba bb br) i = Some v ->
  exists x y a b r, nth_error ca i = Some x /\ nth_error cb i = Some y /\ nth_error ba i = Some a /\
    nth_error bb i = Some b /\ nth_error br i = Some r /\ v = (if (x =? y)%Z && a && b then true else r).
Proof.
  revert cb ba bb br i; induction ca as [|x ca IH]; intros [|y cb] [|a ba] [|b bb] [|r br] [|i]; simpl; try discriminate.
  - intros [= <-]. do 5 eexists; repeat split; eauto.
  - apply IH.
Qed.

Lemma v_lerp_flags D a b t : v_wf D a -> v_wf D b -> flags_sound a -> flags_sound b ->
  flags_sound (v_lerp a b t).
Proof.
  intros HA HB FA FB. assert (HW := v_lerp_wf a b t D HA HB).
  assert (FS : flags_sound (v_add (v_scale (1 - t) a) (v_scale t b))).
  { apply (v_add_flags D); auto using v_scale_wf; apply (v_scale_flags _ _ D); auto. }
  rewrite flags_sound_nth in *. destruct FA as [_ FA], FB as [_ FB], FS as [_ FS].
  split; [destruct HW as (?&?&?); congruence|].
  intros i q Hb Hq. assert (Hi : (i < D)%nat) by (destruct HW as (?&R2&?); rewrite <- R2; eapply nth_error_Some_lt; eauto).
  simpl in Hb. apply nth_error_lerp_flags in Hb as (x & y & fa & fb & r & H1 & H2 & H3 & H4 & H5 & H6).
  destruct ((x =? y)%Z && fa && fb) eqn:E.
  - apply andb_true_iff in E as [E ->]. apply andb_true_iff in E as [E ->]. apply Z.eqb_eq in E; subst y.
    destruct (pos_nth_wf D a i HA Hi) as (ca & qa & ba & Hca & Hqa & Hba & Hpa).
    destruct (pos_nth_wf D b i HB Hi) as (cb & qb & bb & Hcb & Hqb & Hbb & Hpb).
    destruct (pos_nth_wf D _ i HW Hi) as (cr & qr & br' & Hcr & Hqr & Hbr & Hpr).
    assert (qa = 0) by eauto. assert (qb = 0) by eauto. subst.
    rewrite (v_lerp_pos _ _ _ D) in Hpr by auto. unfold vec_add, vec_scale in Hpr.
    rewrite nth_error_zipwith, !nth_error_map, Hpa, Hpb in Hpr. simpl in Hpr. apply Some_inj in Hpr.
    rewrite H1 in Hca; injection Hca as <-. rewrite H2 in Hcb; injection Hcb as <-.
    rewrite Hq in Hqr; injection Hqr as ->.
    eapply normalised_integral; eauto using v_lerp_normalised.
    rewrite <- Hpr. instantiate (1 := x). ring.
  - subst r. eapply FS; eauto.
Qed.

(** ** possible cells *)
Lemma v_mask_length D v : v_wf D v -> length (v_mask v) = D.
Proof. intros (A1 & A2 & A3). unfold v_mask. rewrite zipwith_length; congruence. Qed.

Lemma v_mask_binds v i c q : nth_error (v_coord v) i = Some c -> nth_error (v_quot v) i = Some q ->
  (forall z, binds (v_mask v) i z <-> z = c /\ q = 0).
Proof.
  intros Hc Hq z. unfold binds, v_mask. rewrite nth_error_zipwith, Hc, Hq.
  destruct (qeqb q 0) eqn:E.
  - apply qeqb_eq in E. split; [intros [= ->]; auto|intros [-> _]; auto].
  - apply qeqb_neq in E. split; [discriminate|intros [_ ?]; contradiction].
Qed.

Lemma Z2Qc_lt_plus1 a b : Z2Qc a < Z2Qc b + 1 -> (a <= b)%Z.
Proof. intros H. rewrite <- Z2Qc_1, <- Z2Qc_plus in H. apply -> Z2Qc_lt in H. lia. Qed.

Lemma cell_axis c q x : 0 <= q /\ q < 1 ->
  (Z2Qc x <= Z2Qc c + q /\ Z2Qc c + q <= Z2Qc x + 1 <-> x = c \/ (q = 0 /\ x = (c - 1)%Z)).
Proof.
  intros [H0 H1]. split.
  - intros [Ha Hb].
    assert (x <= c)%Z by (apply Z2Qc_lt_plus1; qc_lra).
    assert (c <= x + 1)%Z.
    { apply Z2Qc_le. rewrite Z2Qc_plus, Z2Qc_1. qc_lra. }
    assert (HH : (x = c \/ x = c - 1)%Z) by lia. destruct HH as [->| ->]; auto.
    right; split; auto. rewrite Z2Qc_minus, Z2Qc_1 in Hb. qc_lra.
  - intros [->|[-> ->]]; rewrite ?Z2Qc_minus, ?Z2Qc_1; split; qc_lra.
Qed.

Lemma v_possible_cells_In D v x : v_wf D v -> normalised v ->
  (In x (v_possible_cells v) <-> in_closed_cell x (pos v)).
Proof.
  intros HW HN. assert (HWf := HW). destruct HW as (A1 & A2 & A3).
  unfold v_possible_cells. rewrite possible_cells_In by (rewrite (v_mask_length D); auto).
  unfold in_closed_cell, incident. rewrite Forall2_nth, (pos_length D) by auto. rewrite A1.
  unfold normalised in HN; rewrite Forall_nth_error in HN.
  split; intros [HL H]; split; auto.
  - intros i xi pi Hx Hp. apply nth_error_pos in Hp as (c & q & Hc & Hq & ->).
    apply cell_axis; eauto. destruct (H i c xi Hc Hx) as [|[[z Hz] ->]]; auto.
    apply (v_mask_binds v i c q Hc Hq) in Hz as [-> ->]; auto.
  - intros i c xi Hc Hx.
    destruct (nth_error_lt _ (v_quot v) i) as [q Hq]; [rewrite A2, <- A1; eapply nth_error_Some_lt; eauto|].
    assert (Hp := pos_nth_error _ _ _ _ Hc Hq). specialize (H _ _ _ Hx Hp).
    apply cell_axis in H; eauto. destruct H as [|[-> ->]]; auto.
    right; split; auto. exists c. apply (v_mask_binds v i c 0 Hc Hq); auto.
Qed.

Lemma v_possible_cells_sorted v : ssorted zlex (v_possible_cells v).
Proof. apply possible_cells_sorted. Qed.

(** ** element masks *)
Lemma fold_mask_and_length (f : Z -> mask) D t m : length m = D -> (forall i, In i t -> length (f i) = D) ->
  length (fold_left (fun m j => mask_and m (f j)) t m) = D.
Proof.
  revert m; induction t as [|j t IH]; intros m Hm Hf; simpl; auto.
  apply IH; auto. 2: intros; apply Hf; right; auto.
  rewrite mask_and_length; auto. rewrite Hf; auto. left; auto.
Qed.

Lemma fold_mask_and_binds (f : Z -> mask) D t m i v : length m = D -> (forall i, In i t -> length (f i) = D) ->
  (binds (fold_left (fun m j => mask_and m (f j)) t m) i v <-> binds m i v /\ forall j, In j t -> binds (f j) i v).
Proof.
  revert m; induction t as [|j t IH]; intros m Hm Hf; simpl.
  - split; [intros; split; auto; intros ? []|tauto].
  - assert (Hj : length (f j) = D) by (apply Hf; left; auto).
    rewrite IH; [|rewrite mask_and_length; congruence|intros; apply Hf; right; auto].
    rewrite mask_and_binds by congruence. split.
    + intros [[H1 H2] H3]; split; auto. intros k [<-|Hk]; auto.
    + intros [H1 H2]; auto.
Qed.

Lemma container_mask_spec (f : Z -> mask) D C m : (forall i, In i C -> length (f i) = D) ->
  container_mask f C = Some m ->
  length m = D /\ forall i v, binds m i v <-> forall j, In j C -> binds (f j) i v.
Proof.
  intros Hf. destruct C as [|k t]; simpl; [discriminate|]. intros [= <-].
  assert (Hk : length (f k) = D) by (apply Hf; left; auto).
  split; [apply fold_mask_and_length; auto; intros; apply Hf; right; auto|].
  intros i v. rewrite (fold_mask_and_binds f D) by (auto; intros; apply Hf; right; auto).
  split; [intros [H1 H2] j [<-|Hj]; auto|intros H; split; [|intros]; apply H; simpl; auto].
Qed.

Lemma container_mask_Some f C : C <> [] -> exists m, container_mask f C = Some m.
Proof. destruct C; [congruence|]; simpl; eauto. Qed.

(** two-level containers reduce to the concatenation *)
Lemma container_mask2_concat (f : Z -> mask) D C : C <> [] -> (forall l, In l C -> l <> []) ->
  (forall i, In i (concat C) -> length (f i) = D) ->
  container_mask2 f C = container_mask f (concat C).
Proof.
  destruct C as [|l C]; [congruence|]. intros _ Hne Hf.
  assert (Hl : l <> []) by (apply Hne; left; auto). destruct l as [|k l]; [congruence|]. clear Hl.
  cbn [container_mask2 concat container_mask app] in *.
  rewrite fold_left_app.
  assert (Hm : length (fold_left (fun m j => mask_and m (f j)) l (f k)) = D).
  { apply fold_mask_and_length; [apply Hf; left; auto|]. intros i Hi; apply Hf; right; apply in_or_app; auto. }
  revert Hm. generalize (fold_left (fun m j => mask_and m (f j)) l (f k)) as m0.
  assert (Hne' : forall l, In l C -> l <> []) by (intros; apply Hne; right; auto).
  assert (Hf' : forall i, In i (concat C) -> length (f i) = D).
  { intros i Hi; apply Hf; right; apply in_or_app; auto. }
  clear Hne Hf. induction C as [|l' C IH]; intros m0 Hm; simpl; auto.
  assert (Hl : l' <> []) by (apply Hne'; left; auto). destruct l' as [|k' l']; [congruence|].
  cbn [container_mask]. rewrite IH.
  - cbn [concat app fold_left]. rewrite fold_left_app. f_equal. f_equal.
    assert (HA : forall l m, length m = D -> (forall i, In i l -> length (f i) = D) ->
       forall m', length m' = D ->
       mask_and m' (fold_left (fun m j => mask_and m (f j)) l m) = fold_left (fun m j => mask_and m (f j)) l (mask_and m' m)).
    { clear. induction l as [|j l IHl]; intros m Hm Hf m' Hm'; simpl; auto.
      assert (length (f j) = D) by (apply Hf; left; auto).
      rewrite IHl; auto; [|rewrite mask_and_length; congruence|intros; apply Hf; right; auto].
      f_equal. apply mask_and_assoc; congruence. }
    apply HA; auto.
    + apply Hf'. cbn; left; auto.
    + intros i Hi; apply Hf'. cbn. right. apply in_or_app; auto.
  - intros; apply Hne'; right; auto.
  - intros i Hi; apply Hf'. cbn. right. apply in_or_app; auto.
  - rewrite mask_and_length; auto. rewrite Hm. symmetry. apply fold_mask_and_length.
    + apply Hf'; cbn; auto.
    + intros i Hi; apply Hf'. cbn. right. apply in_or_app; auto.
Qed.

Lemma coord_min_assoc a b c : coord_min a (coord_min b c) = coord_min (coord_min a b) c.
Proof.
  unfold coord_min. ptwise.
  destruct (nth_error a i), (nth_error b i), (nth_error c i); auto. f_equal; lia.
Qed.

Lemma fold_coord_min_pull (f : Z -> coord) l m m' :
  coord_min m' (fold_left (fun c j => coord_min c (f j)) l m) =
  fold_left (fun c j => coord_min c (f j)) l (coord_min m' m).
Proof.
  revert m; induction l as [|j l IH]; intros m; simpl; auto. rewrite IH, coord_min_assoc; auto.
Qed.

Lemma min_coord2_concat (f : Z -> coord) C : C <> [] -> (forall l, In l C -> l <> []) ->
  min_coord2 f C = min_coord f (concat C).
Proof.
  destruct C as [|l C]; [congruence|]. intros _ Hne.
  assert (Hl : l <> []) by (apply Hne; left; auto). destruct l as [|k l]; [congruence|]. clear Hl.
  cbn [min_coord2 concat min_coord app]. rewrite fold_left_app.
  generalize (fold_left (fun c j => coord_min c (f j)) l (f k)) as m0.
  assert (Hne' : forall l, In l C -> l <> []) by (intros; apply Hne; right; auto). clear Hne.
  induction C as [|l' C IH]; intros m0; simpl; auto.
  assert (Hl : l' <> []) by (apply Hne'; left; auto). destruct l' as [|k' l']; [congruence|].
  cbn [min_coord]. rewrite IH by (intros; apply Hne'; right; auto).
  cbn [app fold_left]. rewrite fold_left_app. rewrite fold_coord_min_pull. reflexivity.
Qed.

Lemma min_coord_spec (f : Z -> coord) D C c : (forall i, In i C -> length (f i) = D) ->
  min_coord f C = Some c ->
  length c = D /\ forall i ci, nth_error c i = Some ci ->
    (exists j, In j C /\ nth_error (f j) i = Some ci) /\
    (forall j x, In j C -> nth_error (f j) i = Some x -> (ci <= x)%Z).
Proof.
  intros Hf. destruct C as [|k t]; simpl; [discriminate|]. intros [= <-].
  assert (Hk : length (f k) = D) by (apply Hf; left; auto).
  assert (Hf' : forall i, In i t -> length (f i) = D) by (intros; apply Hf; right; auto).
  assert (G : forall m0, length m0 = D ->
     length (fold_left (fun c j => coord_min c (f j)) t m0) = D /\
     forall i ci, nth_error (fold_left (fun c j => coord_min c (f j)) t m0) i = Some ci ->
      (nth_error m0 i = Some ci \/ exists j, In j t /\ nth_error (f j) i = Some ci) /\
      (forall x, nth_error m0 i = Some x -> (ci <= x)%Z) /\
      (forall j x, In j t -> nth_error (f j) i = Some x -> (ci <= x)%Z)).
  { clear Hf Hk. induction t as [|j t IH]; intros m0 Hm; simpl.
    - split; auto. intros i ci Hi; repeat split; auto; intros.
      + rewrite Hi in H; injection H; lia.
      + contradiction.
    - assert (Hj : length (f j) = D) by (apply Hf'; left; auto).
      destruct (IH ltac:(intros; apply Hf'; right; auto) (coord_min m0 (f j))) as [G1 G2].
      { unfold coord_min; rewrite zipwith_length; congruence. }
      split; auto. intros i ci Hi. destruct (G2 i ci Hi) as (H1 & H2 & H3).
      destruct (nth_error m0 i) as [u|] eqn:Eu; [|exfalso].
      2:{ apply nth_error_None in Eu. assert (H := nth_error_Some_lt _ _ _ _ Hi). lia. }
      destruct (nth_error (f j) i) as [w|] eqn:Ew; [|exfalso].
      2:{ apply nth_error_None in Ew. assert (H := nth_error_Some_lt _ _ _ _ Hi). lia. }
      unfold coord_min in H1, H2. rewrite nth_error_zipwith, Eu, Ew in H1, H2.
      specialize (H2 _ eq_refl). repeat split.
      + destruct H1 as [[= <-]|(j' & Hj1 & Hj2)].
        * destruct (Z.min_spec u w) as [[_ ->]|[_ ->]]; eauto.
        * right; exists j'; auto.
      + intros x [= <-]; lia.
      + intros j' x [<-|Hin] Hx; [rewrite Ew in Hx; injection Hx as <-; lia|eauto]. }
  destruct (G (f k) Hk) as [G1 G2]. split; auto. intros i ci Hi. destruct (G2 i ci Hi) as (H1 & H2 & H3).
  split.
  - destruct H1 as [H1|(j & H1 & H1')]; eauto.
  - intros j x [<-|Hj] Hx; eauto.
Qed.

(** the central lemma: mask-and-minimum enumeration is incidence of all vertices *)
Lemma geometry_cells_spec V D C S :
  (forall i, In i C -> v_wf D (V i) /\ normalised (V i)) ->
  (exists e, forall i, In i C -> in_closed_cell e (pos (V i))) ->
  geometry_possible_cells V C = Some S ->
  forall x, In x S <-> forall i, In i C -> in_closed_cell x (pos (V i)).
Proof.
  intros HV [e He] HS x. unfold geometry_possible_cells in HS.
  destruct (container_mask (fun i => v_mask (V i)) C) as [m|] eqn:Em; [|discriminate].
  destruct (min_coord (fun i => v_coord (V i)) C) as [c|] eqn:Ec; [|discriminate].
  injection HS as <-.
  assert (CNE : exists k, In k C) by (destruct C as [|k ?]; [discriminate|exists k; left; auto]).
  destruct CNE as [k0 Hk0].
  apply (container_mask_spec _ D) in Em as [Lm Bm]; [|intros i Hi; apply v_mask_length; apply HV; auto].
  apply (min_coord_spec _ D) in Ec as [Lc Mc]; [|intros i Hi; destruct (HV i Hi) as [(?&?&?) _]; auto].
  rewrite possible_cells_In by congruence. unfold incident. rewrite Lc.
  (* per-axis facts about every vertex *)
  assert (AX : forall j i, In j C -> (i < D)%nat -> exists cj qj,
     nth_error (v_coord (V j)) i = Some cj /\ nth_error (v_quot (V j)) i = Some qj /\
     nth_error (pos (V j)) i = Some (Z2Qc cj + qj) /\ 0 <= qj /\ qj < 1).
  { intros j i Hj Hi. destruct (HV j Hj) as [HW HN].
    destruct (pos_nth_wf D _ _ HW Hi) as (cj & qj & bj & H1 & H2 & H3 & H4).
    unfold normalised in HN; rewrite Forall_nth_error in HN. exists cj, qj. repeat split; auto; eapply HN; eauto. }
  assert (CELL : forall y j i yi cj qj, In j C -> in_closed_cell y (pos (V j)) ->
     nth_error y i = Some yi -> nth_error (v_coord (V j)) i = Some cj -> nth_error (v_quot (V j)) i = Some qj ->
     0 <= qj -> qj < 1 -> yi = cj \/ (qj = 0 /\ yi = (cj - 1)%Z)).
  { intros y j i yi cj qj Hj Hin Hy Hc Hq H0 H1. unfold in_closed_cell in Hin. rewrite Forall2_nth in Hin.
    destruct Hin as [_ Hin]. apply (cell_axis cj qj yi); auto. eapply Hin; eauto. apply pos_nth_error; auto. }
  (* if a cell y contains everything then y_i is c_i, or axis i is bound and y_i = c_i - 1 *)
  assert (KEY : forall y, (forall j, In j C -> in_closed_cell y (pos (V j))) ->
     forall i ci yi, nth_error c i = Some ci -> nth_error y i = Some yi ->
        yi = ci \/ (binds m i ci /\ yi = (ci - 1)%Z)).
  { intros y Hy i ci yi Hci Hyi.
    assert (Hi : (i < D)%nat) by (rewrite <- Lc; eapply nth_error_Some_lt; eauto).
    destruct (Mc i ci Hci) as [(j0 & Hj0 & Hcj0) Hmin].
    destruct (AX j0 i Hj0 Hi) as (cj & qj & H1 & H2 & H3 & H4 & H5).
    rewrite H1 in Hcj0; injection Hcj0 as ->.
    destruct (CELL y j0 i yi ci qj Hj0 (Hy j0 Hj0) Hyi H1 H2 H4 H5) as [->|[-> ->]]; auto.
    right; split; auto. apply Bm. intros j Hj.
    destruct (AX j i Hj Hi) as (cj' & qj' & H1' & H2' & H3' & H4' & H5').
    assert (Hle := Hmin j cj' Hj H1').
    destruct (CELL y j i _ cj' qj' Hj (Hy j Hj) Hyi H1' H2' H4' H5') as [Hq|[-> Hq]].
    - exfalso; lia.
    - apply (v_mask_binds _ _ _ _ H1' H2'). split; auto. lia. }
  split.
  - intros [Lx Hx] j Hj. destruct (HV j Hj) as [HW HN].
    unfold in_closed_cell. rewrite Forall2_nth, (pos_length D) by auto. split; auto.
    intros i xi pi Hxi Hpi.
    assert (Hi : (i < D)%nat) by (rewrite <- Lx; eapply nth_error_Some_lt; eauto).
    destruct (AX j i Hj Hi) as (cj & qj & H1 & H2 & H3 & H4 & H5).
    rewrite H3 in Hpi; injection Hpi as <-. apply cell_axis; auto.
    destruct (nth_error_lt _ c i ltac:(lia)) as [ci Hci].
    destruct (nth_error_lt _ e i) as [ei Hei].
    { assert (HE := He j Hj). unfold in_closed_cell in HE. apply Forall2_nth in HE as [HE _].
      rewrite HE, (pos_length D); auto. }
    assert (Hk := KEY e He i ci ei Hci Hei).
    assert (Hcell := CELL e j i ei cj qj Hj (He j Hj) Hei H1 H2 H4 H5).
    destruct (Mc i ci Hci) as [_ Hmin]. assert (Hle := Hmin j cj Hj H1).
    destruct (Hx i ci xi Hci Hxi) as [->|[[v Hb] ->]].
    + (* xi = ci *)
      destruct Hk as [->|[Hb ->]].
      * destruct Hcell as [->|[-> ->]]; auto.
      * destruct (proj1 (v_mask_binds _ _ _ _ H1 H2 ci) (proj1 (Bm i ci) Hb j Hj)) as [-> ->]; auto.
    + (* bound *)
      destruct (proj1 (v_mask_binds _ _ _ _ H1 H2 v) (proj1 (Bm i v) Hb j Hj)) as [-> ->].
      destruct (Mc i ci Hci) as [(j0 & Hj0 & Hcj0) _].
      destruct (AX j0 i Hj0 Hi) as (cj0 & qj0 & H1' & H2' & _).
      destruct (proj1 (v_mask_binds _ _ _ _ H1' H2' cj) (proj1 (Bm i cj) Hb j0 Hj0)) as [E _].
      rewrite H1' in Hcj0; injection Hcj0 as ->. subst. auto.
  - intros Hx. split.
    + assert (HE := Hx k0 Hk0). unfold in_closed_cell in HE. apply Forall2_nth in HE as [HE _].
      rewrite HE, (pos_length D); auto. apply HV; auto.
    + intros i ci xi Hci Hxi. destruct (KEY x Hx i ci xi Hci Hxi) as [->|[Hb ->]]; auto.
      right; split; auto. exists ci; auto.
Qed.

Lemma geometry_cells_defined V C : C <> [] -> exists S, geometry_possible_cells V C = Some S.
Proof. destruct C as [|k t]; [congruence|]. unfold geometry_possible_cells; simpl; eauto. Qed.

Lemma geometry_cells_sorted V C S : geometry_possible_cells V C = Some S -> ssorted zlex S.
Proof.
  unfold geometry_possible_cells.
  destruct (container_mask _ C); [|discriminate]. destruct (min_coord _ C); [|discriminate].
  intros [= <-]. apply possible_cells_sorted.
Qed.

Lemma geometry_cells2_concat V D C : C <> [] -> (forall l, In l C -> l <> []) ->
  (forall i, In i (concat C) -> v_wf D (V i)) ->
  geometry_possible_cells2 V C = geometry_possible_cells V (concat C).
Proof.
  intros H1 H2 H3. unfold geometry_possible_cells2, geometry_possible_cells.
  rewrite (container_mask2_concat _ D), min_coord2_concat; auto.
  intros i Hi. apply v_mask_length; auto.
Qed.

(** generator version *)
Lemma set_intersection_In a b x : In x (set_intersection a b) <-> In x a /\ In x b.
Proof.
  unfold set_intersection. rewrite filter_In, existsb_exists. split; intros [H1 H2]; split; auto.
  - destruct H2 as (y & Hy & E). destruct (zlex x y) eqn:EE; try discriminate.
    apply (tc_eq zlex_total) in EE; subst; auto.
  - exists x; split; auto. rewrite (tc_refl zlex_total); auto.
Qed.

Lemma intersect_loop_In ss p x : In x (intersect_loop p ss) <-> In x p /\ forall s, In s ss -> In x s.
Proof.
  revert p; induction ss as [|s ss IH]; intros p; simpl.
  - split; [intros; split; auto; intros ? []|tauto].
  - destruct (set_intersection p s) as [|y i] eqn:E.
    + split; [intros []|]. intros [H1 H2].
      assert (In x (set_intersection p s)) by (apply set_intersection_In; auto). rewrite E in H; auto.
    + rewrite IH, <- E, set_intersection_In. split.
      * intros [[H1 H2] H3]; split; auto. intros s' [<-|Hs]; auto.
      * intros [H1 H2]; auto.
Qed.

Lemma filter_sorted (A : Type) cmp (f : A -> bool) l : ssorted cmp l -> ssorted cmp (filter f l).
Proof.
  induction 1 as [|x l HF HS IH]; simpl; [constructor|]. destruct (f x); auto. constructor; auto.
  rewrite Forall_forall in *. intros y Hy; apply filter_In in Hy; apply HF; tauto.
Qed.

Lemma intersect_loop_sorted ss p : ssorted zlex p -> ssorted zlex (intersect_loop p ss).
Proof.
  revert p; induction ss as [|s ss IH]; intros p H; simpl; auto.
  assert (HS : ssorted zlex (set_intersection p s)) by (apply filter_sorted; auto).
  destruct (set_intersection p s); [constructor|apply IH; auto].
Qed.

Lemma gen_possible_cells_In V D C x : C <> [] ->
  (forall i, In i C -> v_wf D (V i) /\ normalised (V i)) ->
  (In x (gen_possible_cells V C) <-> forall i, In i C -> in_closed_cell x (pos (V i))).
Proof.
  destruct C as [|k t]; [congruence|]. intros _ HV. unfold gen_possible_cells.
  rewrite intersect_loop_In. split.
  - intros [_ H] i Hi. destruct (HV i Hi). apply (v_possible_cells_In D); auto.
    apply H. apply in_map_iff; eauto.
  - intros H. split.
    + destruct (HV k (or_introl eq_refl)). apply (v_possible_cells_In D); auto. apply H; left; auto.
    + intros s Hs. apply in_map_iff in Hs as (i & <- & Hi). destruct (HV i Hi).
      apply (v_possible_cells_In D); auto.
Qed.

Lemma gen_possible_cells_sorted V C : ssorted zlex (gen_possible_cells V C).
Proof.
  destruct C; simpl; [constructor|]. unfold gen_possible_cells.
  exact (intersect_loop_sorted (v_possible_cells (V z) :: map (fun f => v_possible_cells (V f)) C) _ (v_possible_cells_sorted (V z))).
Qed.

Lemma gen_eq_geometry V D C : C <> [] ->
  (forall i, In i C -> v_wf D (V i) /\ normalised (V i)) ->
  (exists e, forall i, In i C -> in_closed_cell e (pos (V i))) ->
  geometry_possible_cells V C = Some (gen_possible_cells V C).
Proof.
  intros HC HV HE. destruct (geometry_cells_defined V C HC) as [S HS]. rewrite HS. f_equal.
  apply (ssorted_ext zlex_total); [eapply geometry_cells_sorted; eauto|apply gen_possible_cells_sorted|].
  intros x. rewrite (gen_possible_cells_In V D) by auto. apply (geometry_cells_spec V D); auto.
Qed.
