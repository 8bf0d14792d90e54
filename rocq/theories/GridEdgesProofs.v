From Verif Require Import Base Num CoordMask Vertex VertexSpec VertexProofs VertexTypes Grid GridEdges GridEdgesSpec.
Local Open Scope Z_scope.

Lemma emplace_fold (cs : list (Qc * Z)) : forall m, ssorted qcmp (keys m) ->
  let r := fold_left (fun m '(t, i) => map_emplace qcmp t i m) cs m in
  ssorted qcmp (keys r) /\
  (forall t i, In (t, i) m -> In (t, i) r) /\
  (forall t i, In (t, i) r -> In (t, i) m \/ In (t, i) cs) /\
  (forall t, In t (keys r) <-> In t (keys m) \/ In t (map fst cs)).
Proof.
  induction cs as [|[t0 i0] cs IH]; intros m Hm; simpl.
  - split; [auto|split; [auto|split; [auto|]]]. intros; tauto.
  - assert (Hm' := map_emplace_sorted qcmp_total t0 i0 m Hm).
    destruct (IH _ Hm') as (S1 & S2 & S3 & S4). clear IH.
    assert (FE := fun k => map_find_emplace qcmp_total k t0 i0 m Hm).
    assert (K : forall t i, In (t, i) (map_emplace qcmp t0 i0 m) <-> In (t, i) m \/ (t = t0 /\ i = i0 /\ ~ In t0 (keys m))).
    { intros t i. rewrite <- (map_find_Some qcmp_total) by auto. rewrite FE.
      rewrite <- (map_find_Some qcmp_total t i m) by auto.
      assert (N := map_find_None qcmp_total t m Hm).
      destruct (map_find qcmp t m) as [w|] eqn:E.
      - split; [auto|]. intros [?|(-> & -> & HH)]; auto. exfalso. apply HH.
        apply (map_find_Some qcmp_total) in E; auto. apply (in_map fst) in E; auto.
      - destruct (qcmp t t0) eqn:E0.
        + apply (tc_eq qcmp_total) in E0; subst t0. split; [intros [= ->]; right; repeat split; auto; apply N; auto|].
          intros [?|(_ & -> & _)]; [discriminate|auto].
        + split; [discriminate|]. intros [?|(-> & _)]; [discriminate|]. rewrite (tc_refl qcmp_total) in E0; discriminate.
        + split; [discriminate|]. intros [?|(-> & _)]; [discriminate|]. rewrite (tc_refl qcmp_total) in E0; discriminate. }
    split; [auto|]. split; [|split].
    + intros t i H. apply S2, K; auto.
    + intros t i H. apply S3 in H as [H|H]; auto. apply K in H as [H|(-> & -> & _)]; auto.
    + intros t. rewrite S4. assert (HK : In t (keys (map_emplace qcmp t0 i0 m)) <-> In t (keys m) \/ t0 = t).
      { unfold map_emplace. destruct (map_find qcmp t0 m) eqn:E.
        - split; auto. intros [?| <-]; auto. apply (map_find_Some qcmp_total) in E; auto.
          apply (in_map fst) in E; auto.
        - rewrite map_set_keys, (set_insert_In qcmp_total). split; intros [?|?]; auto. }
      rewrite HK. tauto.
Qed.

Lemma sorted_head (m : list (Qc * Z)) k v : ssorted qcmp (keys m) -> In (k, v) m ->
  (forall t, In t (keys m) -> (k <= t)%Qc) -> exists m', m = (k, v) :: m'.
Proof.
  destruct m as [|[k' v'] m]; simpl; intros HS Hin0 H; [destruct Hin0|destruct Hin0 as [E|Hin]].
  - injection E as -> ->. eauto.
  - inversion HS as [|? ? HF HS']; subst. rewrite Forall_forall in HF.
    assert (L := HF k (in_map fst _ _ Hin)). assert (L2 := H k' (or_introl eq_refl)).
    exfalso. assert (qltb k' k = true) by (unfold qltb; rewrite L; auto). apply qltb_lt in H0.
    apply (Qcle_not_lt _ _ L2); auto.
Qed.

Lemma sorted_last (m : list (Qc * Z)) k v : ssorted qcmp (keys m) -> In (k, v) m ->
  (forall t, In t (keys m) -> (t <= k)%Qc) -> exists m', m = m' ++ [(k, v)].
Proof.
  induction m as [|[k' v'] m IH]; simpl; intros HS Hin H; try contradiction.
  inversion HS as [|? ? HF HS']; subst. rewrite Forall_forall in HF. destruct Hin as [[= -> ->]|Hin].
  - destruct m as [|[k2 v2] m]; [exists []; auto|]. exfalso.
    assert (L := HF k2 (or_introl eq_refl)). assert (L2 := H k2 (or_intror (or_introl eq_refl))).
    assert (qltb k k2 = true) by (unfold qltb; rewrite L; auto). apply qltb_lt in H0. apply (Qcle_not_lt _ _ L2); auto.
  - destruct IH as [m' ->]; auto. exists ((k', v') :: m'). auto.
Qed.

Lemma edge_points_spec e0 e1 cs : (forall t i, In (t, i) cs -> (0 < t /\ t < 1)%Qc) ->
  exists mid, edge_points e0 e1 cs = (0%Qc, e0) :: mid ++ [(1%Qc, e1)] /\
    ssorted qcmp (map fst ((0%Qc, e0) :: mid ++ [(1%Qc, e1)])) /\
    (forall t, In t (map fst mid) <-> In t (map fst cs)) /\
    (forall t i, In (t, i) mid -> In (t, i) cs).
Proof.
  intros Hcs.
  assert (HI : ssorted qcmp (keys (map_set qcmp 1%Qc e1 (map_set qcmp 0%Qc e0 [])))).
  { apply (map_set_sorted qcmp_total), (map_set_sorted qcmp_total); constructor. }
  destruct (emplace_fold cs _ HI) as (S1 & S2 & S3 & S4). fold (edge_points e0 e1 cs) in *.
  set (m := edge_points e0 e1 cs) in *. clearbody m.
  change (map_set qcmp 1%Qc e1 (map_set qcmp 0%Qc e0 [])) with [(0%Qc, e0); (1%Qc, e1)] in *.
  assert (B : forall t, In t (keys m) -> (0 <= t /\ t <= 1)%Qc).
  { intros t Ht. apply S4 in Ht as [[<-|[<-|[]]]|Ht]; [split; discriminate..|].
    apply in_map_iff in Ht as ((t' & i) & <- & Ht). destruct (Hcs _ _ Ht). simpl. split; apply Qclt_le_weak; auto. }
  destruct (sorted_head m 0%Qc e0 S1) as [m1 ->]; [apply S2; simpl; auto|intros; apply B; auto|].
  assert (H1 : In (1%Qc, e1) m1).
  { destruct (S2 1%Qc e1 (or_intror (or_introl eq_refl))) as [[=]|]; auto. }
  inversion S1 as [|? ? HF HS]; subst.
  destruct (sorted_last m1 1%Qc e1 HS H1) as [mid ->]; [intros t Ht; apply B; simpl; auto|].
  exists mid. split; [auto|]. split; [auto|].
  assert (ND := ssorted_NoDup qcmp_total S1). unfold keys in ND, S4.
  simpl in ND. rewrite map_app in ND. simpl in ND.
  assert (NE : forall t i, In (t, i) mid -> t <> 0%Qc /\ t <> 1%Qc).
  { intros t i Hin. apply (in_map fst) in Hin. simpl in Hin. inversion ND; subst. rewrite in_app_iff in H2. split; intros ->; [tauto|].
    apply NoDup_remove_2 in H3. rewrite app_nil_r in H3. tauto. }
  assert (M : forall t i, In (t, i) mid -> In (t, i) cs).
  { intros t i Hin. destruct (NE _ _ Hin). destruct (S3 t i) as [[E|[E|[]]]|]; auto.
    - simpl. right. rewrite in_app_iff; auto.
    - exfalso; apply H; congruence.
    - exfalso; apply H0; congruence. }
  split; [|auto]. intros t. split.
  - intros Hin. apply in_map_iff in Hin as ((t' & i) & <- & Hin). apply M in Hin. apply (in_map fst) in Hin; auto.
  - intros Hin. assert (Hk := proj2 (S4 t) (or_intror Hin)).
    apply in_map_iff in Hin as ((t' & i) & <- & Hin). destruct (Hcs _ _ Hin) as [A1 A2]. simpl in *.
    destruct Hk as [<-|Hk]; [apply Qclt_not_eq in A1; congruence|].
    rewrite map_app, in_app_iff in Hk. destruct Hk as [?|[<-|[]]]; auto. apply Qclt_not_eq in A2; simpl in A2; congruence.
Qed.

Lemma chain_walk v : forall a l, last (a :: v) 0 = l -> walk a (chain_edges (a :: v)) l.
Proof.
  induction v as [|b v IH]; intros a l Hl; simpl in Hl; [subst; constructor|].
  assert (W := IH b l Hl). change (chain_edges (a :: b :: v)) with
    (if a =? b then chain_edges (b :: v) else (a, b) :: chain_edges (b :: v)).
  destruct (Z.eqb_spec a b); [subst; auto|constructor; auto].
Qed.

Lemma adjacent_cons (A : Type) (x : A) l a b : adjacent (x :: l) a b <->
  (x = a /\ exists l', l = b :: l') \/ adjacent l a b.
Proof.
  split.
  - intros ([|y p] & q & E); simpl in E; injection E as -> ->; [left; eauto|right; exists p, q; auto].
  - intros [(-> & l' & ->)|(p & q & ->)]; [exists [], l'; auto|exists (x :: p), q; auto].
Qed.

Lemma chain_In vec a b : In (a, b) (chain_edges vec) <-> a <> b /\ adjacent vec a b.
Proof.
  induction vec as [|x [|y vec] IH].
  - simpl. split; [intros []|]. intros (_ & [|? p] & q & E); discriminate.
  - simpl. split; [intros []|]. intros (_ & [|? [|]] & q & E); discriminate.
  - change (chain_edges (x :: y :: vec)) with (if x =? y then chain_edges (y :: vec) else (x, y) :: chain_edges (y :: vec)).
    rewrite adjacent_cons. destruct (Z.eqb_spec x y).
    + rewrite IH. split; [tauto|]. intros (Hn & [(-> & l' & [= -> ->])|]); [congruence|auto].
    + simpl In. rewrite IH. split.
      * intros [[= -> ->]|[]]; split; eauto.
      * intros (Hn & [(-> & l' & [= -> ->])|]); auto.
Qed.

(** consecutive pairs *)
Fixpoint pairs (l : list Z) : list (Z * Z) :=
  match l with a :: (b :: _) as t => (a, b) :: pairs t | _ => [] end.
Lemma chain_NoDup vec : NoDup vec -> chain_edges vec = pairs vec.
Proof.
  induction vec as [|x [|y vec] IH]; intros H; auto.
  inversion H; subst. specialize (IH H3).
  change (chain_edges (x :: y :: vec)) with (if x =? y then chain_edges (y :: vec) else (x, y) :: chain_edges (y :: vec)).
  change (pairs (x :: y :: vec)) with ((x, y) :: pairs (y :: vec)). rewrite IH.
  destruct (Z.eqb_spec x y); auto. subst; exfalso; apply H2; simpl; auto.
Qed.

Lemma edge_store_spec D j c crs : forall s : list (Qc * Z), ssorted qcmp (keys s) ->
  let r := fold_left (fun s '(v, i) =>
      if on_grid_edge D j c v then
        match nth_error (v_quot v) j with Some t => map_emplace qcmp t i s | None => s end
      else s) crs s in
  ssorted qcmp (keys r) /\
  (forall t i, In (t, i) r -> In (t, i) s \/ exists v, In (v, i) crs /\ on_grid_edge D j c v = true /\ nth_error (v_quot v) j = Some t) /\
  (forall t, In t (keys r) <-> In t (keys s) \/ exists v i, In (v, i) crs /\ on_grid_edge D j c v = true /\ nth_error (v_quot v) j = Some t).
Proof.
  induction crs as [|[v i] crs IH]; intros s Hs; simpl.
  - split; [auto|split; [auto|]]. intros t; split; [auto|intros [?|(? & ? & [] & _)]; auto].
  - destruct (on_grid_edge D j c v) eqn:E1; [destruct (nth_error (v_quot v) j) as [t0|] eqn:E2|].
    + assert (Hs' := map_emplace_sorted qcmp_total t0 i s Hs).
      destruct (emplace_fold [(t0, i)] s Hs) as (_ & _ & F3 & F4). simpl in F3, F4.
      destruct (IH _ Hs') as (S1 & S2 & S3). split; [auto|]. split.
      * intros t k H. apply S2 in H as [H|(w & H & ?)]; [|right; exists w; auto].
        apply F3 in H as [H|[[= <- <-]|[]]]; auto. right; exists v; auto.
      * intros t. rewrite S3, F4. split.
        -- intros [[?|[<-|[]]]|(w & k & ? & ?)]; auto; right; [exists v, i; auto|exists w, k; auto].
        -- intros [?|(w & k & [[= -> ->]|Hin] & ? & Hq)]; auto; [left; right; left; congruence|right; exists w, k; auto].
    + destruct (IH _ Hs) as (S1 & S2 & S3). split; [auto|]. split.
      * intros t k H. apply S2 in H as [H|(w & H & ?)]; [auto|right; exists w; auto].
      * intros t. rewrite S3. split; [intros [?|(w & k & ? & ?)]; auto; right; exists w, k; auto|].
        intros [?|(w & k & [[= -> ->]|Hin] & ? & Hq)]; auto; [congruence|right; exists w, k; auto].
    + destruct (IH _ Hs) as (S1 & S2 & S3). split; [auto|]. split.
      * intros t k H. apply S2 in H as [H|(w & H & ?)]; [auto|right; exists w; auto].
      * intros t. rewrite S3. split; [intros [?|(w & k & ? & ?)]; auto; right; exists w, k; auto|].
        intros [?|(w & k & [[= -> ->]|Hin] & ? & Hq)]; auto; [congruence|right; exists w, k; auto].
Qed.

(** an unclamped axis of a normalised, exactly flagged vertex has 0 < quot < 1 *)
Lemma find_unbound_unclamped bs : forall k j, 0 <= k -> find_unbound_from k bs = k + Z.of_nat j -> nth_error bs j = Some false.
Proof.
  assert (G : forall bs k, find_unbound_from k bs = -1 \/ k <= find_unbound_from k bs).
  { induction bs0 as [|b bs0 IH]; intros k; simpl; auto. destruct b; [destruct (IH (k + 1)); [auto|right; lia]|right; lia]. }
  induction bs as [|b bs IH]; intros k j Hk H; simpl in H.
  - lia.
  - destruct b.
    + destruct j as [|j]; simpl; [destruct (G bs (k+1)); lia|]. apply (IH (k + 1)); lia.
    + replace j with 0%nat by lia. auto.
Qed.

Lemma on_grid_edge_interior D j c v t : v_wf D v -> normalised v -> flags_exact v ->
  on_grid_edge D j c v = true -> nth_error (v_quot v) j = Some t -> (0 < t /\ t < 1)%Qc.
Proof.
  intros (W1 & W2 & W3) HN HF HO Ht. unfold on_grid_edge in HO.
  apply andb_true_iff in HO as [HO _]. apply andb_true_iff in HO as [_ HO]. apply Z.eqb_eq in HO.
  assert (Hc : nth_error (v_clamped v) j = Some false) by (apply (find_unbound_unclamped _ 0); [lia|exact HO]).
  unfold normalised in HN. assert (B := proj1 (Forall_nth_error _ _ _) HN _ _ Ht). simpl in B.
  unfold flags_exact in HF. assert (E := proj2 (proj1 (Forall2_nth _ _ _ _ _) HF) _ _ _ Hc Ht). simpl in E.
  destruct B as [B1 B2]. split; auto.
  destruct (Qcle_lt_or_eq _ _ B1) as [|E0]; auto. exfalso. assert (false = true) by (apply E; auto). discriminate.
Qed.

Lemma zlex_eqb a b : match zlex a b with Eq => true | _ => false end = true <-> a = b.
Proof. rewrite <- (tc_eq zlex_total). destruct (zlex a b); split; congruence. Qed.

Lemma count_le bs : (length (filter (fun b : bool => b) bs) <= length bs)%nat.
Proof. induction bs as [|[] bs IH]; simpl; lia. Qed.
Lemma count_all bs : length (filter (fun b : bool => b) bs) = length bs -> forall k b, nth_error bs k = Some b -> b = true.
Proof.
  induction bs as [|[] bs IH]; simpl; intros H [|k] b Hk; simpl in Hk; try discriminate.
  - congruence.
  - apply (IH ltac:(lia) k); auto.
  - assert (C := count_le bs). lia.
  - assert (C := count_le bs). lia.
Qed.
Lemma count_one bs : forall j, length (filter (fun b : bool => b) bs) = (length bs - 1)%nat ->
  nth_error bs j = Some false -> forall k b, k <> j -> nth_error bs k = Some b -> b = true.
Proof.
  induction bs as [|b0 bs IH]; intros [|j] H Hj [|k] b Hk Hb; simpl in *; try discriminate; try lia.
  - injection Hj as ->. apply (count_all bs ltac:(lia) k); auto.
  - destruct b0; [congruence|]. assert (length (filter (fun b : bool => b) bs) = length bs) by lia.
    apply (count_all _ H0) in Hj. discriminate.
  - destruct b0; simpl in H.
    + apply (IH j) with (k := k); auto. destruct bs; [destruct j; discriminate|simpl in *; lia].
    + assert (E : length (filter (fun b : bool => b) bs) = length bs) by lia.
      apply (count_all _ E) in Hj. discriminate.
Qed.
Lemma count_one_conv bs : forall j, nth_error bs j = Some false -> (forall k b, k <> j -> nth_error bs k = Some b -> b = true) ->
  length (filter (fun b : bool => b) bs) = (length bs - 1)%nat /\ forall z, find_unbound_from z bs = z + Z.of_nat j.
Proof.
  assert (ALL : forall bs, (forall k b, nth_error bs k = Some b -> b = true) -> length (filter (fun b : bool => b) bs) = length bs).
  { induction bs0 as [|b bs0 IH]; intros H; auto. assert (b = true) by (apply (H 0%nat); auto). subst; simpl. f_equal.
    apply IH. intros k; apply (H (S k)). }
  induction bs as [|b bs IH]; intros [|j] Hj H; simpl in Hj; try discriminate.
  - injection Hj as ->. simpl. rewrite ALL; [split; [lia|intros; lia]|]. intros k b; apply (H (S k)); lia.
  - assert (b = true) by (apply (H 0%nat); auto; lia). subst b. destruct (IH j Hj) as [I1 I2].
    { intros k b Hk; apply (H (S k)); lia. }
    simpl. rewrite I1. split; [destruct bs; [destruct j; discriminate|simpl; lia]|]. intros z. rewrite I2. lia.
Qed.

Lemma nth_error_some_ex (A : Type) (l : list A) k : (k < length l)%nat -> exists a, nth_error l k = Some a.
Proof. intros H. destruct (nth_error l k) eqn:E; eauto. apply nth_error_None in E; lia. Qed.

Lemma frac_unique (a b : Z) (q t : Qc) : (0 <= q -> q < 1 -> 0 <= t -> t < 1 -> Z2Qc a + q = Z2Qc b + t -> a = b /\ q = t)%Qc.
Proof.
  intros. assert (a = b).
  { assert (F : qfloor (Z2Qc a + q)%Qc = a) by (apply qfloor_unique; qc_lra). rewrite <- F.
    rewrite H3. apply qfloor_unique; qc_lra. }
  subst. split; auto. qc_lra.
Qed.

Lemma pos_nth v D k x q : v_wf D v -> nth_error (v_coord v) k = Some x -> nth_error (v_quot v) k = Some q ->
  nth_error (pos v) k = Some (Z2Qc x + q)%Qc.
Proof. intros _ Hx Hq. unfold pos. rewrite nth_error_zipwith, Hx, Hq. reflexivity. Qed.

Lemma on_grid_edge_spec D j c v t : v_wf D v -> normalised v -> flags_exact v -> length c = D ->
  (on_grid_edge D j c v = true /\ nth_error (v_quot v) j = Some t <-> on_open_edge c j t (pos v)).
Proof.
  intros W HN HF Lc. assert (WW := W). destruct WW as (W1 & W2 & W3). split.
  - intros [HO Ht]. assert (B := on_grid_edge_interior D j c v t W HN HF HO Ht).
    unfold on_grid_edge in HO. apply andb_true_iff in HO as [HO HC]. apply andb_true_iff in HO as [HO1 HO2].
    apply zlex_eqb in HC. apply Nat.eqb_eq in HO1. apply Z.eqb_eq in HO2.
    assert (Hc : nth_error (v_clamped v) j = Some false) by (apply (find_unbound_unclamped _ 0); [lia|exact HO2]).
    rewrite <- W3 in HO1.
    assert (Hj : (j < D)%nat) by (rewrite <- W2; eapply nth_error_Some_lt; eauto).
    split; [unfold pos; rewrite zipwith_length by lia; lia|]. split; auto. split.
    + destruct (nth_error_some_ex _ (v_coord v) j) as [x Hx]; [lia|]. exists x. rewrite <- HC. split; auto.
      eapply pos_nth; eauto.
    + intros k x Hk Hx. assert (k < D)%nat by (rewrite <- Lc; eapply nth_error_Some_lt; eauto).
      destruct (nth_error_some_ex _ (v_quot v) k) as [q Hq]; [lia|].
      destruct (nth_error_some_ex _ (v_clamped v) k) as [b Hb]; [lia|].
      rewrite <- HC in Hx. rewrite (pos_nth v D k x q) by auto.
      assert (b = true) by (eapply (count_one _ j HO1 Hc k); eauto).
      assert (E := proj2 (proj1 (Forall2_nth _ _ _ _ _) HF) _ _ _ Hb Hq). simpl in E. rewrite (proj1 E H0).
      f_equal. qc_lra.
  - intros (L & Bt & (x & Hx & Hp) & HR).
    assert (Hj : (j < D)%nat) by (rewrite <- Lc; eapply nth_error_Some_lt; eauto).
    destruct (nth_error_some_ex _ (v_quot v) j) as [q Hq]; [lia|].
    destruct (nth_error_some_ex _ (v_coord v) j) as [y Hy]; [lia|].
    destruct (nth_error_some_ex _ (v_clamped v) j) as [b Hb]; [lia|].
    assert (HN' := proj1 (Forall_nth_error _ _ _) HN). simpl in HN'.
    assert (HF' := proj2 (proj1 (Forall2_nth _ _ _ _ _) HF)). simpl in HF'.
    rewrite (pos_nth v D j y q) in Hp by auto. apply Some_inj in Hp. destruct (HN' _ _ Hq) as [N1 N2].
    destruct Bt as [Bt1 Bt2].
    destruct (frac_unique y x q t) as [-> ->]; auto. { apply Qclt_le_weak; auto. }
    assert (REST : forall k z, k <> j -> nth_error c k = Some z -> nth_error (v_coord v) k = Some z /\ nth_error (v_quot v) k = Some 0%Qc).
    { intros k z Hk Hz. assert (Hkd : (k < D)%nat) by (rewrite <- Lc; eapply nth_error_Some_lt; eauto).
      destruct (nth_error_some_ex _ (v_quot v) k) as [q' Hq']; [lia|].
      destruct (nth_error_some_ex _ (v_coord v) k) as [y' Hy']; [lia|].
      assert (P := HR k z Hk Hz). rewrite (pos_nth v D k y' q') in P by auto. apply Some_inj in P.
      destruct (HN' _ _ Hq') as [M1 M2]. destruct (frac_unique y' z q' 0%Qc) as [-> ->]; auto; try reflexivity; try discriminate.
      rewrite P. qc_lra. }
    assert (CB : nth_error (v_clamped v) j = Some false).
    { rewrite Hb. f_equal. destruct b; auto. assert (E : t = 0%Qc) by (apply (HF' _ _ _ Hb Hq); auto).
      subst. apply Qclt_not_eq in Bt1. congruence. }
    assert (CR : forall k b, k <> j -> nth_error (v_clamped v) k = Some b -> b = true).
    { intros k b' Hk Hb'. assert (Hkd : (k < D)%nat) by (rewrite <- W3; eapply nth_error_Some_lt; eauto).
      destruct (nth_error_some_ex _ c k) as [z Hz]; [lia|]. destruct (REST k z Hk Hz) as [_ Q0].
      apply (HF' _ _ _ Hb' Q0); auto. }
    destruct (count_one_conv _ j CB CR) as [C1 C2].
    split; auto. unfold on_grid_edge, find_unbound. rewrite C1, C2, W3, Nat.eqb_refl.
    replace (0 + Z.of_nat j =? Z.of_nat j) with true by (symmetry; apply Z.eqb_eq; lia). simpl.
    apply zlex_eqb. apply nth_error_ext. intros k. destruct (Nat.eq_dec k j) as [->|Hk]; [congruence|].
    destruct (nth_error c k) as [z|] eqn:Hz; [apply (REST k z); auto|].
    apply nth_error_None. apply nth_error_None in Hz. lia.
Qed.

Lemma NoDup_app_intro (A : Type) (l l' : list A) : NoDup l -> NoDup l' -> (forall x, In x l -> ~ In x l') -> NoDup (l ++ l').
Proof.
  induction 1 as [|a l Ha Hl IH]; simpl; auto. intros H' HD. constructor.
  - rewrite in_app_iff. intros [?|?]; auto. apply (HD a); auto.
  - apply IH; auto.
Qed.
Lemma map_last (A B : Type) (f : A -> B) l d : last (map f l) (f d) = f (last l d).
Proof. induction l as [|a [|b l] IH]; simpl; auto. Qed.

Theorem grid_edge_pieces_spec D s crs j c :
  (forall v i, In (v, i) crs -> v_wf D v /\ normalised v /\ flags_exact v) -> length c = D ->
  exists mid,
    ssorted qcmp (map fst ((0%Qc, ravel s c) :: mid ++ [(1%Qc, ravel s (coord_inc j c))])) /\
    (forall t, In t (map fst mid) <-> exists v i, In (v, i) crs /\ on_open_edge c j t (pos v)) /\
    (forall t i, In (t, i) mid -> exists v, In (v, i) crs /\ on_open_edge c j t (pos v)) /\
    walk (ravel s c) (grid_edge_pieces D s crs j c) (ravel s (coord_inc j c)) /\
    grid_edge_pieces D s crs j c = chain_edges (ravel s c :: map snd mid ++ [ravel s (coord_inc j c)]).
Proof.
  intros HG Lc. destruct (edge_store_spec D j c crs [] (ss_nil _)) as (S1 & S2 & S3).
  fold (edge_store D j c crs) in *.
  assert (ST : forall t i, In (t, i) (edge_store D j c crs) -> exists v, In (v, i) crs /\ on_open_edge c j t (pos v)).
  { intros t i H. apply S2 in H as [[]|(v & Hv & HO & Ht)]. exists v. split; auto. destruct (HG _ _ Hv) as (? & ? & ?).
    apply (on_grid_edge_spec D); auto. }
  destruct (edge_points_spec (ravel s c) (ravel s (coord_inc j c)) (edge_store D j c crs)) as (mid & E & HS & HK & HV).
  { intros t i H. apply ST in H as (v & _ & _ & ? & _). auto. }
  exists mid. split; [auto|]. split; [|split; [|split]].
  - intros t. rewrite HK. change (map fst (edge_store D j c crs)) with (keys (edge_store D j c crs)). rewrite S3. split.
    + intros [[]|(v & i & Hv & HO & Ht)]. exists v, i. split; auto. destruct (HG _ _ Hv) as (? & ? & ?).
      apply (on_grid_edge_spec D); auto.
    + intros (v & i & Hv & HO). right. exists v, i. split; auto. destruct (HG _ _ Hv) as (? & ? & ?).
      apply (on_grid_edge_spec D); auto.
  - intros t i H. apply ST, HV; auto.
  - unfold grid_edge_pieces, subdivide, get_grid_edge; simpl fst; simpl snd. rewrite E. simpl map. rewrite map_app.
    simpl map. apply chain_walk. change (ravel s c :: map snd mid ++ [ravel s (coord_inc j c)]) with
      ((ravel s c :: map snd mid) ++ [ravel s (coord_inc j c)]). apply last_last.
  - unfold grid_edge_pieces, subdivide, get_grid_edge; simpl fst; simpl snd. rewrite E. simpl map. rewrite map_app. auto.
Qed.

Lemma coord_inc_in s : forall c j, in_shape s c = true -> in_shape s (coord_inc j c) = true -> (j < length c)%nat ->
  ravel s c <> ravel s (coord_inc j c).
Proof.
  intros c j H H' Hj E. apply ravel_inj in E; auto. revert Hj E. clear. revert j.
  induction c as [|x c IH]; intros [|j]; simpl; intros Hj E; try lia.
  - injection E as E. lia.
  - injection E as E. apply (IH j); auto. lia.
Qed.

(** with one index per position and cut indices disjoint from the grid's, no piece is degenerate or skipped *)
Theorem grid_edge_pieces_distinct D s crs j c :
  (forall v i, In (v, i) crs -> v_wf D v /\ normalised v /\ flags_exact v) -> length c = D -> (j < D)%nat ->
  (forall v i w k, In (v, i) crs -> In (w, k) crs -> (i = k <-> pos v = pos w)) ->
  (forall v i, In (v, i) crs -> is_grid_vertex v = false -> shape_size s <= i) ->
  in_shape s c = true -> in_shape s (coord_inc j c) = true ->
  exists mid, grid_edge_pieces D s crs j c = pairs (ravel s c :: map snd mid ++ [ravel s (coord_inc j c)]) /\
    NoDup (ravel s c :: map snd mid ++ [ravel s (coord_inc j c)]) /\
    (forall i, In i (map snd mid) <-> exists v t, In (v, i) crs /\ on_open_edge c j t (pos v)) /\
    ssorted qcmp (map fst mid).
Proof.
  intros HG Lc Hj HI HB Hc Hc'.
  destruct (grid_edge_pieces_spec D s crs j c HG Lc) as (mid & HS & HK & HV & _ & HE).
  assert (HS' : ssorted qcmp (map fst mid)).
  { simpl in HS. rewrite map_app in HS. inversion HS; subst. clear - H2. induction (map fst mid) as [|a l IH]; [constructor|].
    simpl in H2. inversion H2; subst. constructor; auto. apply Forall_app in H1 as [? _]; auto. }
  assert (UT : forall v t t', on_open_edge c j t (pos v) -> on_open_edge c j t' (pos v) -> t = t').
  { intros v t t' (_ & _ & (x & Hx & Hp) & _) (_ & _ & (x' & Hx' & Hp') & _).
    assert (x = x') by congruence. subst. rewrite Hp in Hp'. apply Some_inj in Hp'. qc_lra. }
  assert (UP : forall v w t, on_open_edge c j t (pos v) -> on_open_edge c j t (pos w) -> pos v = pos w).
  { intros v w t (L & _ & (x & Hx & Hp) & HR) (L' & _ & (x' & Hx' & Hp') & HR').
    apply nth_error_ext. intros k. destruct (Nat.eq_dec k j) as [->|Hk]; [congruence|].
    destruct (nth_error c k) as [z|] eqn:Hz; [rewrite (HR k z), (HR' k z); auto|].
    apply nth_error_None in Hz. rewrite (proj2 (nth_error_None _ _)), (proj2 (nth_error_None _ _)) by lia. auto. }
  assert (NG : forall v t, on_open_edge c j t (pos v) -> v_wf D v -> normalised v -> flags_exact v -> is_grid_vertex v = false).
  { intros v t HO W N F. destruct (is_grid_vertex v) eqn:E; auto. exfalso.
    apply (on_grid_edge_spec D) in HO as [HO HQ]; auto. unfold on_grid_edge in HO.
    apply andb_true_iff in HO as [HO _]. apply andb_true_iff in HO as [_ HO]. apply Z.eqb_eq in HO.
    assert (X : nth_error (v_clamped v) j = Some false) by (apply (find_unbound_unclamped _ 0); [lia|exact HO]).
    unfold is_grid_vertex in E. rewrite forallb_forall in E. apply nth_error_In in X. apply E in X. discriminate. }
  assert (ND : NoDup (ravel s c :: map snd mid ++ [ravel s (coord_inc j c)])).
  { assert (IDX : forall i, In i (map snd mid) -> shape_size s <= i).
    { intros i Hi. apply in_map_iff in Hi as ((t & i') & <- & Hi). apply HV in Hi as (v & Hv & HO).
      apply (HB v i' Hv). destruct (HG _ _ Hv) as (? & ? & ?). eapply NG; eauto. }
    assert (R1 := ravel_range _ _ Hc). assert (R2 := ravel_range _ _ Hc').
    assert (ND0 : NoDup (map snd mid)).
    { clear HK HE IDX HS. assert (NF := ssorted_NoDup qcmp_total HS'). clear HS'.
      induction mid as [|[t i] mid IHm]; simpl; [constructor|]. simpl in NF. inversion NF; subst. constructor.
      - intros Hin. apply in_map_iff in Hin as ((t' & i') & E & Hin). simpl in E; subst i'.
        destruct (HV t i (or_introl eq_refl)) as (v & Hv & HO). destruct (HV t' i (or_intror Hin)) as (w & Hw & HO').
        assert (P : pos v = pos w) by (apply (HI _ _ _ _ Hv Hw); auto).
        rewrite <- P in HO'. assert (t = t') by eauto. subst t'. apply H1. apply (in_map fst) in Hin; auto.
      - apply IHm; auto. intros t' i' Hin. apply HV; right; auto. }
    constructor.
    - rewrite in_app_iff. intros [Hin|[E|[]]]; [apply IDX in Hin; lia|]. symmetry in E. revert E. apply coord_inc_in; auto; lia.
    - apply NoDup_app_intro; auto; [constructor; [intros []|constructor]|]. intros x Hx [<-|[]]. apply IDX in Hx. lia. }
  exists mid. split; [|split; [|split; [|auto]]]; auto.
  - rewrite HE. apply chain_NoDup. auto.
  - intros i. split.
    + intros Hi. apply in_map_iff in Hi as ((t & i') & <- & Hi). apply HV in Hi as (v & ? & ?). eauto.
    + intros (v & t & Hv & HO). assert (Ht := proj2 (HK t) (ex_intro _ v (ex_intro _ i (conj Hv HO)))).
      apply in_map_iff in Ht as ((t' & i') & E & Ht). simpl in E; subst t'. destruct (HV _ _ Ht) as (w & Hw & HO').
      assert (i' = i) by (apply (HI _ _ _ _ Hw Hv); eauto). subst. apply (in_map snd) in Ht; auto.
Qed.
