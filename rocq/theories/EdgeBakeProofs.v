From Verif Require Import Base Num CoordMask CoordMaskSpec CoordMaskProofs Vertex VertexSpec VertexProofs ThresholdProofs VertexTypes EdgeBake.
From Coq Require Import Sorted Permutation.
Set Implicit Arguments.
Local Open Scope Qc_scope.

(** ** Access *)
Lemma qat_pos D v d : v_wf D v -> (d < D)%nat -> qat (pos v) d = Z2Qc (zat (v_coord v) d) + qat (v_quot v) d.
Proof.
  intros W Hd. destruct (pos_nth_wf _ _ _ W Hd) as (c & q & b & Hc & Hq & Hb & Hp).
  unfold qat, zat. rewrite (nth_error_nth _ _ _ Hp), (nth_error_nth _ _ _ Hc), (nth_error_nth _ _ _ Hq). reflexivity.
Qed.
Lemma qat_quot D v d : v_wf D v -> normalised v -> (d < D)%nat -> 0 <= qat (v_quot v) d /\ qat (v_quot v) d < 1.
Proof.
  intros W N Hd. destruct (pos_nth_wf _ _ _ W Hd) as (c & q & b & Hc & Hq & Hb & Hp).
  unfold qat. rewrite (nth_error_nth _ _ _ Hq). unfold normalised in N. rewrite Forall_forall in N. apply N.
  eapply nth_error_In; eauto.
Qed.
Lemma put_length A (l : list A) d x : length (put l d x) = length l.
Proof. revert d; induction l as [|a l IH]; intros [|d]; simpl; auto. Qed.
Lemma nth_error_put A (l : list A) d x i :
  nth_error (put l d x) i = if (i =? d)%nat then option_map (fun _ => x) (nth_error l i) else nth_error l i.
Proof. revert d i; induction l as [|a l IH]; intros [|d] [|i]; simpl; auto. destruct (i =? d)%nat; auto. Qed.

(** ** Planes visited on one axis *)
Lemma qceil_frac q : 0 <= q -> q < 1 -> qceil q = if qeqb q 0 then 0%Z else 1%Z.
Proof.
  intros H0 H1. unfold qceil. destruct (qeqb q 0) eqn:E.
  - apply qeqb_eq in E; subst q. replace (- 0) with (Z2Qc 0) by (rewrite Z2Qc_0; ring). rewrite qfloor_Z. reflexivity.
  - apply qeqb_neq in E. assert (E1 : Z2Qc (-1) = - (1)) by (apply Qc_is_canon; reflexivity).
    rewrite (@qfloor_unique (- q) (-1)%Z); [reflexivity| |].
    + rewrite E1. qc_lra.
    + rewrite E1. assert (0 < q) by (apply Qcle_lt_or_eq in H0 as [?|F]; [auto|congruence]). qc_lra.
Qed.
Lemma qfloor_frac q : 0 <= q -> q < 1 -> qfloor q = 0%Z.
Proof. intros. apply qfloor_unique; rewrite Z2Qc_0; qc_lra. Qed.
Lemma reflect_axis_spec r c q c' q' : 0 <= q -> q < 1 -> reflect_axis r c q = (c', q') ->
  Z2Qc c' + q' = (if r then - (Z2Qc c + q) else Z2Qc c + q) /\ 0 <= q' /\ q' < 1.
Proof.
  intros H0 H1. unfold reflect_axis. destruct r; [|intros [= <- <-]; auto].
  destruct (qeqb q 0) eqn:E.
  - apply qeqb_eq in E; subst q. intros [= <- <-]. rewrite Z2Qc_opp. split; [ring|split; auto].
  - apply qeqb_neq in E. intros H. apply pair_equal_spec in H as [<- <-]. rewrite Z2Qc_opp, Z2Qc_plus, Z2Qc_1.
    assert (0 < q) by (apply Qcle_lt_or_eq in H0 as [?|F]; [auto|congruence]).
    split; [ring|split; qc_lra].
Qed.

(** [z] lies strictly between [x] and [y], in either order *)
Definition strictly_between (x z y : Qc) : Prop := (x < z /\ z < y) \/ (y < z /\ z < x).

Lemma Qcdiv_le x y d : 0 < d -> (x / d <= y <-> x <= y * d).
Proof.
  intros Hd. assert (Hn : d <> 0) by (intros ->; apply Qclt_not_eq in Hd; auto).
  assert (E : x = x / d * d) by (field; auto).
  split; intros H.
  - rewrite E. apply Qcmult_le_compat_r; auto. apply Qclt_le_weak; auto.
  - rewrite E in H. apply Qcmult_lt_0_le_reg_r in H; auto.
Qed.
Lemma Qcle_div x y d : 0 < d -> (y <= x / d <-> y * d <= x).
Proof.
  intros Hd. assert (Hn : d <> 0) by (intros ->; apply Qclt_not_eq in Hd; auto).
  assert (E : x = x / d * d) by (field; auto).
  split; intros H.
  - rewrite E. apply Qcmult_le_compat_r; auto. apply Qclt_le_weak; auto.
  - rewrite E in H. apply Qcmult_lt_0_le_reg_r in H; auto.
Qed.

Lemma axis_crossings_spec D a b d k t : v_wf D a -> v_wf D b -> normalised a -> normalised b -> (d < D)%nat ->
  let x := qat (pos a) d in let y := qat (pos b) d in
  In (k, t) (axis_crossings a b d) <-> strictly_between x (Z2Qc k) y /\ t = (Z2Qc k - x) / (y - x).
Proof.
  intros Wa Wb Na Nb Hd x y. unfold axis_crossings.
  destruct (qat_quot Wa Na Hd) as [A0 A1]. destruct (qat_quot Wb Nb Hd) as [B0 B1].
  assert (Ex := qat_pos Wa Hd). assert (Ey := qat_pos Wb Hd). fold x in Ex. fold y in Ey. fold x y.
  set (r := reflection a b d).
  set (ca := zat (v_coord a) d) in *. set (cb := zat (v_coord b) d) in *.
  set (qa := qat (v_quot a) d) in *. set (qb := qat (v_quot b) d) in *.
  assert (Hr : if r then y <= x else x < y).
  { unfold r, reflection. fold ca cb qa qb. destruct ((ca <? cb)%Z || (cb =? ca)%Z && qltb qa qb) eqn:E; cbn [negb].
    - apply orb_true_iff in E as [E|E].
      + apply Z.ltb_lt in E. assert (H : Z2Qc (ca + 1) <= Z2Qc cb) by (apply Z2Qc_le; lia). rewrite Z2Qc_plus, Z2Qc_1 in H.
        rewrite Ex, Ey. qc_lra.
      + apply andb_true_iff in E as [E E']. apply Z.eqb_eq in E. apply qltb_lt in E'. rewrite Ex, Ey, E. qc_lra.
    - apply orb_false_iff in E as [E E']. apply Z.ltb_ge in E. apply andb_false_iff in E'.
      destruct (Z.eq_dec cb ca) as [F|F].
      + destruct E' as [E'|E']; [apply Z.eqb_neq in E'; contradiction|]. apply qltb_ge in E'. rewrite Ex, Ey, F. qc_lra.
      + assert (H : Z2Qc (cb + 1) <= Z2Qc ca) by (apply Z2Qc_le; lia). rewrite Z2Qc_plus, Z2Qc_1 in H.
        rewrite Ex, Ey. qc_lra. }
  clearbody r. destruct (reflect_axis r ca qa) as [c0 q0] eqn:R0. destruct (reflect_axis r cb qb) as [c1 q1] eqn:R1.
  destruct (@reflect_axis_spec _ _ _ _ _ A0 A1 R0) as (E0 & P0 & P1). destruct (@reflect_axis_spec _ _ _ _ _ B0 B1 R1) as (E1 & Q0 & Q1).
  rewrite <- Ex in E0. rewrite <- Ey in E1.
  destruct (qeqb (qabs (y - x)) 0) eqn:Edir.
  { apply qeqb_eq in Edir. split; [intros []|]. intros [[[F1 F2]|[F1 F2]] _].
    - destruct (qabs_cases (y - x)) as [[? F]|[? F]]; rewrite F in Edir; qc_lra.
    - destruct (qabs_cases (y - x)) as [[? F]|[? F]]; rewrite F in Edir; qc_lra. }
  apply qeqb_neq in Edir.
  assert (Hxy : if r then y < x else x < y).
  { destruct r; auto. apply Qcle_lt_or_eq in Hr as [?|F]; auto. exfalso. apply Edir. rewrite F.
    replace (x - x) with 0 by ring. reflexivity. }
  set (dir := qabs (y - x)) in *.
  assert (Hdir : dir = if r then x - y else y - x).
  { unfold dir. destruct r; destruct (qabs_cases (y - x)) as [[? F]|[? F]]; rewrite F; try ring; exfalso; qc_lra. }
  assert (Hdp : 0 < dir) by (rewrite Hdir; destruct r; qc_lra).
  rewrite (qfloor_frac Q0 Q1), Z.add_0_r.
  assert (Hceil : Z2Qc (c0 + qceil q0) - 1 < (if r then - x else x) /\ (if r then - x else x) <= Z2Qc (c0 + qceil q0)).
  { rewrite (qceil_frac P0 P1), <- E0, Z2Qc_plus. destruct (qeqb q0 0) eqn:F.
    - apply qeqb_eq in F. rewrite F, Z2Qc_0. split; qc_lra.
    - apply qeqb_neq in F. assert (0 < q0) by (apply Qcle_lt_or_eq in P0 as [?|G]; [auto|congruence]).
      rewrite Z2Qc_1. split; qc_lra. }
  set (bg := (c0 + qceil q0)%Z) in *.
  assert (Ht : forall i, Z2Qc (qceil q0) - q0 + Z2Qc i = Z2Qc (i + bg) - (if r then - x else x)).
  { intros i. rewrite <- E0. unfold bg. rewrite !Z2Qc_plus. ring. }
  assert (Hfl : Z2Qc c1 <= (if r then - y else y) /\ (if r then - y else y) < Z2Qc c1 + 1) by (rewrite <- E1; split; qc_lra).
  rewrite in_flat_map. split.
  - intros (i & Hi & Hin). rewrite Ht in Hin.
    set (u := (Z2Qc (i + bg) - (if r then - x else x)) / dir) in *.
    destruct (qleb u 0) eqn:U0; [destruct Hin|]. destruct (qleb 1 u) eqn:U1; [destruct Hin|]. simpl in Hin.
    destruct Hin as [Hin|[]]. apply pair_equal_spec in Hin as [<- <-].
    apply qleb_gt in U0. apply qleb_gt in U1.
    assert (V0 : Z2Qc (i + bg) - (if r then - x else x) > 0).
    { apply Qcnot_le_lt. intros F. apply (Qclt_not_le _ _ U0). apply Qcdiv_le; [auto|]. rewrite Qcmult_0_l. auto. }
    assert (V1 : Z2Qc (i + bg) - (if r then - x else x) < dir).
    { apply Qcnot_le_lt. intros F. apply (Qclt_not_le _ _ U1). apply Qcle_div; [auto|]. rewrite Qcmult_1_l. auto. }
    unfold u. clear U0 U1 u. rewrite Hdir in *. unfold strictly_between.
    destruct r.
    + rewrite Z2Qc_opp. split; [right; split; qc_lra|]. field. split; intros F; qc_lra.
    + split; [left; split; qc_lra|]. reflexivity.
  - intros [HB ->].
    exists ((if r then - k else k) - bg)%Z.
    assert (HK : (if r then - x else x) < Z2Qc (if r then - k else k)%Z /\ Z2Qc (if r then - k else k)%Z < (if r then - y else y)).
    { destruct r; rewrite ?Z2Qc_opp; destruct HB as [[? ?]|[? ?]]; split; qc_lra. }
    destruct HK as [K1 K2].
    assert (L1 : (bg <= if r then - k else k)%Z).
    { assert (F : Z2Qc (bg - 1) < Z2Qc (if r then - k else k)%Z) by (rewrite Z2Qc_minus, Z2Qc_1; destruct Hceil; eapply Qclt_trans; eauto).
      apply -> Z2Qc_lt in F. lia. }
    assert (L2 : ((if r then - k else k) <= c1)%Z).
    { assert (F : Z2Qc (if r then - k else k)%Z < Z2Qc (c1 + 1)) by (rewrite Z2Qc_plus, Z2Qc_1; destruct Hfl; eapply Qclt_trans; eauto).
      apply -> Z2Qc_lt in F. lia. }
    split; [apply zrange_In; lia|].
    rewrite Ht. replace ((if r then - k else k) - bg + bg)%Z with (if r then - k else k)%Z by lia.
    set (u := (Z2Qc (if r then - k else k)%Z - (if r then - x else x)) / dir).
    assert (U0 : qleb u 0 = false).
    { apply qleb_gt. apply Qcnot_le_lt. intros F. apply Qcdiv_le in F; [|auto]. rewrite Qcmult_0_l in F. destruct r; qc_lra. }
    assert (U1 : qleb 1 u = false).
    { apply qleb_gt. apply Qcnot_le_lt. intros F. apply Qcle_div in F; [|auto]. rewrite Qcmult_1_l, Hdir in F. destruct r; qc_lra. }
    rewrite U0, U1. simpl. left. apply pair_equal_spec. split; [destruct r; lia|].
    unfold u. rewrite Hdir. clear U0 U1 u. destruct r; [|reflexivity].
    rewrite Z2Qc_opp. field. split; intros F; qc_lra.
Qed.

(** ** Maps and sets *)
Lemma opt_cmp_total : TotalCmp opt_cmp.
Proof.
  split.
  - intros [x|] [y|]; simpl; split; try congruence; intros H; [apply Z.compare_eq_iff in H; congruence|injection H as ->; apply Z.compare_refl].
  - intros [x|] [y|]; simpl; auto. apply Z.compare_antisym.
  - intros [x|] [y|] [z|]; simpl; try congruence. rewrite !Z.compare_lt_iff. lia.
Qed.
Lemma mask_cmp_total : TotalCmp mask_cmp.
Proof. apply lex_cmp_total, opt_cmp_total. Qed.
Lemma map_set_In (K V : Type) (cmp : K -> K -> comparison) (TC : TotalCmp cmp) k (v : V) m p :
  In p (map_set cmp k v m) -> p = (k, v) \/ In p m.
Proof.
  induction m as [|[k' v'] m IH]; simpl; [intros [<-|[]]; auto|].
  destruct (cmp k k') eqn:E; simpl.
  - apply (tc_eq TC) in E; subst k'. intros [<-|H]; auto.
  - intros [<-|H]; auto.
  - intros [<-|H]; auto. apply IH in H as [H|H]; auto.
Qed.
Lemma map_set_new (K V : Type) (cmp : K -> K -> comparison) (TC : TotalCmp cmp) k (v : V) m : In (k, v) (map_set cmp k v m).
Proof.
  induction m as [|[k' v'] m IH]; simpl; auto. destruct (cmp k k') eqn:E; simpl; auto.
  apply (tc_eq TC) in E; subst k'. auto.
Qed.
Lemma map_set_old (K V : Type) (cmp : K -> K -> comparison) (TC : TotalCmp cmp) k (v : V) m k' v' :
  In (k', v') m -> k' <> k -> In (k', v') (map_set cmp k v m).
Proof.
  induction m as [|[q w] m IH]; simpl; [intros []|]. intros H N. destruct (cmp k q) eqn:E; simpl.
  - apply (tc_eq TC) in E; subst q. destruct H as [[= -> ->]|H]; [contradiction|auto].
  - auto.
  - destruct H as [H|H]; auto.
Qed.
Lemma map_find_In (K V : Type) (cmp : K -> K -> comparison) (TC : TotalCmp cmp) k (v : V) m : map_find cmp k m = Some v -> In (k, v) m.
Proof.
  induction m as [|[q w] m IH]; simpl; [discriminate|]. destruct (cmp k q) eqn:E; [|discriminate|auto].
  apply (tc_eq TC) in E; subst q. intros [= ->]; auto.
Qed.
Lemma tset_emplace_In e s p : In p (tset_emplace e s) -> p = (ei_coord e, e) \/ In p s.
Proof. unfold tset_emplace, map_emplace. destruct (map_find qcmp (ei_coord e) s); auto. apply map_set_In, qcmp_total. Qed.
Lemma tset_emplace_keys e s t : In t (map fst (tset_emplace e s)) <-> t = ei_coord e \/ In t (map fst s).
Proof.
  unfold tset_emplace, map_emplace. destruct (map_find qcmp (ei_coord e) s) eqn:E.
  - split; auto. intros [->|H]; auto. apply (map_find_In qcmp_total) in E. apply (in_map fst) in E. auto.
  - change (map fst (map_set qcmp (ei_coord e) e s)) with (keys (map_set qcmp (ei_coord e) e s)). rewrite map_set_keys.
    rewrite (set_insert_In qcmp_total). tauto.
Qed.
Lemma nth_put A (l : list A) j x i d : nth i (put l j x) d = if (i =? j)%nat && (j <? length l)%nat then x else nth i l d.
Proof.
  revert i j; induction l as [|y l IH]; intros [|i] [|j]; simpl; auto; try (destruct (i =? j)%nat; reflexivity).
  rewrite IH. destruct (i =? j)%nat; auto.
Qed.
Lemma qsum_app l l' : qsum (l ++ l') = qsum l + qsum l'.
Proof.
  unfold qsum. rewrite fold_left_app. generalize (fold_left Qcplus l 0) as s. intros s.
  enough (H : forall l s, fold_left Qcplus l s = s + fold_left Qcplus l 0) by apply H.
  clear. induction l as [|x l IH]; intros s; simpl; [ring|]. rewrite IH, (IH (0 + x)). ring.
Qed.
Lemma qsum_cons x l : qsum (x :: l) = x + qsum l.
Proof. change (x :: l) with ([x] ++ l). rewrite qsum_app. unfold qsum at 1. simpl. ring. Qed.
Lemma qsum_const t l : (forall x, In x l -> x = t) -> qsum l = Z2Qc (Z.of_nat (length l)) * t.
Proof.
  induction l as [|x l IH]; intros H; [unfold qsum; simpl; rewrite Z2Qc_0; ring|].
  rewrite qsum_cons, IH by (intros; apply H; right; auto). rewrite (H x) by (left; auto).
  cbn [length]. rewrite Nat2Z.inj_succ, <- Z.add_1_r, Z2Qc_plus, Z2Qc_1. ring.
Qed.

(** ** Masks and positions *)
Lemma v_mask_pos D v i z : v_wf D v -> normalised v -> (binds (v_mask v) i z <-> (i < D)%nat /\ qat (pos v) i = Z2Qc z).
Proof.
  intros W N. split.
  - intros B. assert (Hi : (i < D)%nat).
    { rewrite <- (v_mask_length _ _ W). apply nth_error_Some. unfold binds in B. congruence. }
    split; auto. destruct (pos_nth_wf _ _ _ W Hi) as (c & q & b & Hc & Hq & Hb & Hp).
    apply (v_mask_binds _ _ _ _ Hc Hq) in B as [-> ->]. unfold qat. rewrite (nth_error_nth _ _ _ Hp). ring.
  - intros [Hi E]. destruct (pos_nth_wf _ _ _ W Hi) as (c & q & b & Hc & Hq & Hb & Hp).
    unfold qat in E. rewrite (nth_error_nth _ _ _ Hp) in E.
    destruct (normalised_integral _ _ _ _ _ N Hc Hq E) as [EE ->]. apply (v_mask_binds _ _ _ _ Hc Hq). auto.
Qed.
(** a vertex already on the planes of a mask keeps its coordinates when clamped *)
Lemma clamp_keeps D m v : v_wf D v -> length m = D -> (forall i z, binds m i z -> binds (v_mask v) i z) ->
  v_coord (clamp_vertex m v) = v_coord v /\ v_quot (clamp_vertex m v) = v_quot v.
Proof.
  intros W L H. assert (W' := W). destruct W as (Lc & Lq & Lb). unfold clamp_vertex, clamp_coord. cbn [v_coord v_quot].
  split; apply nth_error_ext; intros i; rewrite nth_error_zipwith.
  - destruct (nth_error (v_coord v) i) as [c|] eqn:Ec.
    + destruct (nth_error m i) as [[z|]|] eqn:Em; auto.
      * destruct (nth_error (v_quot v) i) as [q|] eqn:Eq.
        -- destruct (proj1 (v_mask_binds _ _ _ _ Ec Eq z) (H _ _ Em)) as [Ez _]. subst; auto.
        -- apply nth_error_None in Eq. assert (i < length (v_coord v))%nat by (apply nth_error_Some; congruence). lia.
      * apply nth_error_None in Em. assert (i < length (v_coord v))%nat by (apply nth_error_Some; congruence). lia.
    + auto.
  - destruct (nth_error (v_quot v) i) as [q|] eqn:Eq.
    + destruct (nth_error m i) as [[z|]|] eqn:Em; auto.
      * destruct (nth_error (v_coord v) i) as [c|] eqn:Ec.
        -- destruct (proj1 (v_mask_binds _ _ _ _ Ec Eq z) (H _ _ Em)) as [_ Ez]. rewrite Ez; auto.
        -- apply nth_error_None in Ec. assert (i < length (v_quot v))%nat by (apply nth_error_Some; congruence). lia.
      * apply nth_error_None in Em. assert (i < length (v_quot v))%nat by (apply nth_error_Some; congruence). lia.
    + auto.
Qed.
Lemma clamp_flags D m v : v_wf D v -> length m = D -> flags_sound v -> (forall i z, binds m i z -> binds (v_mask v) i z) ->
  flags_sound (clamp_vertex m v).
Proof.
  intros W L F H. assert (K := clamp_keeps W L H). destruct K as [_ K]. apply flags_sound_nth in F as [F1 F2].
  assert (W2 := clamp_vertex_wf _ _ _ L W). destruct W2 as (L1 & L2 & L3). destruct W as (Lc & Lq & Lb).
  apply flags_sound_nth. split; [lia|]. intros i q Hb Hq. rewrite K in Hq.
  unfold clamp_vertex in Hb. cbn [v_clamped] in Hb. unfold bitset_or, as_bitset in Hb. rewrite nth_error_zipwith, nth_error_map in Hb.
  destruct (nth_error (v_clamped v) i) as [b|] eqn:Eb; [|discriminate].
  destruct (nth_error m i) as [o|] eqn:Em; [|discriminate]. simpl in Hb. apply Some_inj in Hb.
  destruct b; [eapply F2; eauto|]. destruct o as [z|]; [|discriminate]. apply H in Em.
  destruct (nth_error (v_coord v) i) as [c|] eqn:Ec.
  - apply (v_mask_binds _ _ _ _ Ec Hq) in Em as [_ Ez]; auto.
  - apply nth_error_None in Ec. assert (i < length (v_quot v))%nat by (apply nth_error_Some; congruence). lia.
Qed.
(** same coordinates and fractions: same position and mask *)
Lemma same_cq_pos v w : v_coord v = v_coord w -> v_quot v = v_quot w -> pos v = pos w /\ v_mask v = v_mask w.
Proof. intros H1 H2. unfold pos, v_mask. rewrite H1, H2. auto. Qed.

(** ** Thresholding, one coordinate *)
Definition snap (th x : Qc) : Qc :=
  let n := qfloor x in let q := x - Z2Qc n in
  if qltb q qhalf then (if qltb q th then Z2Qc n else x)
  else if qltb (- th * qabs (q + 1)) (q - 1) then Z2Qc n + 1 else x.
Lemma snap_cases th x : let n := qfloor x in let q := x - Z2Qc n in
  (snap th x = x /\ ~ (q < qhalf /\ q < th) /\ ~ (qhalf <= q /\ 1 - q < th * (q + 1))) \/
  (snap th x = Z2Qc n /\ q < qhalf /\ q < th) \/ (snap th x = Z2Qc n + 1 /\ qhalf <= q /\ 1 - q < th * (q + 1)).
Proof.
  intros n q. destruct (qfloor_spec x) as [F0 F1]. fold n in F0, F1.
  assert (Q0 : 0 <= q) by (unfold q; qc_lra).
  unfold snap. fold n. fold q. destruct (qltb q qhalf) eqn:E.
  - apply qltb_lt in E. destruct (qltb q th) eqn:E2.
    + apply qltb_lt in E2. right; left; auto.
    + apply qltb_ge in E2. left. split; auto. split; intros [? ?]; qc_lra.
  - apply qltb_ge in E. assert (EA : qabs (q + 1) = q + 1).
    { destruct (qabs_cases (q + 1)) as [[H H']|[H H']]; auto. exfalso; qc_lra. }
    rewrite EA. destruct (qltb (- th * (q + 1)) (q - 1)) eqn:E2.
    + apply qltb_lt in E2. right; right. split; auto. split; auto. qc_lra.
    + apply qltb_ge in E2. left. split; auto. split; intros [? ?]; qc_lra.
Qed.
Lemma floor_le n x : Z2Qc n <= x -> (n <= qfloor x)%Z.
Proof. intros H. destruct (qfloor_spec x) as [_ F]. apply Z2Qc_lt_plus1. eapply Qcle_lt_trans; eauto. Qed.
Lemma floor_lt n x : x < Z2Qc n -> (qfloor x < n)%Z.
Proof. intros H. destruct (qfloor_spec x) as [F _]. apply Z2Qc_lt. eapply Qcle_lt_trans; eauto. Qed.
Lemma snap_ge th n x : Z2Qc n <= x -> Z2Qc n <= snap th x.
Proof.
  intros H. assert (L := floor_le H). apply Z2Qc_le in L. destruct (snap_cases th x) as [(-> & _)|[(-> & _)|(-> & _)]]; qc_lra.
Qed.
Lemma snap_le th n x : x <= Z2Qc n -> snap th x <= Z2Qc n.
Proof.
  intros H. destruct (qfloor_spec x) as [F0 F1]. destruct (snap_cases th x) as [(-> & _)|[(-> & _)|(-> & Q & _)]].
  - auto.
  - qc_lra.
  - assert (L : x < Z2Qc n).
    { apply Qcle_lt_or_eq in H as [H|H]; auto. exfalso. rewrite H, qfloor_Z in Q. unfold Qcle in Q. q_push. lra. }
    apply floor_lt in L. assert (L' : (qfloor x + 1 <= n)%Z) by lia. apply Z2Qc_le in L'. rewrite Z2Qc_plus, Z2Qc_1 in L'. auto.
Qed.
Lemma snap_int th n : snap th (Z2Qc n) = Z2Qc n.
Proof. apply Qcle_antisym; [apply snap_le|apply snap_ge]; apply Qcle_refl. Qed.
Lemma snap_near th x : 0 < th -> qabs (snap th x - x) < th + th.
Proof.
  intros T. destruct (qfloor_spec x) as [F0 F1]. destruct (snap_cases th x) as [(-> & _)|[(-> & Q1 & Q2)|(-> & Q1 & Q2)]].
  - destruct (qabs_cases (x - x)) as [[? ->]|[? ->]]; qc_lra.
  - match goal with |- qabs ?z < _ => destruct (qabs_cases z) as [[? ->]|[? ->]] end; qc_lra.
  - set (q := x - Z2Qc (qfloor x)) in *.
    assert (H : th * (q + 1) <= th + th).
    { assert (q <= 1) by (unfold q; qc_lra). clearbody q. unfold Qcle, Qclt in *. q_push. nra. }
    match goal with |- qabs ?z < _ => destruct (qabs_cases z) as [[? ->]|[? ->]] end; unfold q in *; qc_lra.
Qed.
Lemma snap_convex th n x y : 0 < th -> snap th x = Z2Qc n -> (Z2Qc n <= y /\ y <= x) \/ (x <= y /\ y <= Z2Qc n) -> snap th y = Z2Qc n.
Proof.
  intros T E H. destruct (Qc_eq_dec y (Z2Qc n)) as [->|Ny]; [apply snap_int|].
  destruct (qfloor_spec x) as [F0 F1]. destruct (qfloor_spec y) as [G0 G1].
  destruct H as [[H1 H2]|[H1 H2]].
  - assert (H3 : Z2Qc n < y) by (apply Qcle_lt_or_eq in H1 as [?|?]; auto; congruence).
    destruct (snap_cases th x) as [(E1 & _)|[(E1 & Q1 & Q2)|(E1 & Q1 & Q2)]]; rewrite E in E1.
    + exfalso. rewrite E1 in H3. qc_lra.
    + apply Z2Qc_inj in E1. assert (Fy : qfloor y = n) by (apply qfloor_unique; [auto|rewrite E1; eapply Qcle_lt_trans; eauto]).
      rewrite <- E1 in Q1, Q2. destruct (snap_cases th y) as [(_ & P & _)|[(-> & _)|(_ & P & _)]]; rewrite ?Fy in *; auto.
      * exfalso. apply P. split; qc_lra.
      * exfalso. qc_lra.
    + exfalso. qc_lra.
  - assert (H3 : y < Z2Qc n) by (apply Qcle_lt_or_eq in H2 as [?|?]; auto; congruence).
    destruct (snap_cases th x) as [(E1 & _)|[(E1 & Q1 & Q2)|(E1 & Q1 & Q2)]]; rewrite E in E1.
    + exfalso. rewrite E1 in H3. qc_lra.
    + exfalso. qc_lra.
    + assert (Fy : qfloor y = qfloor x) by (apply qfloor_unique; qc_lra).
      assert (K : 1 - (y - Z2Qc (qfloor x)) < th * (y - Z2Qc (qfloor x) + 1)).
      { set (qx := x - Z2Qc (qfloor x)) in *. set (qy := y - Z2Qc (qfloor x)). assert (qx <= qy) by (unfold qx, qy; qc_lra).
        clearbody qx qy. unfold Qcle, Qclt in *. q_push. nra. }
      destruct (snap_cases th y) as [(_ & _ & P)|[(_ & P & _)|(-> & _)]]; rewrite ?Fy in *; auto.
      * exfalso. apply P. split; [|auto]. qc_lra.
      * exfalso. qc_lra.
Qed.
Lemma snap_exact th x : th <= x - Z2Qc (qfloor x) -> x - Z2Qc (qfloor x) <= 1 - (th + th) -> 0 < th -> snap th x = x.
Proof.
  intros H1 H2 T. destruct (snap_cases th x) as [(-> & _)|[(_ & _ & Q)|(_ & Q1 & Q2)]]; auto; exfalso; [qc_lra|].
  set (q := x - Z2Qc (qfloor x)) in *. clearbody q. unfold Qcle, Qclt in *. q_push. nra.
Qed.
Lemma threshold_axis_snap th c q b c' q' b' : 0 < th -> 0 <= q -> q < 1 -> (b = true -> q = 0) -> threshold_axis th c q b = (c', q', b') ->
  Z2Qc c' + q' = snap th (Z2Qc c + q) /\ 0 <= q' /\ q' < 1 /\ (b' = true <-> q' = 0).
Proof.
  intros T H0 H1 Hb. assert (FL : qfloor (Z2Qc c + q) = c) by (apply qfloor_unique; qc_lra).
  unfold threshold_axis, snap. rewrite FL. replace (Z2Qc c + q - Z2Qc c) with q by ring.
  destruct (qltb q qhalf) eqn:E.
  - destruct (qltb q th) eqn:E2; intros R; apply pair_equal_spec in R as [R <-]; apply pair_equal_spec in R as [<- <-].
    + repeat split; auto; try ring. apply Qcle_refl.
    + apply qltb_ge in E2. repeat split; auto. intros ->. exfalso. qc_lra.
  - apply qltb_ge in E. destruct (qltb (- th * qabs (q + 1)) (q - 1)) eqn:E2; intros R; apply pair_equal_spec in R as [R <-]; apply pair_equal_spec in R as [<- <-].
    + rewrite Z2Qc_plus, Z2Qc_1. repeat split; auto; try ring. apply Qcle_refl.
    + repeat split; auto. intros ->. exfalso. unfold Qcle in E. q_push. lra.
Qed.
Lemma thresholding_snap D th v : 0 < th -> v_wf D v -> normalised v -> flags_sound v -> let w := apply_thresholding th v in
  v_wf D w /\ normalised w /\ flags_exact w /\ forall d, (d < D)%nat -> qat (pos w) d = snap th (qat (pos v) d).
Proof.
  intros T W N F w. assert (Ww : v_wf D w) by (apply apply_thresholding_wf; auto).
  assert (AX : forall d, (d < D)%nat -> exists c q b c' q' b', nth_error (v_coord v) d = Some c /\ nth_error (v_quot v) d = Some q /\
     nth_error (v_clamped v) d = Some b /\ nth_error (v_coord w) d = Some c' /\ nth_error (v_quot w) d = Some q' /\ nth_error (v_clamped w) d = Some b' /\
     threshold_axis th c q b = (c', q', b')).
  { intros d Hd. destruct (pos_nth_wf _ _ _ W Hd) as (c & q & b & Hc & Hq & Hb & Hp).
    unfold w, apply_thresholding. destruct (threshold_loop th (v_coord v) (v_quot v) (v_clamped v)) as [[cs qs] bs] eqn:E.
    cbn [v_coord v_quot v_clamped]. destruct (threshold_loop_nth _ _ _ _ _ _ _ d E _ _ _ Hc Hq Hb) as (c' & q' & b' & K0 & K1 & K2 & K3).
    exists c, q, b, c', q', b'. auto 10. }
  assert (SP : forall d, (d < D)%nat -> forall c q b c' q' b', nth_error (v_quot v) d = Some q -> nth_error (v_clamped v) d = Some b ->
     threshold_axis th c q b = (c', q', b') -> Z2Qc c' + q' = snap th (Z2Qc c + q) /\ 0 <= q' /\ q' < 1 /\ (b' = true <-> q' = 0)).
  { intros d Hd c q b c' q' b' Hq Hb E. unfold normalised in N. rewrite Forall_nth_error in N. destruct (N _ _ Hq) as [N0 N1].
    apply threshold_axis_snap with (b := b); auto. intros ->. apply (proj2 (proj1 (flags_sound_nth _) F) d q); auto. }
  split; auto. destruct Ww as (L1 & L2 & L3). split; [|split].
  - unfold normalised. rewrite Forall_nth_error. intros d q Hq. assert (Hd : (d < D)%nat) by (rewrite <- L2; apply nth_error_Some; congruence).
    destruct (AX d Hd) as (c & q0 & b & c' & q' & b' & A1 & A2 & A3 & A4 & A5 & A6 & A7). destruct (SP d Hd _ _ _ _ _ _ A2 A3 A7) as (_ & S1 & S2 & _).
    rewrite A5 in Hq. apply Some_inj in Hq. subst q'. auto.
  - unfold flags_exact. rewrite Forall2_nth. split; [lia|]. intros d bb q Hb Hq. assert (Hd : (d < D)%nat) by (rewrite <- L2; apply nth_error_Some; congruence).
    destruct (AX d Hd) as (c & q0 & b & c' & q' & b' & A1 & A2 & A3 & A4 & A5 & A6 & A7). destruct (SP d Hd _ _ _ _ _ _ A2 A3 A7) as (_ & _ & _ & S3).
    rewrite A5 in Hq. rewrite A6 in Hb. apply Some_inj in Hq. apply Some_inj in Hb. subst q' b'. auto.
  - intros d Hd. destruct (AX d Hd) as (c & q0 & b & c' & q' & b' & A1 & A2 & A3 & A4 & A5 & A6 & A7). destruct (SP d Hd _ _ _ _ _ _ A2 A3 A7) as (S0 & _).
    unfold qat. rewrite (nth_error_nth _ _ _ (pos_nth_error _ _ _ _ A4 A5)), (nth_error_nth _ _ _ (pos_nth_error _ _ _ _ A1 A2)). auto.
Qed.

(** ** One representative per mask, sorted by parameter *)
Definition coord_lt (x y : edge_isect) : Prop := ei_coord x < ei_coord y.
Lemma cem_spec l : StronglySorted coord_lt l ->
  ssorted mask_cmp (keys (cem_of l)) /\ (forall m e, In (m, e) (cem_of l) -> In e l /\ m = v_mask (ei_v e)) /\
  (forall e, In e l -> exists f, In (v_mask (ei_v e), f) (cem_of l) /\ ei_coord e <= ei_coord f).
Proof.
  unfold cem_of.
  enough (H : forall pre rest m0, StronglySorted coord_lt (pre ++ rest) -> 
    (ssorted mask_cmp (keys m0) /\ (forall m e, In (m, e) m0 -> In e pre /\ m = v_mask (ei_v e)) /\
     (forall e, In e pre -> exists f, In (v_mask (ei_v e), f) m0 /\ ei_coord e <= ei_coord f)) ->
    let r := fold_left (fun m e => map_set mask_cmp (v_mask (ei_v e)) e m) rest m0 in
    ssorted mask_cmp (keys r) /\ (forall m e, In (m, e) r -> In e (pre ++ rest) /\ m = v_mask (ei_v e)) /\
     (forall e, In e (pre ++ rest) -> exists f, In (v_mask (ei_v e), f) r /\ ei_coord e <= ei_coord f)).
  { intros S. apply (H [] l []); auto. split; [constructor|split; [intros ? ? []|intros ? []]]. }
  intros pre rest. revert pre. induction rest as [|e rest IH]; intros pre m0 S (H1 & H2 & H3); cbn [fold_left].
  { rewrite app_nil_r. auto. }
  replace (pre ++ e :: rest) with ((pre ++ [e]) ++ rest) in * by (rewrite <- app_assoc; auto).
  apply IH; auto. split; [apply (map_set_sorted mask_cmp_total); auto|]. split.
  - intros m f Hf. apply (map_set_In mask_cmp_total) in Hf as [Hf|Hf].
    + apply pair_equal_spec in Hf as [-> ->]. split; auto. apply in_or_app; right; left; auto.
    + apply H2 in Hf as [? ?]. split; auto. apply in_or_app; auto.
  - intros f Hf. apply in_app_or in Hf as [Hf|[<-|[]]].
    + destruct (H3 f Hf) as (g & Hg & Hle). destruct (mask_cmp (v_mask (ei_v f)) (v_mask (ei_v e))) eqn:C.
      * apply (tc_eq mask_cmp_total) in C. exists e. rewrite C. split; [apply (map_set_new mask_cmp_total)|].
        assert (L : coord_lt f e).
        { clear - S Hf. rewrite <- app_assoc in S. induction pre as [|x pre IH]; [destruct Hf|]. inversion S as [|? ? S' F]; subst.
          destruct Hf as [<-|Hf]; [|apply IH; auto]. rewrite Forall_forall in F. apply F. apply in_or_app; right; left; auto. }
        apply Qclt_le_weak; auto.
      * exists g. split; auto. apply (map_set_old mask_cmp_total); auto. intros F. rewrite F, (tc_refl mask_cmp_total) in C. discriminate.
      * exists g. split; auto. apply (map_set_old mask_cmp_total); auto. intros F. rewrite F, (tc_refl mask_cmp_total) in C. discriminate.
    + exists e. split; [apply (map_set_new mask_cmp_total)|apply Qcle_refl].
Qed.
Lemma insert_perm e l : Permutation (e :: l) (insert_by_coord e l).
Proof.
  induction l as [|x l IH]; simpl; auto. destruct (qltb (ei_coord e) (ei_coord x)); auto.
  eapply perm_trans; [apply perm_swap|]. apply perm_skip; auto.
Qed.
Lemma sort_perm l : Permutation l (sort_by_coord l).
Proof. induction l as [|x l IH]; simpl; auto. eapply perm_trans; [apply perm_skip, IH|apply insert_perm]. Qed.
Definition coord_le (x y : edge_isect) : Prop := ei_coord x <= ei_coord y.
Lemma insert_sorted e l : StronglySorted coord_le l -> StronglySorted coord_le (insert_by_coord e l).
Proof.
  induction 1 as [|x l S IH F]; simpl; [repeat constructor|]. destruct (qltb (ei_coord e) (ei_coord x)) eqn:E.
  - apply qltb_lt in E. constructor; [constructor; auto|]. constructor; [apply Qclt_le_weak; auto|].
    eapply Forall_impl; [|exact F]. intros y Hy. unfold coord_le in *. eapply Qcle_trans; [apply Qclt_le_weak; exact E|exact Hy].
  - apply qltb_ge in E. constructor; auto. rewrite Forall_forall in *. intros y Hy.
    apply (Permutation_in _ (Permutation_sym (insert_perm e l))) in Hy as [<-|Hy]; auto.
Qed.
Lemma sort_sorted l : StronglySorted coord_le (sort_by_coord l).
Proof. induction l as [|x l IH]; simpl; [constructor|apply insert_sorted; auto]. Qed.
Lemma sorted_strict l : StronglySorted coord_le l -> NoDup (map ei_coord l) -> StronglySorted coord_lt l.
Proof.
  induction 1 as [|x l S IH F]; intros N; constructor; inversion N as [|? ? N1 N2]; subst; auto.
  rewrite Forall_forall in *. intros y Hy. unfold coord_lt. specialize (F y Hy). unfold coord_le in F.
  apply Qcle_lt_or_eq in F as [F|F]; auto. exfalso. apply N1. rewrite F. apply in_map; auto.
Qed.
Lemma sorted_coord_inj l e f : StronglySorted coord_lt l -> In e l -> In f l -> ei_coord e = ei_coord f -> e = f.
Proof.
  induction 1 as [|x l S IH F]; [intros []|]. rewrite Forall_forall in F. intros [<-|He] [<-|Hf] E; auto.
  - exfalso. specialize (F f Hf). unfold coord_lt in F. rewrite E in F. apply Qclt_not_eq in F; auto.
  - exfalso. specialize (F e He). unfold coord_lt in F. rewrite E in F. apply Qclt_not_eq in F; auto.
Qed.

Section Edge.
Variables (D : nat) (a b : vertex) (idx : Z).
Hypotheses (Wa : v_wf D a) (Wb : v_wf D b) (Na : normalised a) (Nb : normalised b).
Notation ax d := (qat (pos a) d).
Notation bx d := (qat (pos b) d).
Notation M := (edge_mask a b).

Definition pt (t : Qc) : vertex := v_add (v_scale (1 - t) a) (v_scale t b).
Lemma pt_wf t : v_wf D (pt t).
Proof. apply v_add_wf; apply v_scale_wf; auto. Qed.
Lemma pt_normalised t : normalised (pt t).
Proof. apply v_add_normalised. Qed.
Lemma pt_pos t d : (d < D)%nat -> qat (pos (pt t)) d = ax d + t * (bx d - ax d).
Proof.
  intros Hd. unfold pt. rewrite (v_add_pos _ _ D), !(v_scale_pos _ _ D) by (try apply v_scale_wf; auto).
  assert (La := pos_length _ _ Wa). assert (Lb := pos_length _ _ Wb).
  destruct (nth_error_lt _ (pos a) d ltac:(lia)) as [x Hx]. destruct (nth_error_lt _ (pos b) d ltac:(lia)) as [y Hy].
  unfold qat. rewrite (nth_error_nth _ _ _ Hx), (nth_error_nth _ _ _ Hy). apply nth_error_nth.
  unfold vec_add, vec_scale. rewrite nth_error_zipwith, !nth_error_map, Hx, Hy. simpl. f_equal. ring.
Qed.
Lemma M_length : length M = D.
Proof. unfold edge_mask. rewrite mask_and_length; rewrite !(v_mask_length D); auto. Qed.
Lemma M_binds i z : binds M i z <-> binds (v_mask a) i z /\ binds (v_mask b) i z.
Proof. unfold edge_mask. apply mask_and_binds. rewrite !(v_mask_length D); auto. Qed.
Lemma M_on_pt t i z : binds M i z -> binds (v_mask (pt t)) i z.
Proof.
  intros B. apply M_binds in B as [B1 B2]. apply (v_mask_pos _ _ Wa Na) in B1 as [Hi E1]. apply (v_mask_pos _ _ Wb Nb) in B2 as [_ E2].
  apply (v_mask_pos _ _ (pt_wf t) (pt_normalised t)). split; auto. rewrite pt_pos by auto. rewrite E1, E2. ring.
Qed.

(** what every recorded crossing satisfies *)
Record good (e : edge_isect) : Prop := mkGood {
  g_idx : ei_index e = idx;
  g_c : v_coord (ei_v e) = v_coord (pt (ei_coord e));
  g_q : v_quot (ei_v e) = v_quot (pt (ei_coord e));
  g_len : length (v_clamped (ei_v e)) = D;
  g_fl : flags_sound (ei_v e);
  g_ax : exists d k, (d < D)%nat /\ strictly_between (ax d) (Z2Qc k) (bx d) /\ ei_coord e = (Z2Qc k - ax d) / (bx d - ax d) }.

Lemma between_neq x z y : strictly_between x z y -> y - x <> 0.
Proof. intros [[? ?]|[? ?]] F; qc_lra. Qed.
Lemma param_range x z y : strictly_between x z y -> 0 < (z - x) / (y - x) /\ (z - x) / (y - x) < 1.
Proof.
  intros H. assert (N := between_neq H). destruct H as [[H1 H2]|[H1 H2]].
  - assert (0 < y - x) by qc_lra. split; apply Qcnot_le_lt; intros F.
    + apply Qcdiv_le in F; [|auto]. qc_lra.
    + apply Qcle_div in F; [|auto]. qc_lra.
  - replace ((z - x) / (y - x)) with ((x - z) / (x - y)) by (field; split; intros F; qc_lra).
    assert (0 < x - y) by qc_lra. split; apply Qcnot_le_lt; intros F.
    + apply Qcdiv_le in F; [|auto]. qc_lra.
    + apply Qcle_div in F; [|auto]. qc_lra.
Qed.
Lemma good_range e : good e -> 0 < ei_coord e /\ ei_coord e < 1.
Proof. intros G. destruct (g_ax G) as (d & k & _ & B & E). rewrite E. apply param_range; auto. Qed.
Lemma good_wf e : good e -> v_wf D (ei_v e).
Proof. intros G. destruct (pt_wf (ei_coord e)) as (H1 & H2 & _). repeat split; [rewrite (g_c G)|rewrite (g_q G)|apply (g_len G)]; auto. Qed.
Lemma good_normalised e : good e -> normalised (ei_v e).
Proof. intros G. unfold normalised. rewrite (g_q G). apply pt_normalised. Qed.
Lemma good_pos e : good e -> pos (ei_v e) = pos (pt (ei_coord e)) /\ v_mask (ei_v e) = v_mask (pt (ei_coord e)).
Proof. intros G. apply same_cq_pos; [apply (g_c G)|apply (g_q G)]. Qed.
(** two crossings on the same crossed plane are the same point *)
Lemma same_plane d k t u : (d < D)%nat -> bx d - ax d <> 0 -> binds (v_mask (pt t)) d k -> binds (v_mask (pt u)) d k -> t = u.
Proof.
  intros Hd N B1 B2. apply (v_mask_pos _ _ (pt_wf t) (pt_normalised t)) in B1 as [_ E1].
  apply (v_mask_pos _ _ (pt_wf u) (pt_normalised u)) in B2 as [_ E2]. rewrite pt_pos in E1, E2 by auto.
  assert (E : t * (bx d - ax d) = u * (bx d - ax d)) by (rewrite <- E2 in E1; qc_lra).
  replace t with (t * (bx d - ax d) / (bx d - ax d)) by (field; auto). rewrite E. field; auto.
Qed.
Lemma good_axis e : good e -> exists d k, (d < D)%nat /\ bx d - ax d <> 0 /\ binds (v_mask (ei_v e)) d k.
Proof.
  intros G. destruct (g_ax G) as (d & k & Hd & B & E). exists d, k. split; auto. assert (N := between_neq B). split; auto.
  rewrite (proj2 (good_pos G)). apply (v_mask_pos _ _ (pt_wf _) (pt_normalised _)). split; auto. rewrite pt_pos by auto. rewrite E.
  field. auto.
Qed.

Lemma crossing_good d k t : (d < D)%nat -> In (k, t) (axis_crossings a b d) -> good (crossing_sect M a b idx d k t) .
Proof.
  intros Hd H. apply (axis_crossings_spec _ _ Wa Wb Na Nb Hd) in H as [HB Et].
  assert (N := between_neq HB).
  assert (KP : binds (v_mask (pt t)) d k).
  { apply (v_mask_pos _ _ (pt_wf t) (pt_normalised t)). split; auto. rewrite pt_pos by auto. rewrite Et. field; auto. }
  assert (C1 := clamp_keeps (pt_wf t) M_length (M_on_pt t)). destruct C1 as [C1 C2].
  assert (W1 := clamp_vertex_wf _ _ _ M_length (pt_wf t)).
  unfold crossing_sect. fold (pt t). set (v1 := clamp_vertex M (pt t)) in *.
  set (v2 := mkVertex (put (v_coord v1) d k) (put (v_quot v1) d 0) (put (v_clamped v1) d true)).
  assert (W2 : v_wf D v2) by (destruct W1 as (?&?&?); repeat split; unfold v2; cbn [v_coord v_quot v_clamped]; rewrite put_length; auto).
  destruct (pos_nth_wf _ _ _ (pt_wf t) Hd) as (c & q & bb & Hc & Hq & Hbb & Hp).
  apply (v_mask_binds _ _ _ _ Hc Hq) in KP as [-> ->].
  assert (P1 : v_coord v2 = v_coord (pt t)).
  { unfold v2. cbn [v_coord]. rewrite C1. apply nth_error_ext. intros i. rewrite nth_error_put. destruct (i =? d)%nat eqn:E; auto.
    apply Nat.eqb_eq in E; subst i. rewrite Hc. reflexivity. }
  assert (P2 : v_quot v2 = v_quot (pt t)).
  { unfold v2. cbn [v_quot]. rewrite C2. apply nth_error_ext. intros i. rewrite nth_error_put. destruct (i =? d)%nat eqn:E; auto.
    apply Nat.eqb_eq in E; subst i. rewrite Hq. reflexivity. }
  assert (PM : v_mask v2 = v_mask (pt t)) by (apply same_cq_pos; auto).
  assert (MB : forall i z, binds M i z -> binds (v_mask v2) i z) by (intros; rewrite PM; apply M_on_pt; auto).
  assert (F0 : flags_sound (pt t)) by (unfold pt; apply (v_add_flags D); try apply v_scale_wf; auto; apply (v_scale_flags _ _ D); auto).
  assert (F1 : flags_sound v1) by (apply (@clamp_flags D); auto using pt_wf, M_length, M_on_pt).
  assert (F2 : flags_sound v2).
  { apply flags_sound_nth in F1 as [G1 G2]. apply flags_sound_nth. destruct W2 as (?&?&?). split; [lia|].
    intros i q' Hb' Hq'. unfold v2 in Hb', Hq'. cbn [v_clamped v_quot] in Hb', Hq'. rewrite nth_error_put in Hb', Hq'.
    destruct (i =? d)%nat; [destruct (nth_error (v_quot v1) i); [apply Some_inj in Hq'; auto|discriminate]|]. eapply G2; eauto. }
  assert (K := clamp_keeps W2 M_length MB). destruct K as [K1 K2].
  assert (W3 := clamp_vertex_wf _ _ _ M_length W2).
  constructor; cbn [ei_v ei_coord ei_index]; auto.
  - rewrite K1, P1; auto.
  - rewrite K2, P2; auto.
  - apply W3.
  - apply (@clamp_flags D); auto using M_length.
  - exists d, c. auto.
Qed.

Lemma raw_good e : In e (raw_sects M a b idx) -> good e.
Proof.
  intros H. unfold raw_sects in H. apply in_flat_map in H as (d & Hd & H). apply in_seq in Hd. rewrite (proj1 Wa) in Hd.
  apply in_map_iff in H as ([k t] & <- & H). apply crossing_good; [lia|auto].
Qed.
Lemma raw_complete d k : (d < D)%nat -> strictly_between (ax d) (Z2Qc k) (bx d) ->
  exists e, In e (raw_sects M a b idx) /\ ei_coord e = (Z2Qc k - ax d) / (bx d - ax d).
Proof.
  intros Hd HB. set (t := (Z2Qc k - ax d) / (bx d - ax d)).
  assert (Hin : In (k, t) (axis_crossings a b d)) by (apply (axis_crossings_spec _ _ Wa Wb Na Nb Hd); auto).
  exists (crossing_sect M a b idx d k t). split; auto.
  unfold raw_sects. apply in_flat_map. exists d. split; [apply in_seq; rewrite (proj1 Wa); lia|].
  apply in_map_iff. exists (k, t). auto.
Qed.
Lemma mask_active_bound m : mask_active m = true <-> exists i z, binds m i z.
Proof.
  unfold mask_active. rewrite existsb_exists. split.
  - intros (o & Ho & E). destruct o as [z|]; [|discriminate]. apply In_nth_error in Ho as [i Hi]. exists i, z. auto.
  - intros (i & z & B). exists (Some z). split; auto. eapply nth_error_In; eauto.
Qed.
Lemma good_not_invalid e : good e -> invalid_isect M a b e = false.
Proof.
  intros G. unfold invalid_isect. assert (LM := M_length). assert (W := good_wf G). assert (N := good_normalised G).
  assert (Le := v_mask_length _ _ W). assert (La := v_mask_length _ _ Wa). assert (Lb := v_mask_length _ _ Wb).
  assert (HS : forall m, length m = D -> length (mask_sub m M) = D) by (intros; unfold mask_sub; rewrite zipwith_length; lia).
  destruct (good_range G) as [T0 T1]. destruct (good_pos G) as [_ GM]. rewrite GM in *.
  apply orb_false_iff; split; apply not_true_is_false; intros F; apply mask_active_bound in F as (i & z & B);
    apply mask_and_binds in B as [B1 B2]; try (rewrite !HS; auto; fail);
    apply mask_sub_binds in B1 as [B1 NB]; try lia; apply mask_sub_binds in B2 as [B2 _]; try lia.
  - apply (v_mask_pos _ _ Wa Na) in B1 as [Hi E1]. apply (v_mask_pos _ _ (pt_wf _) (pt_normalised _)) in B2 as [_ E2].
    rewrite pt_pos in E2 by auto. rewrite E1 in E2.
    assert (E3 : ei_coord e * (bx i - Z2Qc z) = 0) by qc_lra. apply Qcmult_integral in E3 as [E3|E3]; [rewrite E3 in T0; discriminate|].
    apply NB. exists z. apply M_binds. split; [apply (v_mask_pos _ _ Wa Na)|apply (v_mask_pos _ _ Wb Nb)]; split; auto. qc_lra.
  - apply (v_mask_pos _ _ Wb Nb) in B1 as [Hi E1]. apply (v_mask_pos _ _ (pt_wf _) (pt_normalised _)) in B2 as [_ E2].
    rewrite pt_pos in E2 by auto. rewrite E1 in E2.
    assert (E3 : (1 - ei_coord e) * (ax i - Z2Qc z) = 0) by (transitivity (ax i + ei_coord e * (Z2Qc z - ax i) - Z2Qc z); [ring|rewrite E2; ring]).
    apply Qcmult_integral in E3 as [E3|E3]; [exfalso; qc_lra|].
    apply NB. exists z. apply M_binds. split; [apply (v_mask_pos _ _ Wa Na)|apply (v_mask_pos _ _ Wb Nb)]; split; auto. qc_lra.
Qed.
Lemma kept_is_raw g : kept_sects g M a b idx = raw_sects M a b idx.
Proof.
  unfold kept_sects. assert (H := raw_good). revert H. generalize (raw_sects M a b idx). intros l H.
  induction l as [|e l IH]; simpl; auto. rewrite good_not_invalid by (apply H; left; auto). rewrite andb_false_r. simpl.
  f_equal. apply IH. intros; apply H; right; auto.
Qed.
(** ** The sets of crossings, before and after merging *)
Definition entry_ok (entry : mask * tset) : Prop :=
  snd entry <> [] /\ forall t e, In (t, e) (snd entry) -> t = ei_coord e /\ good e /\ v_mask (ei_v e) = fst entry.
Definition levels_ok (ls : list emap) : Prop :=
  length ls = D /\ forall j, ssorted mask_cmp (keys (nth j ls [])) /\ forall entry, In entry (nth j ls []) -> entry_ok entry.
Definition has_param (ls : list emap) (t : Qc) : Prop := exists j m es, In (m, es) (nth j ls []) /\ In t (map fst es).

Lemma mask_count_le m : (mask_count m <= length m)%nat.
Proof. unfold mask_count. induction m as [|x m IH]; simpl; auto. destruct (is_some x); simpl; lia. Qed.
Lemma mask_count_pos m : mask_active m = true -> (0 < mask_count m)%nat.
Proof.
  unfold mask_active, mask_count. induction m as [|x m IH]; simpl; [discriminate|]. destruct x; simpl; [lia|auto].
Qed.
Lemma good_level e : good e -> (mask_count (v_mask (ei_v e)) - 1 < D)%nat.
Proof.
  intros G. destruct (good_axis G) as (d & k & Hd & _ & B).
  assert (0 < mask_count (v_mask (ei_v e)))%nat by (apply mask_count_pos, mask_active_bound; eauto).
  assert (L := mask_count_le (v_mask (ei_v e))). rewrite (v_mask_length _ _ (good_wf G)) in L. lia.
Qed.
Lemma levels_add_ok ls e : levels_ok ls -> good e -> levels_ok (levels_add ls e) /\
  (forall t, has_param ls t -> has_param (levels_add ls e) t) /\ has_param (levels_add ls e) (ei_coord e).
Proof.
  intros [L H] G. assert (J := good_level G). unfold levels_add. set (j := (mask_count (v_mask (ei_v e)) - 1)%nat) in *.
  set (m := v_mask (ei_v e)) in *. set (s0 := match map_find mask_cmp m (nth j ls []) with Some s => s | None => [] end).
  assert (Hnth : forall i, nth i (put ls j (emap_add e (nth j ls []))) [] = if (i =? j)%nat then emap_add e (nth j ls []) else nth i ls []).
  { intros i. rewrite nth_put. rewrite (proj2 (Nat.ltb_lt j (length ls))) by lia. rewrite andb_true_r. reflexivity. }
  assert (Hs0 : forall t f, In (t, f) s0 -> t = ei_coord f /\ good f /\ v_mask (ei_v f) = m).
  { intros t f. unfold s0. destruct (map_find mask_cmp m (nth j ls [])) as [s|] eqn:E; [|intros []].
    apply (map_find_In mask_cmp_total) in E. apply (proj2 (H j)) in E. apply E. }
  assert (Hne : tset_emplace e s0 <> []).
  { intros F. assert (X : In (ei_coord e) (map fst (tset_emplace e s0))) by (apply tset_emplace_keys; auto). rewrite F in X. destruct X. }
  split; [split|split].
  - rewrite put_length; auto.
  - intros i. rewrite Hnth. destruct (i =? j)%nat; [|apply H]. unfold emap_add. fold m s0. split.
    + apply (map_set_sorted mask_cmp_total). apply H.
    + intros [m' es] HI. apply (map_set_In mask_cmp_total) in HI as [HI|HI]; [|apply (proj2 (H j)); auto].
      apply pair_equal_spec in HI as [-> ->]. split; cbn [fst snd]; auto.
      intros t f HI. apply tset_emplace_In in HI as [HI|HI]; auto. apply pair_equal_spec in HI as [-> ->]. auto.
  - intros t (i & m' & es & HI & HT). destruct (Nat.eq_dec i j) as [->|N].
    + destruct (mask_cmp m' m) eqn:C.
      * apply (tc_eq mask_cmp_total) in C; subst m'. exists j, m, (tset_emplace e s0). rewrite Hnth, Nat.eqb_refl. split.
        -- unfold emap_add. fold m s0. apply (map_set_new mask_cmp_total).
        -- apply tset_emplace_keys. right. unfold s0. apply (map_find_Some mask_cmp_total _ _ _ (proj1 (H j))) in HI. rewrite HI. auto.
      * exists j, m', es. rewrite Hnth, Nat.eqb_refl. split; auto. unfold emap_add. apply (map_set_old mask_cmp_total); auto.
        intros ->. fold m in C. rewrite (tc_refl mask_cmp_total) in C. discriminate.
      * exists j, m', es. rewrite Hnth, Nat.eqb_refl. split; auto. unfold emap_add. apply (map_set_old mask_cmp_total); auto.
        intros ->. fold m in C. rewrite (tc_refl mask_cmp_total) in C. discriminate.
    + exists i, m', es. rewrite Hnth. apply Nat.eqb_neq in N. rewrite N. auto.
  - exists j, m, (tset_emplace e s0). rewrite Hnth, Nat.eqb_refl. split.
    + unfold emap_add. fold m s0. apply (map_set_new mask_cmp_total).
    + apply tset_emplace_keys; auto.
Qed.
Lemma build_ok_gen l : (forall e, In e l -> good e) -> forall ls, levels_ok ls -> let r := fold_left levels_add l ls in
  levels_ok r /\ (forall t, has_param ls t -> has_param r t) /\ forall e, In e l -> has_param r (ei_coord e).
Proof.
  induction l as [|e l IH]; intros HG ls HL; cbn [fold_left]; [split; auto; split; auto; intros ? []|].
  destruct (levels_add_ok HL (HG e (or_introl eq_refl))) as (H1 & H2 & H3).
  destruct (IH (fun f Hf => HG f (or_intror Hf)) _ H1) as (K1 & K2 & K3).
  split; auto. split; auto. intros f [<-|Hf]; auto.
Qed.
Lemma build_ok : let ls := build_levels D (raw_sects M a b idx) in
  levels_ok ls /\ forall e, In e (raw_sects M a b idx) -> has_param ls (ei_coord e).
Proof.
  unfold build_levels. assert (H0 : levels_ok (repeat [] D)).
  { split; [apply repeat_length|]. intros j. assert (E : nth j (repeat ([] : emap) D) [] = []).
    { clear. revert j; induction D as [|n IH]; intros [|j]; simpl; auto. }
    unfold emap in *. rewrite E. split; [constructor|intros ? []]. }
  destruct (build_ok_gen _ raw_good H0) as (H1 & _ & H3). auto.
Qed.
(** merging finds nothing to do *)
Lemma merge_disjoint m o c es k z : entry_ok (m, o) -> entry_ok (c, es) -> nth_error c k = Some (Some z) -> m <> put c k None.
Proof.
  intros [N1 H1] [N2 H2] Hk E. cbn [fst snd] in *.
  destruct o as [|[t e] o]; [contradiction|]. destruct es as [|[u f] es]; [contradiction|].
  destruct (H1 t e (or_introl eq_refl)) as (_ & Ge & Me). destruct (H2 u f (or_introl eq_refl)) as (_ & Gf & Mf).
  destruct (good_axis Ge) as (d & w & Hd & Nz & B). rewrite Me, E in B. unfold binds in B. rewrite nth_error_put in B.
  destruct (d =? k)%nat eqn:Edk; [destruct (nth_error c d); discriminate|].
  assert (B1 : binds (v_mask (pt (ei_coord e))) d w).
  { rewrite <- (proj2 (good_pos Ge)), Me, E. unfold binds. rewrite nth_error_put, Edk. auto. }
  assert (B2 : binds (v_mask (pt (ei_coord f))) d w) by (rewrite <- (proj2 (good_pos Gf)), Mf; exact B).
  assert (ET := @same_plane _ _ _ _ Hd Nz B1 B2).
  assert (EM : m = c) by (rewrite <- Me, <- Mf, (proj2 (good_pos Ge)), (proj2 (good_pos Gf)), ET; auto).
  rewrite <- EM in Hk. rewrite E, nth_error_put, Nat.eqb_refl in Hk. destruct (nth_error c k); discriminate.
Qed.
Lemma merge_entry_id (Ei : emap) c (es : tset) : (forall entry, In entry Ei -> entry_ok entry) -> entry_ok (c, es) -> merge_entry Ei c es = (Ei, es).
Proof.
  intros HE Hc. unfold merge_entry. generalize (seq 0 (length c)) as ks. intros ks. induction ks as [|k ks IH]; simpl; auto.
  assert (X : merge_axis c (Ei, es) k = (Ei, es)); [|rewrite X; exact IH]. unfold merge_axis. cbn [fst snd].
  destruct (nth_error c k) as [[z|]|] eqn:Ek; auto. destruct (map_find mask_cmp (put c k None) Ei) as [o|] eqn:F; auto.
  exfalso. apply (map_find_In mask_cmp_total) in F. eapply (@merge_disjoint _ _ _ _ _ _ (HE _ F) Hc Ek); auto.
Qed.
Lemma merge2_id (Ei Eip : emap) : (forall entry, In entry Ei -> entry_ok entry) -> (forall entry, In entry Eip -> entry_ok entry) -> merge2 Ei Eip = (Ei, Eip).
Proof.
  intros HE HF. unfold merge2.
  enough (H : forall out, fold_left (fun '(Ei, out) '(c, es) => let '(Ei', es') := merge_entry Ei c es in (Ei', out ++ [(c, es')])) Eip (Ei, out) = (Ei, out ++ Eip)) by apply H.
  induction Eip as [|[c es] Eip IH]; intros out; simpl; [rewrite app_nil_r; auto|].
  rewrite merge_entry_id by (auto; apply HF; left; auto). rewrite IH by (intros; apply HF; right; auto). rewrite <- app_assoc. auto.
Qed.
Lemma merge_levels_id ls : (forall j entry, In entry (nth j ls []) -> entry_ok entry) -> merge_levels ls = ls.
Proof.
  destruct ls as [|E t]; intros H; auto. simpl. revert E H. induction t as [|E1 t IH]; intros E H; auto. simpl.
  rewrite merge2_id; [|exact (H 0%nat)|exact (H 1%nat)]. f_equal. apply IH. intros j; exact (H (S j)).
Qed.

(** ** One crossing per parameter *)
Definition mm_ok (mm : tset) : Prop := ssorted qcmp (keys mm) /\ forall t e, In (t, e) mm -> t = ei_coord e /\ good e.
Lemma entry_same_param m es t e u f : entry_ok (m, es) -> In (t, e) es -> In (u, f) es -> t = u.
Proof.
  intros [_ H] H1 H2. apply H in H1 as (-> & Ge & Me). apply H in H2 as (-> & Gf & Mf). cbn [fst] in *.
  destruct (good_axis Ge) as (d & w & Hd & Nz & B).
  assert (B2 := B). rewrite Me, <- Mf, (proj2 (good_pos Gf)) in B2. rewrite (proj2 (good_pos Ge)) in B. apply (@same_plane _ _ _ _ Hd Nz B B2).
Qed.
Lemma mm_step_ok mm entry : mm_ok mm -> entry_ok entry -> mm_ok (mm_step mm entry) /\
  (forall t, In t (keys mm) -> In t (keys (mm_step mm entry))) /\ (forall t, In t (map fst (snd entry)) -> In t (keys (mm_step mm entry))).
Proof.
  intros [S H] HE. destruct entry as [m es]. assert (HE' := HE). destruct HE as [Hne HE]. cbn [fst snd] in *. unfold mm_step. cbn [snd].
  destruct (rev es) as [|[t0 e] r] eqn:Er.
  { exfalso. apply Hne. rewrite <- (rev_involutive es), Er. reflexivity. }
  assert (Hin : In (t0, e) es) by (rewrite in_rev, Er; left; auto).
  destruct (HE _ _ Hin) as (E0 & Ge & Me).
  assert (Hall : forall u f, In (u, f) es -> u = t0) by (intros u f Hf; apply (@entry_same_param _ _ _ _ _ _ HE' Hf Hin)).
  assert (Hlc : qsum (map (fun p => ei_coord (snd p)) es) / Z2Qc (Z.of_nat (length es)) = t0).
  { rewrite (@qsum_const t0).
    - rewrite map_length. field. intros F. rewrite <- Z2Qc_0 in F. apply Z2Qc_inj in F. destruct es; [contradiction|simpl in F; lia].
    - intros x Hx. apply in_map_iff in Hx as ([u f] & <- & Hf). cbn [snd]. rewrite <- (proj1 (HE _ _ Hf)). eapply Hall; eauto. }
  rewrite Hlc.
  assert (Ee : mkEI (ei_v e) t0 (ei_index e) = e) by (rewrite E0; destruct e; auto). rewrite Ee.
  assert (Hkeys : forall v t, (In t (keys mm) -> In t (keys (map_set qcmp t0 v mm))) /\ (In t (map fst es) -> In t (keys (map_set qcmp t0 v mm)))).
  { intros v t. rewrite map_set_keys, (set_insert_In qcmp_total). split; auto. intros Hx. apply in_map_iff in Hx as ([u f] & <- & Hf).
    left. cbn [fst]. eapply Hall; eauto. }
  assert (Hset : forall v, t0 = ei_coord v -> good v -> mm_ok (map_set qcmp t0 v mm)).
  { intros v Ev Gv. split; [apply (map_set_sorted qcmp_total); auto|]. intros u f Hf.
    apply (map_set_In qcmp_total) in Hf as [Hf|Hf]; auto. apply pair_equal_spec in Hf as [-> ->]. auto. }
  assert (fin : forall v, t0 = ei_coord v -> good v -> mm_ok (map_set qcmp t0 v mm) /\
     (forall t, In t (keys mm) -> In t (keys (map_set qcmp t0 v mm))) /\ (forall t, In t (map fst es) -> In t (keys (map_set qcmp t0 v mm)))).
  { intros v Ev Gv. split; auto. split; intros t; apply Hkeys. }
  destruct (map_find qcmp t0 mm) as [v|] eqn:Fv; auto.
  destruct (ei_index v =? -1)%Z; auto.
  apply (map_find_In qcmp_total) in Fv. apply H in Fv as [Ev Gv].
  set (w := mkVertex (v_coord (ei_v v)) (v_quot (ei_v v)) (bitset_or (v_clamped (ei_v v)) (v_clamped (ei_v e)))).
  assert (Ww : v_wf D w).
  { destruct (good_wf Gv) as (A1 & A2 & A3). destruct (good_wf Ge) as (B1 & B2 & B3). unfold w, bitset_or. repeat split; cbn [v_coord v_quot v_clamped]; auto.
    rewrite zipwith_length; lia. }
  assert (Nw : normalised w) by (unfold normalised, w; cbn [v_quot]; apply (good_normalised Gv)).
  rewrite (repair_id _ _ Ww Nw). apply fin; auto.
  constructor; cbn [ei_v ei_coord ei_index]; try apply Gv.
  - apply Ww.
  - destruct Ww as (A1 & A2 & A3). apply flags_sound_nth. split; [lia|]. intros i q Hb Hq. unfold w in Hb, Hq. cbn [v_clamped v_quot] in Hb, Hq.
    unfold bitset_or in Hb. rewrite nth_error_zipwith in Hb.
    destruct (nth_error (v_clamped (ei_v v)) i) as [x|] eqn:Ex; [|discriminate]. destruct (nth_error (v_clamped (ei_v e)) i) as [y|] eqn:Ey; [|discriminate].
    apply Some_inj in Hb. destruct x; [exact (proj2 (proj1 (flags_sound_nth _) (g_fl Gv)) i q Ex Hq)|]. simpl in Hb. subst y.
    apply (proj2 (proj1 (flags_sound_nth _) (g_fl Ge)) i q Ey). rewrite (g_q Ge), <- E0, Ev, <- (g_q Gv). auto.
Qed.
Lemma mm_fold_ok l : (forall entry, In entry l -> entry_ok entry) -> forall mm, mm_ok mm ->
  mm_ok (fold_left mm_step l mm) /\ (forall t, In t (keys mm) -> In t (keys (fold_left mm_step l mm))) /\
  (forall entry t, In entry l -> In t (map fst (snd entry)) -> In t (keys (fold_left mm_step l mm))).
Proof.
  induction l as [|x l IH]; intros HL mm Hm; cbn [fold_left]; [split; auto; split; auto; intros ? ? []|].
  destruct (mm_step_ok Hm (HL x (or_introl eq_refl))) as (H1 & H2 & H3).
  destruct (IH (fun y Hy => HL y (or_intror Hy)) _ H1) as (K1 & K2 & K3).
  split; auto. split; auto. intros y t [<-|Hy] Ht; eauto.
Qed.
Definition baked_mm (g : bool) : tset := mm_of (merge_levels (build_levels (length (v_coord a)) (kept_sects g M a b idx))).
Lemma baked_mm_ok g : mm_ok (baked_mm g) /\
  forall d k, (d < D)%nat -> strictly_between (ax d) (Z2Qc k) (bx d) -> In ((Z2Qc k - ax d) / (bx d - ax d)) (keys (baked_mm g)).
Proof.
  unfold baked_mm. rewrite kept_is_raw, (proj1 Wa). destruct build_ok as [HO HP].
  rewrite merge_levels_id by (intros j entry; apply (proj2 (proj2 HO j))).
  unfold mm_of. set (ls := build_levels D (raw_sects M a b idx)) in *.
  assert (HL : forall entry, In entry (concat ls) -> entry_ok entry).
  { intros entry HI. apply in_concat in HI as (E & HE & HI). apply In_nth_error in HE as [j Hj].
    apply (proj2 (proj2 HO j)). rewrite (nth_error_nth _ _ _ Hj). auto. }
  assert (M0 : mm_ok []) by (split; [constructor|intros ? ? []]).
  destruct (mm_fold_ok _ HL M0) as (H1 & _ & H3). split; auto.
  intros d k Hd HB. destruct (raw_complete Hd HB) as (e & He & <-).
  destruct (HP e He) as (j & m & es & HI & HT). apply (H3 (m, es)); [|exact HT].
  apply in_concat. destruct (Nat.lt_ge_cases j (length ls)) as [L|L].
  - exists (nth j ls []). split; auto. apply nth_In; auto.
  - rewrite nth_overflow in HI by auto. destruct HI.
Qed.
(** ** The result of bake *)
Section Finish.
Variables (grid : option (list Z)).
Let th := bake_threshold grid.
Lemma bake_threshold_pos : 0 < bake_threshold grid.
Proof.
  unfold bake_threshold. destruct grid as [s|]; [|reflexivity].
  set (k := (2 * Z.max 1 (fold_right Z.max (hd 0 s) s))%Z). assert (Hk : (0 < k)%Z) by (unfold k; lia). clearbody k.
  assert (K : Z2Qc 0 < Z2Qc k) by (apply Z2Qc_lt; auto). rewrite Z2Qc_0 in K.
  assert (L : 0 < Q2Qc (1 # 10000000000)) by reflexivity.
  generalize dependent (Q2Qc (1 # 10000000000)). intros e L. generalize dependent (Z2Qc k). intros z K.
  unfold Qclt in *. q_push. nra.
Qed.
Lemma finish_spec e : good e -> let r := finish_isect M th e in
  ei_coord r = ei_coord e /\ ei_index r = idx /\ v_wf D (ei_v r) /\ normalised (ei_v r) /\ flags_exact (ei_v r) /\
  forall d, (d < D)%nat -> qat (pos (ei_v r)) d = snap th (ax d + ei_coord e * (bx d - ax d)).
Proof.
  intros G r. destruct (good_pos G) as [P1 P2].
  assert (MB : forall i z, binds M i z -> binds (v_mask (ei_v e)) i z) by (intros; rewrite P2; apply M_on_pt; auto).
  destruct (clamp_keeps (good_wf G) M_length MB) as [C1 C2].
  assert (W := clamp_vertex_wf _ _ _ M_length (good_wf G)).
  assert (N : normalised (clamp_vertex M (ei_v e))) by (unfold normalised; rewrite C2; apply (good_normalised G)).
  assert (F := clamp_flags (good_wf G) M_length (g_fl G) MB).
  destruct (thresholding_snap bake_threshold_pos W N F) as (K1 & K2 & K3 & K4).
  split; [reflexivity|]. split; [apply (g_idx G)|]. split; [auto|]. split; [auto|]. split; [auto|].
  intros d Hd. unfold r, finish_isect. cbn [ei_v]. unfold th. rewrite (K4 d Hd).
  rewrite (proj1 (same_cq_pos _ _ C1 C2)), P1, pt_pos by auto. reflexivity.
Qed.
Lemma bake_char : let R := bake_edge grid a b idx in
  StronglySorted coord_lt R /\ NoDup (map (fun e => v_mask (ei_v e)) R) /\
  (forall r, In r R -> exists e, good e /\ r = finish_isect M th e) /\
  (forall d k, (d < D)%nat -> strictly_between (ax d) (Z2Qc k) (bx d) -> exists e r, good e /\
     ei_coord e = (Z2Qc k - ax d) / (bx d - ax d) /\ In r R /\ v_mask (ei_v r) = v_mask (ei_v (finish_isect M th e)) /\ ei_coord e <= ei_coord r).
Proof.
  intros R. unfold R, bake_edge. fold th.
  fold (baked_mm (match grid with Some _ => true | None => false end)).
  set (g := match grid with Some _ => true | None => false end). destruct (baked_mm_ok g) as [[HS HG] HC].
  set (mm := baked_mm g) in *. set (l := map (fun p => finish_isect M th (snd p)) mm).
  assert (HL : StronglySorted coord_lt l).
  { unfold l. clear - HS HG. induction mm as [|[t e] mm IH]; simpl; [constructor|]. inversion HS as [|? ? F S]; subst.
    constructor; [apply IH; auto; intros; apply HG; right; auto|]. rewrite Forall_forall in *. intros r Hr.
    apply in_map_iff in Hr as ([u f] & <- & Hf). unfold coord_lt. cbn [ei_coord finish_isect snd].
    destruct (HG t e (or_introl eq_refl)) as [-> _]. destruct (HG u f (or_intror Hf)) as [Eu _]. rewrite <- Eu.
    assert (X : qcmp (ei_coord e) u = Lt) by (apply F; apply in_map_iff; exists (u, f); auto). exact X. }
  destruct (cem_spec HL) as (C1 & C2 & C3).
  assert (HV : forall r, In r (map snd (cem_of l)) -> In r l) by (intros r Hr; apply in_map_iff in Hr as ([m r'] & <- & Hr); apply C2 in Hr as [? _]; auto).
  assert (NM : map (fun e => v_mask (ei_v e)) (map snd (cem_of l)) = keys (cem_of l)).
  { unfold keys. rewrite map_map. apply map_ext_in. intros [m e] He. cbn [fst snd]. symmetry. apply (C2 _ _ He). }
  assert (N1 : NoDup (map (fun e => v_mask (ei_v e)) (map snd (cem_of l)))) by (rewrite NM; apply (ssorted_NoDup mask_cmp_total); auto).
  assert (N2 : NoDup (map ei_coord (map snd (cem_of l)))).
  { apply NoDup_map_inv in N1. revert N1 HV. generalize (map snd (cem_of l)). intros vs N HV. induction N as [|x vs NI N IH]; simpl; constructor.
    - intros F. apply in_map_iff in F as (y & E & Hy). apply NI. rewrite (@sorted_coord_inj l x y HL (HV x (or_introl eq_refl)) (HV y (or_intror Hy)) (eq_sym E)); auto.
    - apply IH. intros; apply HV; right; auto. }
  assert (PM := sort_perm (map snd (cem_of l))).
  split; [|split; [|split]].
  - apply sorted_strict; [apply sort_sorted|]. eapply Permutation_NoDup; [apply Permutation_map; exact PM|auto].
  - eapply Permutation_NoDup; [apply Permutation_map; exact PM|auto].
  - intros r Hr. apply (Permutation_in _ (Permutation_sym PM)) in Hr. apply HV in Hr. unfold l in Hr.
    apply in_map_iff in Hr as ([t e] & <- & He). exists e. split; auto. apply (HG _ _ He).
  - intros d k Hd HB. assert (X := HC d k Hd HB). apply in_map_iff in X as ([t e] & E & He). cbn [fst] in E.
    destruct (HG _ _ He) as [Et Ge]. destruct (C3 (finish_isect M th e)) as (r & Hr & Hle).
    { unfold l. apply in_map_iff. exists (t, e). auto. }
    exists e, r. split; auto. split; [congruence|]. split; [|split; [|exact Hle]].
    + apply (Permutation_in _ PM). apply in_map_iff. exists (v_mask (ei_v (finish_isect M th e)), r). auto.
    + symmetry. apply (C2 _ _ Hr).
Qed.
End Finish.
End Edge.
