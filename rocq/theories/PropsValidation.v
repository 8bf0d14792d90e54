(** Properties C120: what an accepting run of the paired-boundary validation means. *)
From Verif Require Import Base Num CoordMask CoordMaskProofs Vertex VertexSpec VertexProofs Grid SmallestEdge AdaptiveGrid AdaptiveProofs Mesh Sparse Volume Boundary3 Interp Queries3 PropsQueries3 Validation.
Set Implicit Arguments.
Local Open Scope Z_scope.

Lemma all_checks_true l : all_checks l = Some true <-> forall c, In c l -> c = Some true.
Proof.
  induction l as [|c l IH]; cbn; [intuition|]. destruct c as [[|]|].
  - rewrite IH. split; [intros H c [<-|I]; auto|auto].
  - split; [discriminate|]. intros H. specialize (H _ (or_introl eq_refl)). discriminate.
  - split; [discriminate|]. intros H. specialize (H _ (or_introl eq_refl)). discriminate.
Qed.

(** ** Specification: how often, and with which total sign, the cells of a list use face i *)
Definition entries (cs : list cut_cell) : list (Z * bool) := concat (map ce_faces cs).
Definition times (l : list (Z * bool)) (i : Z) : Z := Z.of_nat (length (filter (fun e => fst e =? i) l)).
Definition times_with (b : bool) (l : list (Z * bool)) (i : Z) : Z := Z.of_nat (length (filter (fun e => (fst e =? i) && Bool.eqb (snd e) b) l)).
Definition uses (cs : list cut_cell) (i : Z) : Z := times (entries cs) i.
Definition net (cs : list cut_cell) (i : Z) : Z := times_with true (entries cs) i - times_with false (entries cs) i.
Definition in_region (m : mesh3) (r : Z) : list cut_cell := filter (fun c => ce_region c =? r) (m_cells m).
(** the mesh is internally consistent: cells refer to existing faces, every cell's label is reported by regions(), every face has a loop *)
Definition consistent (m : mesh3) (R : list Z) : Prop :=
  regions3 m = Some R /\ (forall c, In c (m_cells m) -> In (ce_region c) R) /\
  (forall c e, In c (m_cells m) -> In e (ce_faces c) -> 0 <= fst e < Z.of_nat (length (m_faces m))) /\
  (forall f, In f (m_faces m) -> cf_loops f <> []).
(** face i comes from an input triangle, or its first loop has four vertices *)
Definition from_mesh_or_quad (m : mesh3) (i : Z) : Prop :=
  is_mesh_face m i = true \/ exists f l ls, nth_error (m_faces m) (Z.to_nat i) = Some f /\ cf_loops f = l :: ls /\ length l = 4%nat.
(** a grid vertex g is a corner of the grid cell x *)
Definition corner_of (g x : coord) : Prop := Forall2 (fun gi xi => gi = xi \/ gi = xi + 1) g x.
(** the loop consists of grid vertices and the cells they are all corners of are exactly a and b *)
Definition between (m : mesh3) (l : list Z) (a b : coord) : Prop :=
  l <> [] /\ forall x, (forall i, In i l -> i < shape_size (list3 (m_vshape m)) /\ corner_of (unravel (list3 (m_vshape m)) i) x) <-> x = a \/ x = b.
(** all vertices of the loop lie on one of the grid's six outer planes *)
Definition on_wall (m : mesh3) (l : list Z) : Prop :=
  exists d v, (v = 0 \/ v = nth d (list3 (m_vshape m)) 0 - 1) /\ forall i, In i l -> nth_error (unravel (list3 (m_vshape m)) i) d = Some v.

(** ** the tally *)
Lemma times_cons e l i : times (e :: l) i = (if fst e =? i then 1 else 0) + times l i.
Proof. unfold times. cbn. destruct (fst e =? i); cbn [length]; lia. Qed.
Lemma times_with_cons b e l i : times_with b (e :: l) i = (if (fst e =? i) && Bool.eqb (snd e) b then 1 else 0) + times_with b l i.
Proof. unfold times_with. cbn. destruct ((fst e =? i) && Bool.eqb (snd e) b); cbn [length]; lia. Qed.
Lemma times_app l k i : times (l ++ k) i = times l i + times k i.
Proof. unfold times. rewrite filter_app, app_length. lia. Qed.
Lemma times_with_app b l k i : times_with b (l ++ k) i = times_with b l i + times_with b k i.
Proof. unfold times_with. rewrite filter_app, app_length. lia. Qed.
Lemma times_split l i : times l i = times_with true l i + times_with false l i.
Proof. induction l as [|e l IH]; [reflexivity|]. rewrite times_cons, !times_with_cons, IH. destruct (fst e =? i), (snd e); cbn [andb Bool.eqb]; lia. Qed.

Lemma bump_spec N l f x : length l = N -> 0 <= f < Z.of_nat N -> exists l', bump l f x = Some l' /\ length l' = N /\ forall i, 0 <= i -> nth (Z.to_nat i) l' 0 = nth (Z.to_nat i) l 0 + (if f =? i then x else 0).
Proof.
  intros L H. unfold bump. rewrite L. replace ((0 <=? f) && (f <? Z.of_nat N)) with true by (symmetry; apply andb_true_iff; rewrite Z.leb_le, Z.ltb_lt; lia).
  eexists. split; [reflexivity|]. split; [rewrite zput_length; auto|]. intros i Hi. rewrite nth_zput by lia. destruct (Nat.eqb_spec (Z.to_nat i) (Z.to_nat f)) as [E|E], (Z.eqb_spec f i); try lia. subst. auto.
Qed.
Lemma tally_faces_spec N fs : forall n b, length n = N -> length b = N -> (forall e, In e fs -> 0 <= fst e < Z.of_nat N) ->
  exists n' b', tally_faces fs (n, b) = Some (n', b') /\ length n' = N /\ length b' = N /\
    forall i, 0 <= i -> nth (Z.to_nat i) n' 0 = nth (Z.to_nat i) n 0 + times fs i /\ nth (Z.to_nat i) b' 0 = nth (Z.to_nat i) b 0 + (times_with true fs i - times_with false fs i).
Proof.
  unfold tally_faces. induction fs as [|[f s] fs IH]; intros n b Ln Lb H; cbn [fold_left].
  - exists n, b. repeat split; auto; unfold times, times_with; cbn; lia.
  - destruct (@bump_spec N n f 1 Ln (H _ (or_introl eq_refl))) as (n1 & E1 & L1 & S1). destruct (@bump_spec N b f (if s then 1 else -1) Lb (H _ (or_introl eq_refl))) as (b1 & E2 & L2 & S2).
    rewrite E1, E2. destruct (IH n1 b1 L1 L2 (fun e I => H e (or_intror I))) as (n' & b' & E & A & B & C). exists n', b'. repeat split; auto.
    + destruct (C i H0) as [C1 _]. rewrite C1, S1, times_cons by auto. cbn [fst]. lia.
    + destruct (C i H0) as [_ C2]. rewrite C2, S2, !times_with_cons by auto. cbn [fst snd]. destruct (f =? i), s; cbn [andb Bool.eqb]; lia.
Qed.

(** the tally after the cells [cs]: every region has its vectors *)
Definition tallied (N : nat) (cs : list cut_cell) (M : list (Z * vecs)) : Prop :=
  ssorted Z.compare (keys M) /\ forall r n b, map_find Z.compare r M = Some (n, b) -> length n = N /\ length b = N /\
    forall i, 0 <= i -> nth (Z.to_nat i) n 0 = uses (filter (fun c => ce_region c =? r) cs) i /\ nth (Z.to_nat i) b 0 = net (filter (fun c => ce_region c =? r) cs) i.
Lemma entries_app a b : entries (a ++ b) = entries a ++ entries b.
Proof. unfold entries. rewrite map_app, concat_app. auto. Qed.
Lemma tally_cells N cs : forall pre M, tallied N pre M -> (forall c, In c cs -> In (ce_region c) (keys M)) -> (forall c e, In c cs -> In e (ce_faces c) -> 0 <= fst e < Z.of_nat N) ->
  exists M', fold_left tally_cell cs (Some M) = Some M' /\ tallied N (pre ++ cs) M' /\ keys M' = keys M.
Proof.
  induction cs as [|c cs IH]; intros pre M T HR HF; cbn [fold_left].
  - exists M. rewrite app_nil_r. auto.
  - destruct T as [SO T]. unfold tally_cell at 2. destruct (map_find Z.compare (ce_region c) M) as [[n b]|] eqn:F.
    2:{ apply (map_find_None Zcompare_total) in F; auto. exfalso. apply F. apply HR. cbn; auto. }
    destruct (T _ _ _ F) as (Ln & Lb & S). destruct (@tally_faces_spec N (ce_faces c) n b Ln Lb (fun e I => HF c e (or_introl eq_refl) I)) as (n' & b' & E & Ln' & Lb' & S').
    rewrite E. assert (K : keys (map_set Z.compare (ce_region c) (n', b') M) = keys M).
    { apply (ssorted_ext Zcompare_total); auto; [apply (map_set_sorted Zcompare_total); auto|]. intros x. rewrite map_set_keys, (set_insert_In Zcompare_total). split; [intros [ -> | I ]; auto; apply HR; cbn; auto|auto]. }
    destruct (IH (pre ++ [c]) (map_set Z.compare (ce_region c) (n', b') M)) as (M' & E' & T' & K').
    + split; [apply (map_set_sorted Zcompare_total); auto|]. intros r n0 b0. rewrite (map_find_set Zcompare_total) by auto. destruct (Z.compare_spec r (ce_region c)) as [C|C|C].
      * intros H. apply Some_inj in H. apply pair_equal_spec in H as [<- <-]. split; [auto|]. split; [auto|]. intros i Hi. rewrite filter_app. cbn [filter]. rewrite <- C, Z.eqb_refl. subst r. unfold uses, net. rewrite !entries_app. unfold entries at 2 4 6. cbn [map concat]. rewrite !app_nil_r, times_app, !times_with_app.
        destruct (S' i Hi) as [S1 S2], (S i Hi) as [S3 S4]. rewrite S1, S2, S3, S4. unfold uses, net. split; lia.
      * intros H. destruct (T _ _ _ H) as (A & B & CC). split; [auto|]. split; [auto|]. intros i Hi. rewrite filter_app. cbn [filter]. destruct (Z.eqb_spec (ce_region c) r); [lia|]. rewrite app_nil_r. auto.
      * intros H. destruct (T _ _ _ H) as (A & B & CC). split; [auto|]. split; [auto|]. intros i Hi. rewrite filter_app. cbn [filter]. destruct (Z.eqb_spec (ce_region c) r); [lia|]. rewrite app_nil_r. auto.
    + intros c' I. assert (Q := HR c' (or_intror I)). rewrite <- K in Q. exact Q.
    + intros c' e I. apply HF. cbn; auto.
    + exists M'. rewrite <- app_assoc in T'. split; [exact E'|]. split; [exact T'|]. etransitivity; [exact K'|exact K].
Qed.

Lemma emplace_zeros (z : vecs) R : forall M, ssorted Z.compare (keys M) -> (forall r p, map_find Z.compare r M = Some p -> p = z) ->
  let M' := fold_left (fun M r => map_emplace Z.compare r z M) R M in
  ssorted Z.compare (keys M') /\ (forall r p, map_find Z.compare r M' = Some p -> p = z) /\ forall r, In r (keys M') <-> In r R \/ In r (keys M).
Proof.
  induction R as [|r0 R IH]; intros M S H; cbn [fold_left].
  - repeat split; auto; try tauto. intros [[]|]; auto.
  - assert (S1 : ssorted Z.compare (keys (map_emplace Z.compare r0 z M))) by (apply (map_emplace_sorted Zcompare_total); auto).
    assert (F1 : forall k, map_find Z.compare k (map_emplace Z.compare r0 z M) = if k =? r0 then match map_find Z.compare r0 M with Some v => Some v | None => Some z end else map_find Z.compare k M).
    { intros k. rewrite (map_find_emplace Zcompare_total) by auto. destruct (Z.compare_spec k r0) as [ -> | L | L ]; [rewrite Z.eqb_refl; destruct (map_find Z.compare r0 M); auto|replace (k =? r0) with false by (symmetry; apply Z.eqb_neq; lia); destruct (map_find Z.compare k M); auto..]. }
    destruct (IH (map_emplace Z.compare r0 z M) S1) as (A & B & C).
    + intros r p. rewrite F1. destruct (r =? r0); [|apply H]. destruct (map_find Z.compare r0 M) eqn:E; intros Q; apply Some_inj in Q; subst; eauto.
    + split; auto. split; auto. intros r. rewrite C. cbn [In]. assert (X : In r (keys (map_emplace Z.compare r0 z M)) <-> r = r0 \/ In r (keys M)); [|intuition].
      assert (Y : forall M0 : list (Z * vecs), ssorted Z.compare (keys M0) -> (In r (keys M0) <-> map_find Z.compare r M0 <> None)).
      { intros M0 S0. destruct (map_find Z.compare r M0) eqn:E; split; try congruence.
        - intros _. apply (map_find_Some Zcompare_total) in E; auto. apply in_map with (f := fst) in E. exact E.
        - intros I. apply (map_find_None Zcompare_total) in E; auto. }
      rewrite Y, F1, Y by auto. destruct (Z.eqb_spec r r0) as [ -> |N]; [|intuition]. destruct (map_find Z.compare r0 M); intuition congruence.
Qed.
Lemma region_tally_spec m R : consistent m R -> exists M, region_tally m = Some M /\ tallied (length (m_faces m)) (m_cells m) M /\ forall r, In r (keys M) <-> In r R.
Proof.
  intros (ER & HR & HF & _). unfold region_tally. rewrite ER. set (z := repeat 0 (length (m_faces m))).
  destruct (@emplace_zeros (z, z) R []) as (A & B & C); [constructor|discriminate|].
  set (M0 := fold_left _ R []) in *.
  assert (T0 : tallied (length (m_faces m)) [] M0).
  { split; [exact A|]. intros r n b E. apply B in E. apply pair_equal_spec in E as [-> ->]. unfold z. rewrite repeat_length. split; auto. split; auto. intros i Hi. cbn.
    assert (N : nth (Z.to_nat i) (repeat 0 (length (m_faces m))) 0 = 0). { generalize (length (m_faces m)) as k, (Z.to_nat i) as j. induction k; intros [|j]; cbn; auto. }
    rewrite N. auto. }
  destruct (@tally_cells (length (m_faces m)) (m_cells m) [] M0 T0 (fun c I => proj2 (C _) (or_introl (HR c I))) HF) as (M & E & T & K).
  exists M. split; [exact E|]. split; [exact T|]. intros r. assert (Q := C r). rewrite <- K in Q. etransitivity; [exact Q|]. cbn. intuition.
Qed.
(** totals over the regions *)
Lemma fold_add l : forall a, fold_left Z.add l a = a + fold_left Z.add l 0.
Proof. induction l as [|x l IH]; intros a; cbn [fold_left]; [lia|]. rewrite IH, (IH (0 + x)). lia. Qed.
Lemma sum_regions (w : cut_cell -> Z) ks cs : NoDup ks -> (forall c, In c cs -> In (ce_region c) ks) ->
  fold_left Z.add (map (fun r => fold_left Z.add (map w (filter (fun c => ce_region c =? r) cs)) 0) ks) 0 = fold_left Z.add (map w cs) 0.
Proof.
  intros ND. set (G := fun l r => fold_left Z.add (map w (filter (fun c => ce_region c =? r) l)) 0).
  assert (GC : forall c l r, G (c :: l) r = (if ce_region c =? r then w c else 0) + G l r).
  { intros c l r. unfold G. cbn [filter]. destruct (ce_region c =? r); [|lia]. cbn [map fold_left]. rewrite fold_add. lia. }
  change (map _ ks) with (map (G cs) ks). induction cs as [|c cs IH]; intros H.
  - cbn. clear. induction ks; cbn; auto.
  - cbn [map fold_left]. rewrite (fold_add (map w cs) (0 + w c)). rewrite <- IH by (intros; apply H; cbn; auto). specialize (H c (or_introl eq_refl)). clear IH. revert ND H.
    induction ks as [|k ks IH]; intros ND H; [destruct H|].
    inversion ND; subst. cbn [map fold_left]. rewrite !(fold_add _ (0 + _)), GC. destruct (Z.eqb_spec (ce_region c) k) as [E|E].
    + assert (Q : map (G (c :: cs)) ks = map (G cs) ks). { apply map_ext_in. intros r I. rewrite GC. destruct (Z.eqb_spec (ce_region c) r); auto. subst. contradiction. }
      rewrite Q. lia.
    + destruct H as [H|H]; [congruence|]. rewrite IH by auto. lia.
Qed.
Lemma uses_sum cs i : uses cs i = fold_left Z.add (map (fun c => times (ce_faces c) i) cs) 0.
Proof. induction cs as [|c cs IH]; [reflexivity|]. cbn [map fold_left]. rewrite fold_add, <- IH. unfold uses, entries. cbn [map concat]. rewrite times_app. lia. Qed.
Lemma net_sum cs i : net cs i = fold_left Z.add (map (fun c => times_with true (ce_faces c) i - times_with false (ce_faces c) i) cs) 0.
Proof. induction cs as [|c cs IH]; [reflexivity|]. cbn [map fold_left]. rewrite fold_add, <- IH. unfold net, entries. cbn [map concat]. rewrite !times_with_app. lia. Qed.
Lemma columns m R M i : consistent m R -> tallied (length (m_faces m)) (m_cells m) M -> (forall r, In r (keys M) <-> In r R) -> 0 <= i ->
  column M fst i = uses (m_cells m) i /\ column M snd i = net (m_cells m) i.
Proof.
  intros (_ & HR & _) [SO T] K Hi. rewrite uses_sum, net_sum.
  assert (F : forall e, In e M -> nth (Z.to_nat i) (fst (snd e)) 0 = uses (in_region m (fst e)) i /\ nth (Z.to_nat i) (snd (snd e)) 0 = net (in_region m (fst e)) i).
  { intros [r [n b]] I. apply (map_find_Some Zcompare_total) in I; auto. destruct (T _ _ _ I) as (_ & _ & Q). apply Q; auto. }
  assert (ND : NoDup (keys M)) by (apply (ssorted_NoDup Zcompare_total); auto).
  assert (HK : forall c, In c (m_cells m) -> In (ce_region c) (keys M)) by (intros c I; apply K, HR; auto).
  split; unfold column.
  - rewrite <- (@sum_regions _ (keys M) (m_cells m) ND HK). unfold keys. rewrite map_map. f_equal. apply map_ext_in. intros e I. rewrite (proj1 (F e I)). apply uses_sum.
  - rewrite <- (@sum_regions _ (keys M) (m_cells m) ND HK). unfold keys. rewrite map_map. f_equal. apply map_ext_in. intros e I. rewrite (proj2 (F e I)). apply net_sum.
Qed.
(** ** the geometric test of one loop *)
Lemma corner_cells g x : In x (v_possible_cells (vertex_of_coord g)) <-> corner_of g x.
Proof.
  rewrite (@v_possible_cells_In (length g)).
  - rewrite pos_of_coord. unfold in_closed_cell, corner_of. revert x. induction g as [|a g IH]; intros x; cbn [map]; split; intros H; inversion H as [|c d e f H2 H3]; subst; constructor.
    + destruct H2 as [A B]. rewrite <- Z2Qc_1, <- Z2Qc_plus in B. rewrite Z2Qc_le in A, B. lia.
    + apply IH; auto.
    + rewrite <- Z2Qc_1, <- Z2Qc_plus, !Z2Qc_le. lia.
    + apply IH; auto.
  - unfold v_wf, vertex_of_coord. cbn. rewrite !repeat_length. auto.
  - unfold normalised, vertex_of_coord. cbn. apply Forall_forall. intros q I. apply repeat_spec in I. subst. split; [apply Qcle_refl|reflexivity].
Qed.
Lemma loop_cells_In m l x : In x (loop_cells m l) <-> l <> [] /\ forall i, In i l -> i < shape_size (list3 (m_vshape m)) /\ corner_of (unravel (list3 (m_vshape m)) i) x.
Proof.
  unfold loop_cells. set (p := fun i => if _ <? _ then _ else _).
  assert (P : forall i, In x (p i) <-> i < shape_size (list3 (m_vshape m)) /\ corner_of (unravel (list3 (m_vshape m)) i) x).
  { intros i. unfold p. destruct (Z.ltb_spec i (shape_size (list3 (m_vshape m)))); [rewrite corner_cells; tauto|]. cbn. split; [tauto|lia]. }
  destruct l as [|i0 l]; [cbn; split; [tauto|intros [H _]; congruence]|]. rewrite intersect_loop_In. split.
  - intros [_ H]. split; [discriminate|]. intros i I. apply P, H, in_map. auto.
  - intros [_ H]. split; [apply P, H; cbn; auto|]. intros s I. apply in_map_iff in I as (i & <- & I). apply P, H. auto.
Qed.
Lemma loop_cells_sorted m l : ssorted zlex (loop_cells m l).
Proof. unfold loop_cells. destruct l as [|i l]; [constructor|]. apply intersect_loop_sorted. destruct (i <? _); [apply v_possible_cells_sorted|constructor]. Qed.
Lemma first_diff_spec a : forall b k, length a = length b -> zlex a b = Lt -> exists j x y, first_diff a b k = Some ((k + j)%nat, y) /\ nth_error a j = Some x /\ nth_error b j = Some y /\ x < y /\ forall j', (j' < j)%nat -> nth_error a j' = nth_error b j'.
Proof.
  induction a as [|x a IH]; intros [|y b] k L H; cbn in L; try discriminate. cbn [first_diff]. unfold zlex in H. cbn [lex_cmp] in H. destruct (Z.eqb_spec x y) as [ -> |N].
  - rewrite Z.compare_refl in H. destruct (IH b (S k) ltac:(lia) H) as (j & x' & y' & E & A & B & C & D). exists (S j), x', y'. rewrite E. split; [do 2 f_equal; lia|]. repeat split; auto. intros [|j'] Hj; cbn; auto. apply D. lia.
  - destruct (Z.compare_spec x y); [congruence| |discriminate]. exists 0%nat, x, y. rewrite Nat.add_0_r. repeat split; auto. intros; lia.
Qed.
Lemma corner_nth g x k a : corner_of g x -> nth_error x k = Some a -> exists b, nth_error g k = Some b /\ (b = a \/ b = a + 1).
Proof. intros H. revert k. induction H; intros [|k] E; cbn in E; try discriminate; [|cbn; eauto]. apply Some_inj in E. subst. eexists; split; [reflexivity|auto]. Qed.
Lemma corner_length g x : corner_of g x -> length g = length x.
Proof. induction 1; cbn; auto. Qed.
Lemma corner_put g x k v : corner_of g x -> nth_error g k = Some v -> forall a, nth_error x k = Some a -> corner_of g (zput x k (2 * v - 1 - a)).
Proof.
  intros H. revert k. induction H as [|gi xi g x D H IH]; intros [|k] E a E'; cbn in E, E'; try discriminate; cbn [zput].
  - apply Some_inj in E. apply Some_inj in E'. subst. constructor; auto. lia.
  - constructor; auto. apply IH; auto.
Qed.
Lemma nth_error_zput (A : Type) (l : list A) : forall k j v, nth_error (zput l k v) j = if (j =? k)%nat then match nth_error l j with Some _ => Some v | None => None end else nth_error l j.
Proof. induction l as [|a l IH]; intros [|k] [|j] v; cbn; auto; destruct (j =? k)%nat; auto. Qed.
Lemma loop_check_spec m l : loop_check m l = Some true <-> (forall a b, a <> b -> between m l a b -> on_wall m l).
Proof.
  unfold loop_check. assert (SO := loop_cells_sorted m l). assert (CI := loop_cells_In m l).
  destruct (loop_cells m l) as [|a [|b [|c r]]] eqn:E.
  - split; auto. intros _ a b N [L H]. exfalso. apply (proj2 (CI a)). split; auto. apply H; auto.
  - split; auto. intros _ a' b' N [L H]. exfalso. assert (A1 : In a' [a]) by (apply CI; split; auto; apply H; auto). assert (A2 : In b' [a]) by (apply CI; split; auto; apply H; auto). cbn in A1, A2. intuition congruence.
  - inversion SO as [|? ? F S' ]; subst. inversion F as [|? ? LT _]; subst.
    assert (NE : l <> []) by (apply (CI a); cbn; auto).
    assert (B0 : between m l a b). { split; auto. intros x. split; [intros H; assert (I : In x [a; b]) by (apply CI; auto); cbn in I; intuition|]. intros H. apply CI. cbn. intuition. }
    assert (AB : a <> b) by (intros ->; rewrite (tc_refl zlex_total) in LT; discriminate).
    destruct l as [|i0 l0]; [congruence|]. set (l := i0 :: l0) in *.
    assert (CA : forall i, In i l -> corner_of (unravel (list3 (m_vshape m)) i) a) by (intros i I; apply (proj2 (proj1 (CI a) ltac:(cbn; auto))); auto).
    assert (CB : forall i, In i l -> corner_of (unravel (list3 (m_vshape m)) i) b) by (intros i I; apply (proj2 (proj1 (CI b) ltac:(cbn; auto))); auto).
    assert (LL : length a = length b) by (rewrite <- (corner_length (CA i0 (or_introl eq_refl))); apply corner_length, CB; cbn; auto).
    destruct (@first_diff_spec a b 0 LL LT) as (j & x & y & E1 & Ea & Eb & XY & PRE). rewrite E1. rewrite Nat.add_0_l in *.
    assert (W : forall i, In i l -> nth_error (unravel (list3 (m_vshape m)) i) j = Some y).
    { intros i I. destruct (corner_nth _ (CA i I) Ea) as (v & Ev & D1), (corner_nth _ (CB i I) Eb) as (v' & Ev' & D2). rewrite Ev in *. apply Some_inj in Ev'. f_equal. lia. }
    split.
    + intros H _ _ _ _. apply Some_inj in H. apply orb_true_iff in H. rewrite !Z.eqb_eq in H. exists j, y. split; auto.
    + intros H. destruct (H a b AB B0) as (d & v & D & Q). f_equal. apply orb_true_iff. rewrite !Z.eqb_eq.
      assert (d = j); [|subst d; assert (v = y) by (assert (T := Q i0 (or_introl eq_refl)); rewrite (W i0 (or_introl eq_refl)) in T; congruence); subst; auto].
      destruct (Nat.eq_dec d j) as [|ND]; auto. exfalso.
      destruct (nth_error a d) as [ad|] eqn:Ad.
      2:{ apply nth_error_None in Ad. assert (T := Q i0 (or_introl eq_refl)). assert (nth_error (unravel (list3 (m_vshape m)) i0) d <> None) by congruence. apply nth_error_Some in H0. rewrite (corner_length (CA i0 (or_introl eq_refl))) in H0. lia. }
      assert (X : zput a d (2 * v - 1 - ad) = a \/ zput a d (2 * v - 1 - ad) = b).
      { apply (proj1 (proj2 B0 _)). intros i I. split; [apply (proj2 (proj1 (CI a) ltac:(cbn; auto))); auto|]. apply corner_put; auto. }
      destruct X as [X|X]; apply (f_equal (fun l => (nth_error l d, nth_error l j))) in X; rewrite !nth_error_zput, Nat.eqb_refl, Ad in X; destruct (Nat.eqb_spec j d) as [|_]; try congruence; apply pair_equal_spec in X as [X1 X2].
      * apply Some_inj in X1. lia.
      * rewrite Ea, Eb in X2. apply Some_inj in X2. lia.
  - split; auto. intros _ a' b' N [L H]. exfalso.
    assert (ND : NoDup (a :: b :: c :: r)) by (apply (ssorted_NoDup zlex_total); auto).
    assert (I : forall x, In x (a :: b :: c :: r) -> x = a' \/ x = b') by (intros x I; apply H; apply CI in I; apply I).
    assert (Ia := I a ltac:(cbn; auto)). assert (Ib := I b ltac:(cbn; auto)). assert (Ic := I c ltac:(cbn; auto)). inversion ND as [|? ? N1 ND1]; subst. inversion ND1 as [|? ? N2 ND2]; subst. cbn in N1, N2. intuition congruence.
Qed.

Lemma mesh_or_quad_spec m i : 0 <= i < Z.of_nat (length (m_faces m)) -> (forall f, In f (m_faces m) -> cf_loops f <> []) -> (mesh_or_quad m i = Some true <-> from_mesh_or_quad m i).
Proof.
  intros Hi HL. unfold mesh_or_quad, from_mesh_or_quad. destruct (is_mesh_face m i); [tauto|].
  destruct (nth_error (m_faces m) (Z.to_nat i)) as [f|] eqn:E; [|apply nth_error_None in E; lia].
  assert (N := HL f (nth_error_In _ _ E)). destruct (cf_loops f) as [|l ls] eqn:El; [congruence|]. split.
  - intros H. apply Some_inj in H. apply Nat.eqb_eq in H. right. exists f, l, ls. auto.
  - intros [H|(f' & l' & ls' & E' & El' & H)]; [discriminate|]. apply Some_inj in E'. subst f'. rewrite El in El'. injection El' as <- <-. rewrite H. reflexivity.
Qed.

(** C120: exactly which meshes the validation accepts *)
Theorem c120_accepts_exactly_partial m R : consistent m R ->
  (paired_boundary m = Some true <->
   (forall r i, 0 <= i < Z.of_nat (length (m_faces m)) -> uses (in_region m r) i <= 2 /\ (uses (in_region m r) i = 1 -> from_mesh_or_quad m i)) /\
   ((1 < length (m_faces m))%nat -> R <> [] -> from_mesh_or_quad m 1) /\
   (forall i f, 0 <= i -> nth_error (m_faces m) (Z.to_nat i) = Some f ->
      uses (m_cells m) i <= 2 /\ -1 <= net (m_cells m) i /\
      (uses (m_cells m) i = 1 -> ~ In i (m_folded m) -> cf_ext f = None -> forall l a b, In l (cf_loops f) -> a <> b -> between m l a b -> on_wall m l))).
Proof.
  intros C. destruct (region_tally_spec C) as (M & EM & T & K). assert (COL := fun i H => @columns m R M i C T K H). destruct C as (ER & HR & HF & HL). destruct T as [SO T].
  assert (U0 : forall cs i, 0 <= uses cs i) by (intros; unfold uses, times; lia).
  assert (FIND : forall e, In e M -> length (fst (snd e)) = length (m_faces m) /\ length (snd (snd e)) = length (m_faces m) /\ forall i, 0 <= i -> nth (Z.to_nat i) (fst (snd e)) 0 = uses (in_region m (fst e)) i).
  { intros [r [n b]] I. apply (map_find_Some Zcompare_total) in I; auto. destruct (T _ _ _ I) as (A & B & Q). cbn. repeat split; auto. intros i Hi. apply Q; auto. }
  unfold paired_boundary. rewrite EM, all_checks_true. split.
  - intros H. split; [|split].
    + intros r i Hi. destruct (in_dec Z.eq_dec r (keys M)) as [I|NI].
      * apply in_map_iff in I as (e & Er & I). destruct (FIND e I) as (L1 & _ & Q). specialize (Q i ltac:(lia)). subst r.
        assert (CK : (if uses (in_region m (fst e)) i =? 1 then mesh_or_quad m i else Some (uses (in_region m (fst e)) i <=? 2)) = Some true).
        { apply H. apply in_or_app. left. apply in_flat_map. exists e. split; auto. unfold count_checks. apply in_map_iff. exists i. cbv beta zeta. split; [|apply zrange_In; lia]. rewrite <- Q. reflexivity. }
        destruct (Z.eqb_spec (uses (in_region m (fst e)) i) 1) as [E1|N1].
        -- split; [lia|]. intros _. apply mesh_or_quad_spec; auto.
        -- apply Some_inj in CK. apply Z.leb_le in CK. split; auto. congruence.
      * assert (Z0 : in_region m r = []). { unfold in_region. destruct (filter _ (m_cells m)) as [|c t] eqn:E; auto. exfalso. assert (I : In c (c :: t)) by (cbn; auto). rewrite <- E in I. apply filter_In in I as [I1 I2]. apply Z.eqb_eq in I2. subst r. apply NI, K, HR. auto. }
        rewrite Z0. split; [unfold uses, times; cbn; lia|]. unfold uses, times; cbn. lia.
    + intros L1 NR. destruct R as [|r0 R']; [congruence|]. assert (I : In r0 (keys M)) by (apply K; cbn; auto). apply in_map_iff in I as (e & _ & I). destruct (FIND e I) as (_ & L2 & _).
      apply mesh_or_quad_spec; auto; [lia|]. apply H. apply in_or_app. right. apply in_or_app. left. apply in_flat_map. exists e. split; auto. unfold boundary_checks. apply in_map_iff. exists 1. split; auto. apply zrange_In. lia.
    + intros i f Hi Ef. assert (Li : (Z.to_nat i < length (m_faces m))%nat) by (apply nth_error_Some; congruence).
      assert (CK : face_check m i (column M fst i) (column M snd i) = Some true). { apply H. apply in_or_app. right. apply in_or_app. right. apply in_map_iff. exists i. split; auto. apply zrange_In. lia. }
      destruct (COL i Hi) as [C1 C2]. rewrite C1, C2 in CK. unfold face_check in CK.
      destruct (Z.ltb_spec (net (m_cells m) i) (-1)); [discriminate|]. cbn [orb] in CK. specialize (U0 (m_cells m) i). destruct (Z.ltb_spec (uses (m_cells m) i) 0); [lia|]. rewrite andb_false_r in CK. cbn [orb] in CK.
      destruct (Z.ltb_spec 2 (uses (m_cells m) i)); [discriminate|]. repeat split; try lia. intros E1 NF EX l a b Il NAB BW. rewrite E1, Ef, EX in CK. cbn [Z.eqb Pos.eqb andb] in CK.
      assert (FL : is_flap m i = false). { unfold is_flap. destruct (existsb (Z.eqb i) (m_folded m)) eqn:EF; auto. apply existsb_exists in EF as (j & Ij & Ej). apply Z.eqb_eq in Ej. subst. contradiction. }
      rewrite FL in CK. cbn [negb] in CK. rewrite all_checks_true in CK. apply (proj1 (loop_check_spec m l)) with a b; auto. apply CK, in_map. auto.
  - intros (H1 & H2 & H3) ck I. apply in_app_or in I as [I|I]; [|apply in_app_or in I as [I|I]].
    + apply in_flat_map in I as (e & Ie & I). destruct (FIND e Ie) as (L1 & _ & Q). unfold count_checks in I. apply in_map_iff in I as (i & <- & Ii). apply zrange_In in Ii. rewrite (Q i) by lia.
      destruct (H1 (fst e) i ltac:(lia)) as [A B]. destruct (Z.eqb_spec (uses (in_region m (fst e)) i) 1) as [E1|N1]; [apply mesh_or_quad_spec; auto; lia|]. f_equal. apply Z.leb_le. auto.
    + apply in_flat_map in I as (e & Ie & I). destruct (FIND e Ie) as (_ & L2 & _). unfold boundary_checks in I. apply in_map_iff in I as (i & <- & Ii). apply zrange_In in Ii. destruct (Z.eqb_spec (Z.abs i) 1) as [E1|]; auto. assert (i = 1) by lia. subst i.
      apply mesh_or_quad_spec; auto; [lia|]. apply H2; [lia|]. intros ->. apply (proj1 (K (fst e))). apply in_map. auto.
    + apply in_map_iff in I as (i & <- & Ii). apply zrange_In in Ii. destruct (COL i ltac:(lia)) as [C1 C2]. rewrite C1, C2. unfold face_check. destruct (nth_error (m_faces m) (Z.to_nat i)) as [f|] eqn:Ef; [|apply nth_error_None in Ef; lia].
      destruct (H3 i f ltac:(lia) Ef) as (A & B & D). specialize (U0 (m_cells m) i). destruct (Z.ltb_spec (net (m_cells m) i) (-1)); [lia|]. destruct (Z.ltb_spec (uses (m_cells m) i) 0); [lia|]. rewrite andb_false_r. cbn [orb]. destruct (Z.ltb_spec 2 (uses (m_cells m) i)); [lia|].
      destruct (Z.eqb_spec (uses (m_cells m) i) 1) as [E1|]; [|auto]. cbn [andb]. destruct (is_flap m i) eqn:FL; [auto|]. cbn [negb]. destruct (cf_ext f) eqn:EX; auto. apply all_checks_true. intros c Ic. apply in_map_iff in Ic as (l & <- & Il). apply loop_check_spec. intros a b NAB BW. apply D with a b; auto.
      intros IN. unfold is_flap in FL. assert (existsb (Z.eqb i) (m_folded m) = true); [|congruence]. apply existsb_exists. exists i. split; auto. apply Z.eqb_refl.
Qed.

(** an accepting run guarantees that a face used once, which is neither folded nor next to an exterior cell nor cut off a grid square, lies on the outer wall *)
Corollary c120_single_use_partial m R i f l a b : consistent m R -> paired_boundary m = Some true -> 0 <= i -> nth_error (m_faces m) (Z.to_nat i) = Some f ->
  uses (m_cells m) i = 1 -> ~ In i (m_folded m) -> cf_ext f = None -> In l (cf_loops f) -> a <> b -> between m l a b -> on_wall m l.
Proof. intros C H. apply (c120_accepts_exactly_partial C) in H as (_ & _ & H). intros. destruct (H i f) as (_ & _ & Q); auto. eapply Q; eauto. Qed.

(** REFUTED: orientations are not checked; an accepted mesh stays accepted when every sign is set to true *)
Definition all_positive (m : mesh3) : mesh3 :=
  mkMesh (m_origin m) (m_dx m) (m_vshape m) (m_verts m) (m_cut_edges m) (m_active m) (m_origV m) (m_origF m) (m_faces m)
    (map (fun c => mkCutCell (map (fun e => (fst e, true)) (ce_faces c)) (ce_index c) (ce_region c) (ce_grid c)) (m_cells m))
    (m_folded m) (m_bary m) (m_cubes m) (m_afaces m) (m_regions m).
Lemma uses_positive cs i : uses (map (fun c => mkCutCell (map (fun e => (fst e, true)) (ce_faces c)) (ce_index c) (ce_region c) (ce_grid c)) cs) i = uses cs i.
Proof.
  induction cs as [|c cs IH]; auto. unfold uses, entries in *. cbn [map concat ce_faces]. rewrite !times_app, IH. f_equal.
  induction (ce_faces c) as [|e l IH']; auto. cbn [map]. rewrite !times_cons, IH'. auto.
Qed.
Lemma net_positive cs i : 0 <= net (map (fun c => mkCutCell (map (fun e => (fst e, true)) (ce_faces c)) (ce_index c) (ce_region c) (ce_grid c)) cs) i.
Proof.
  unfold net. assert (Z0 : times_with false (entries (map (fun c => mkCutCell (map (fun e => (fst e, true)) (ce_faces c)) (ce_index c) (ce_region c) (ce_grid c)) cs)) i = 0); [|rewrite Z0; unfold times_with; lia].
  induction cs as [|c cs IH]; auto. unfold entries in *. cbn [map concat ce_faces]. rewrite times_with_app, IH. assert (Q : times_with false (map (fun e => (fst e, true)) (ce_faces c)) i = 0); [|lia].
  induction (ce_faces c) as [|e l IH']; auto. cbn [map]. rewrite times_with_cons, IH'. cbn [snd Bool.eqb]. rewrite andb_false_r. lia.
Qed.
Theorem c120_signs_refuted m R : consistent m R -> paired_boundary m = Some true -> consistent (all_positive m) R /\ paired_boundary (all_positive m) = Some true.
Proof.
  intros C H. apply (c120_accepts_exactly_partial C) in H as (H1 & H2 & H3).
  assert (RG : forall r, in_region (all_positive m) r = map (fun c => mkCutCell (map (fun e => (fst e, true)) (ce_faces c)) (ce_index c) (ce_region c) (ce_grid c)) (in_region m r)).
  { intros r. unfold in_region, all_positive. cbn [m_cells]. clear. induction (m_cells m) as [|c cs IH]; auto. cbn [map filter ce_region]. destruct (ce_region c =? r); cbn [map]; rewrite IH; auto. }
  assert (C' : consistent (all_positive m) R).
  { destruct C as (A & B & D & E). split; [|split; [|split; auto]].
    - rewrite <- A. unfold regions3, cell_size, num_cut_cells, all_positive. cbn [m_cells m_regions m_cubes]. rewrite map_map, map_length. auto.
    - intros c I. cbn [all_positive m_cells] in I. apply in_map_iff in I as (c0 & <- & I). cbn. auto.
    - intros c e I J. cbn [all_positive m_cells] in I. apply in_map_iff in I as (c0 & <- & I). cbn [ce_faces] in J. apply in_map_iff in J as (e0 & <- & J). cbn. eapply D; eauto. }
  split; auto. apply (c120_accepts_exactly_partial C'). split; [|split].
  - intros r i Hi. rewrite RG, uses_positive. apply H1. auto.
  - auto.
  - intros i f Hi Ef. cbn [all_positive m_cells]. rewrite uses_positive. assert (P := net_positive (m_cells m) i). destruct (H3 i f Hi Ef) as (A & B & D). split; auto. split; [lia|]. exact D.
Qed.
(** ... and it is then wrong: a face shared by two cells has the same sign in both *)
Definition quad_face (l : list Z) : cut_face := mkCutFace [None; None; Some 1]%Z [l] (AxialFace 2 1) (0, 0, 1)%Qc None None None.
Definition tri_face (l : list Z) : cut_face := mkCutFace [None; None; Some 1]%Z [l] (AxialFace 2 1) (0, 0, 1)%Qc None None None.
Definition mk_test (verts : list vertex) (fs : list cut_face) (cs : list (list (Z * bool))) (bary : list (Z * bary_face)) : mesh3 :=
  mkMesh (0, 0, 0)%Qc (1, 1, 1)%Qc (3, 3, 3) verts [] (fun _ => true) [] [] fs (map (fun c => mkCutCell c 0 1 (0, 0, 0)) cs) [] bary [] [] [].
Definition shared : mesh3 := mk_test [] [quad_face [0; 1; 4; 3]] [[(0, true)]; [(0, false)]] [].
Example c120_signs_ex : consistent shared [1; 1] /\ paired_boundary shared = Some true /\ paired_boundary (all_positive shared) = Some true /\ net (m_cells (all_positive shared)) 0 = 2.
Proof.
  split; [|vm_compute; auto]. split; [reflexivity|]. split; [intros c I; cbn in I; repeat destruct I as [<-|I]; try destruct I; cbn; auto|]. split.
  - intros c e I J. cbn in I. repeat destruct I as [<-|I]; try destruct I; cbn in J; destruct J as [<-|[]]; cbn; lia.
  - intros f [<-|[]]. discriminate.
Qed.
(** REFUTED: a perfectly paired mesh is rejected when its face number 1 is an axis-aligned face that is not a quadrilateral (the loop tests the index, not the count) *)
Theorem c120_index_refuted : exists m R, consistent m R /\ (forall i, 0 <= i < Z.of_nat (length (m_faces m)) -> uses (m_cells m) i = 2 /\ net (m_cells m) i = 0) /\ paired_boundary m = Some false.
Proof.
  exists (mk_test [] [quad_face [0; 1; 4; 3]; tri_face [0; 1; 4]] [[(0, true); (1, true)]; [(0, false); (1, false)]] []), [1; 1]. split; [|split; [|reflexivity]].
  - split; [reflexivity|]. split; [intros c I; cbn in I; repeat destruct I as [<-|I]; try destruct I; cbn; auto|]. split.
    + intros c e I J. cbn in I. repeat destruct I as [<-|I]; try destruct I; cbn in J; repeat destruct J as [<-|J]; try destruct J; cbn; lia.
    + intros f I. cbn in I. repeat destruct I as [<-|I]; try destruct I; discriminate.
  - intros i Hi. cbn in Hi. assert (E : i = 0 \/ i = 1) by lia. destruct E as [ -> | -> ]; vm_compute; auto.
Qed.
(** REFUTED: a face used by a single cell is accepted although one of its corners lies strictly inside the grid *)
Theorem c120_interior_refuted : exists m R f v, consistent m R /\ paired_boundary m = Some true /\ uses (m_cells m) 0 = 1 /\ nth_error (m_faces m) 0 = Some f /\ cf_ext f = None /\ m_folded m = [] /\ is_mesh_face m 0 = false /\
  In v (m_verts m) /\ In [9; 10; 13; 27] (cf_loops f) /\ masked_vertex (list3 (m_vshape m)) (m_verts m) 27 = Some v /\ Forall2 (fun p n => (0 < p)%Qc /\ (p < Z2Qc n - 1)%Qc) (pos v) (list3 (m_vshape m)).
Proof.
  set (v := mkVertex [0; 0; 1]%Z [qhalf; qhalf; qhalf] [false; false; false]).
  exists (mk_test [v] [quad_face [9; 10; 13; 27]] [[(0, true)]] []), [1], (quad_face [9; 10; 13; 27]), v. split; [|repeat split; auto; try reflexivity].
  - split; [reflexivity|]. split; [intros c I; cbn in I; destruct I as [<-|[]]; cbn; auto|]. split.
    + intros c e I J. cbn in I. destruct I as [<-|[]]. cbn in J. destruct J as [<-|[]]; cbn; lia.
    + intros f [<-|[]]. discriminate.
  - cbn. auto.
  - cbn. auto.
  - repeat constructor; vm_compute; auto.
Qed.
(** non-vacuity of the acceptance theorem: the single-use theorem's hypotheses hold for a wall face *)
Definition wall : mesh3 := mk_test [] [quad_face [0; 1; 4; 3]; quad_face [9; 10; 13; 12]] [[(0, true); (1, true)]; [(1, false)]] [].
Example c120_wall_ex : paired_boundary wall = Some true /\ uses (m_cells wall) 0 = 1 /\ loop_cells wall [0; 1; 4; 3] = [[-1; 0; 0]; [0; 0; 0]] /\
  paired_boundary (mk_test [] [quad_face [9; 10; 13; 12]] [[(0, true)]] []) = Some false.
Proof. vm_compute. auto. Qed.
