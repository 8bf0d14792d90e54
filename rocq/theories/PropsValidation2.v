(** Properties C121-C122: the grid-cell and region-volume validations. *)
From Coq Require Import Permutation.
From Verif Require Import Base Num CoordMask Vertex VertexProofs ThresholdProofs Grid SmallestEdge AdaptiveGrid AdaptiveProofs Mesh Sparse Volume Boundary3 Interp Queries3 PropsQueries3 Validation.
Set Implicit Arguments.
Local Open Scope Z_scope.

(** ** C121 *)
(** Specification: the total volume of the cut cells of grid cell g, and whether they fill it up to 1e-5 *)
Definition volume_in (m : mesh3) (vols : list Qc) (g : c3) : Qc := lsum (fun cv => if c3_eqb (ce_grid (fst cv)) g then snd cv else 0%Qc) (combine (m_cells m) vols).
Definition filled (m : mesh3) (vols : list Qc) (g : c3) : Prop := (qabs (1 - volume_in m vols g / prod3 (m_dx m)) <= tol5)%Qc.
Definition is_cut (m : mesh3) (g : c3) : Prop := exists c, In c (m_cells m) /\ ce_grid c = g.

Lemma gcv_fold l : forall M, ssorted c3_cmp (keys M) ->
  let M' := fold_left (fun M '(c, v) => add_volume M (ce_grid c) v) l M in
  ssorted c3_cmp (keys M') /\ forall g, map_find c3_cmp g M' =
    match map_find c3_cmp g M with
    | Some w => Some (w + lsum (fun cv : cut_cell * Qc => if c3_eqb (ce_grid (fst cv)) g then snd cv else 0) l)%Qc
    | None => if existsb (fun cv : cut_cell * Qc => c3_eqb (ce_grid (fst cv)) g) l then Some (lsum (fun cv : cut_cell * Qc => if c3_eqb (ce_grid (fst cv)) g then snd cv else 0%Qc) l) else None
    end.
Proof.
  induction l as [|[c v] l IH]; intros M S; cbn [fold_left].
  - split; auto. intros g. cbn. destruct (map_find c3_cmp g M); auto. f_equal. ring.
  - assert (S1 : ssorted c3_cmp (keys (add_volume M (ce_grid c) v))) by (unfold add_volume; destruct (map_find c3_cmp (ce_grid c) M); apply (map_set_sorted c3_cmp_total); auto).
    assert (F1 : forall g, map_find c3_cmp g (add_volume M (ce_grid c) v) = if c3_eqb (ce_grid c) g then Some (match map_find c3_cmp g M with Some w => w + v | None => v end)%Qc else map_find c3_cmp g M).
    { intros g. unfold add_volume. destruct (c3_eqb (ce_grid c) g) eqn:E.
      - apply c3_eqb_eq in E. subst g. destruct (map_find c3_cmp (ce_grid c) M); rewrite (map_find_set c3_cmp_total) by auto; rewrite (tc_refl c3_cmp_total); auto.
      - assert (NE : c3_cmp g (ce_grid c) <> Eq) by (intros Q; apply (tc_eq c3_cmp_total) in Q; subst g; assert (c3_eqb (ce_grid c) (ce_grid c) = true) by (apply c3_eqb_eq; auto); congruence).
        destruct (map_find c3_cmp (ce_grid c) M); rewrite (map_find_set c3_cmp_total) by auto; destruct (c3_cmp g (ce_grid c)); congruence. }
    destruct (IH _ S1) as [A B]. split; auto. intros g. rewrite B, F1. cbn [existsb lsum fst snd]. destruct (c3_eqb (ce_grid c) g) eqn:E; cbn [orb].
    + destruct (map_find c3_cmp g M); f_equal; ring.
    + destruct (map_find c3_cmp g M); [f_equal; ring|]. destruct (existsb _ l); auto. f_equal. ring.
Qed.
Lemma combine_full (A B : Type) (l : list A) (l' : list B) a : (length l <= length l')%nat -> In a l -> exists b, In (a, b) (combine l l').
Proof. revert l'. induction l as [|x l IH]; intros [|y l'] L I; cbn in *; try lia; try contradiction. destruct I as [<-|I]; [exists y; auto|]. destruct (IH l') as [b Hb]; [lia|auto|]. exists b. auto. Qed.
Lemma gcv_spec m vols : (length (m_cells m) <= length vols)%nat -> ssorted c3_cmp (keys (grid_cell_volumes m vols)) /\
  forall g v, In (g, v) (grid_cell_volumes m vols) <-> is_cut m g /\ v = volume_in m vols g.
Proof.
  intros L. destruct (@gcv_fold (combine (m_cells m) vols) [] ltac:(constructor)) as [A B]. fold (grid_cell_volumes m vols) in A, B. split; auto. intros g v.
  assert (FS : map_find c3_cmp g (grid_cell_volumes m vols) = Some v <-> In (g, v) (grid_cell_volumes m vols)) by (apply (map_find_Some c3_cmp_total); auto). rewrite <- FS, B. cbn [map_find]. fold (volume_in m vols g).
  destruct (existsb _ (combine (m_cells m) vols)) eqn:E.
  - apply existsb_exists in E as ((c & w) & I & Q). apply c3_eqb_eq in Q. cbn in Q. apply in_combine_l in I. split; [intros H; apply Some_inj in H; split; [exists c; auto|auto]|intros [_ ->]; auto].
  - split; [discriminate|]. intros [(c & I & Q) _]. exfalso. destruct (combine_full _ _ _ L I) as [w J]. assert (T : existsb (fun cv => c3_eqb (ce_grid (fst cv)) g) (combine (m_cells m) vols) = true); [|congruence].
    apply existsb_exists. exists (c, w). split; auto. apply c3_eqb_eq. auto.
Qed.
Definition c3_in (g : c3) (l : list c3) : bool := existsb (c3_eqb g) l.
Lemma c3_in_In g l : c3_in g l = true <-> In g l.
Proof. unfold c3_in. rewrite existsb_exists. split; [intros (x & I & E); apply c3_eqb_eq in E; subst; auto|intros I; exists g; split; auto; apply c3_eqb_eq; auto]. Qed.
Lemma count_perm (A : Type) (l k : list A) (p : A -> bool) : NoDup l -> NoDup k -> (forall x, In x l <-> In x k) -> length (filter p l) = length (filter p k).
Proof. intros N1 N2 H. apply Permutation_length, NoDup_Permutation; try (apply NoDup_filter; auto). intros x. rewrite !filter_In, H. tauto. Qed.
Lemma filter_split (A : Type) (p : A -> bool) l : length l = (length (filter p l) + length (filter (fun x => negb (p x)) l))%nat.
Proof. induction l as [|x l IH]; auto. cbn. destruct (p x); cbn; lia. Qed.
Lemma filter_and (A : Type) (p q : A -> bool) l : filter q (filter p l) = filter (fun x => p x && q x) l.
Proof. induction l as [|x l IH]; auto. cbn. destruct (p x); cbn; [destruct (q x); rewrite IH|]; auto. Qed.
Lemma in_c3_In s g : in_c3 s g = true <-> In g (loop3 (0, 0, 0) s).
Proof.
  destruct s as [[n k] l], g as [[x y] z]. rewrite loop3_In. unfold in_c3. cbn [get3]. rewrite !andb_true_iff, !Z.leb_le, !Z.ltb_lt. lia.
Qed.
(** the two numbers: U = the distinct grid cells that are cut, A = the grid cells whose mask is set *)
Theorem c121_counts m vols U A : (length (m_cells m) <= length vols)%nat -> NoDup U -> NoDup A -> (forall g, In g U <-> is_cut m g) -> (forall g, In g A <-> in_c3 (cshape m) g = true /\ m_active m g = true) ->
  grid_cells_count m vols = (Z.of_nat (length (filter (fun g => bad_volume m (volume_in m vols g)) U)),
     Z.of_nat (length (filter (fun g => negb (c3_in g U)) A)) - Z.of_nat (length (filter (fun g => bad_volume m (volume_in m vols g) && negb (c3_in g A)) U))).
Proof.
  intros L NU NA HU HA. destruct (gcv_spec m vols L) as [S G]. set (M := grid_cell_volumes m vols) in *.
  assert (NK : NoDup (keys M)) by (apply (ssorted_NoDup c3_cmp_total); auto).
  assert (EM : M = map (fun g => (g, volume_in m vols g)) (keys M)).
  { unfold keys. rewrite map_map. rewrite <- (map_id M) at 1. apply map_ext_in. intros [g v] I. apply G in I as [_ ->]. auto. }
  assert (KU : forall g, In g (keys M) <-> In g U).
  { intros g. rewrite HU. unfold keys. rewrite in_map_iff. split; [intros ((g' & v) & <- & I); apply G in I; tauto|]. intros I. exists (g, volume_in m vols g). split; auto. apply G. auto. }
  assert (CNT : forall p : c3 * Qc -> bool, length (filter p M) = length (filter (fun g => p (g, volume_in m vols g)) U)).
  { intros p. rewrite EM. transitivity (length (filter (fun g => p (g, volume_in m vols g)) (keys M))); [|apply count_perm; auto]. generalize (keys M) as ks. intros ks. induction ks as [|k ks IH]; auto. cbn. destruct (p _); cbn; lia. }
  assert (LM : length M = length U). { transitivity (length (keys M)); [unfold keys; rewrite map_length; auto|]. apply Permutation_length, NoDup_Permutation; auto. }
  assert (LA : length (filter (m_active m) (all_cells3 m)) = length A).
  { apply Permutation_length, NoDup_Permutation; auto; [apply NoDup_filter, loop3_NoDup|]. intros g. rewrite filter_In, HA. unfold all_cells3. rewrite <- in_c3_In. tauto. }
  assert (CA : forall g, cell_active m g = c3_in g A).
  { intros g. apply eq_true_iff_eq. rewrite c3_in_In, HA. unfold cell_active. apply andb_true_iff. }
  unfold grid_cells_count. fold M. rewrite !CNT, LM, LA. cbn [fst snd]. f_equal.
  (* |A| - |U| + |U good not A| = |A \ U| - |U bad not A| *)
  assert (E1 := filter_split (fun g => c3_in g U) A). assert (E2 := filter_split (fun g => c3_in g A) U).
  assert (E3 : length (filter (fun g => c3_in g U) A) = length (filter (fun g => c3_in g A) U)).
  { apply Permutation_length, NoDup_Permutation; try (apply NoDup_filter; auto). intros x. rewrite !filter_In, !c3_in_In. tauto. }
  assert (E4 := filter_split (fun g => bad_volume m (volume_in m vols g)) (filter (fun g => negb (c3_in g A)) U)). rewrite !filter_and in E4.
  rewrite (filter_ext (fun g => negb (bad_volume m (volume_in m vols g)) && negb (cell_active m g)) (fun g => negb (c3_in g A) && negb (bad_volume m (volume_in m vols g)))) by (intros g; rewrite CA; apply andb_comm).
  rewrite (filter_ext (fun g => bad_volume m (volume_in m vols g) && negb (c3_in g A)) (fun g => negb (c3_in g A) && bad_volume m (volume_in m vols g))) by (intros g; apply andb_comm).
  lia.
Qed.
Lemma bad_filled m vols g : bad_volume m (volume_in m vols g) = false <-> filled m vols g.
Proof. unfold bad_volume, filled. apply qltb_ge. Qed.
Lemma filter_nil (A : Type) (p : A -> bool) l : length (filter p l) = 0%nat <-> forall x, In x l -> p x = false.
Proof. induction l as [|a l IH]; cbn; [intuition|]. destruct (p a) eqn:E; cbn; split; try lia; [intros H; specialize (H a (or_introl eq_refl)); congruence|intros H x [<-|I]; auto; apply IH; auto|intros H; apply IH; auto]. Qed.
(** exactly which meshes are accepted: all cut grid cells are filled, and every grid cell whose mask is set is cut.
    Nothing is required of cut grid cells whose mask is not set. *)
Theorem c121_accepts_exactly_partial m vols : (length (m_cells m) <= length vols)%nat ->
  (grid_cells_fully_utilized m vols = true <->
   (forall g, is_cut m g -> filled m vols g) /\ (forall g, in_c3 (cshape m) g = true -> m_active m g = true -> is_cut m g)).
Proof.
  intros L. set (U := nodup (fun a b : c3 => match c3_eqb a b as r return c3_eqb a b = r -> {a = b} + {a <> b} with
     | true => fun e => left (proj1 (c3_eqb_eq a b) e) | false => fun e => right (fun q => eq_ind true (fun b => if b then True else False) I false (eq_trans (eq_sym (proj2 (c3_eqb_eq a b) q)) e)) end eq_refl) (map ce_grid (m_cells m))).
  set (A := filter (m_active m) (all_cells3 m)).
  assert (HU : forall g, In g U <-> is_cut m g). { intros g. unfold U. rewrite nodup_In, in_map_iff. unfold is_cut. split; intros (c & P & Q); exists c; auto. }
  assert (HA : forall g, In g A <-> in_c3 (cshape m) g = true /\ m_active m g = true) by (intros g; unfold A; rewrite filter_In; unfold all_cells3; rewrite <- in_c3_In; tauto).
  unfold grid_cells_fully_utilized. rewrite (@c121_counts m vols U A L) by (auto; try apply NoDup_nodup; apply NoDup_filter, loop3_NoDup). rewrite andb_true_iff, !Z.eqb_eq. split.
  - intros [H1 H2]. assert (B0 : forall g, In g U -> bad_volume m (volume_in m vols g) = false) by (apply filter_nil; lia). split.
    + intros g Hg. apply bad_filled, B0, HU. auto.
    + assert (Z0 : length (filter (fun g => bad_volume m (volume_in m vols g) && negb (c3_in g A)) U) = 0%nat) by (apply filter_nil; intros x I; rewrite B0; auto).
      assert (N : forall g, In g A -> negb (c3_in g U) = false) by (apply filter_nil; lia). intros g G1 G2. apply HU, c3_in_In, negb_false_iff, N, HA. auto.
  - intros [H1 H2]. assert (B0 : forall g, In g U -> bad_volume m (volume_in m vols g) = false) by (intros g Hg; apply bad_filled, H1, HU; auto). split.
    + apply filter_nil in B0. lia.
    + assert (Z0 : length (filter (fun g => bad_volume m (volume_in m vols g) && negb (c3_in g A)) U) = 0%nat) by (apply filter_nil; intros x I; rewrite B0; auto).
      assert (N : length (filter (fun g => negb (c3_in g U)) A) = 0%nat); [|lia]. apply filter_nil. intros g Hg. apply negb_false_iff, c3_in_In, HU. apply HA in Hg as [G1 G2]. auto.
Qed.
(** REFUTED: the mask of a CutCellMesh<3> is constructed with all cells set and never written, so a mesh with any uncut grid cell is reported as faulty *)
Theorem c121_uncut_refuted m vols g : (length (m_cells m) <= length vols)%nat -> (forall c, m_active m c = true) -> in_c3 (cshape m) g = true -> ~ is_cut m g ->
  grid_cells_fully_utilized m vols = false.
Proof.
  intros L AL G N. destruct (grid_cells_fully_utilized m vols) eqn:E; auto. apply (@c121_accepts_exactly_partial m vols L) in E as [_ E]. exfalso. apply N, E; auto.
Qed.
Definition one_cell (grid : c3) (vs : c3) (act : c3 -> bool) : mesh3 :=
  mkMesh (0, 0, 0)%Qc (1, 1, 1)%Qc vs [] [] act [] [] [] [mkCutCell [] 0 1 grid] [] [] [] [] [].
Example c121_uncut_ex : let m := one_cell (0, 0, 0) (3, 2, 2) (fun _ => true) in in_c3 (cshape m) (1, 0, 0) = true /\ ~ is_cut m (1, 0, 0) /\ filled m [1%Qc] (0, 0, 0) /\
  grid_cells_count m [1%Qc] = (0, 1) /\ grid_cells_fully_utilized (one_cell (0, 0, 0) (2, 2, 2) (fun _ => true)) [1%Qc] = true.
Proof.
  split; [reflexivity|]. split; [intros (c & [<-|[]] & E); discriminate|]. split; [|vm_compute; auto]. unfold filled. vm_compute. discriminate.
Qed.
(** REFUTED: "used despite not being masked" is not detected when the cell is filled *)
Theorem c121_unmasked_refuted : exists m vols g, is_cut m g /\ cell_active m g = false /\ grid_cells_count m vols = (0, 0).
Proof.
  exists (one_cell (0, 0, 0) (2, 2, 2) (fun _ => false)), [1%Qc], (0, 0, 0). split; [eexists; split; [left; reflexivity|reflexivity]|]. vm_compute. auto.
Qed.

(** ** C122: region volumes *)
(** Specification: the labels in order of first appearance; the total volume of the cells with label r *)
Definition order (R : list Z) : list Z := fold_left (fun D r => if in_dec Z.eq_dec r D then D else D ++ [r]) R [].
Definition label_volume (R : list Z) (V : list Qc) (r : Z) : Qc := lsum (fun rv => if (fst rv =? r)%Z then snd rv else 0%Qc) (combine R V).
Lemma order_fold R : forall D, NoDup D -> let D' := fold_left (fun D r => if in_dec Z.eq_dec r D then D else D ++ [r]) R D in NoDup D' /\ (forall r, In r D' <-> In r D \/ In r R).
Proof.
  induction R as [|r R IH]; intros D N; cbn [fold_left]; [split; auto; intros x; cbn; tauto|]. destruct (in_dec Z.eq_dec r D) as [I|I].
  - destruct (IH D N) as [A B]. split; auto. intros x. rewrite B. cbn. intuition. subst. auto.
  - destruct (IH (D ++ [r])) as [A B].
    + apply (Permutation_NoDup (l := r :: D)); [apply Permutation_cons_append|constructor; auto].
    + split; auto. intros x. rewrite B, in_app_iff. cbn. intuition.
Qed.
Lemma order_NoDup R : NoDup (order R). Proof. apply (order_fold R (NoDup_nil _)). Qed.
Lemma order_In R r : In r (order R) <-> In r R. Proof. destruct (order_fold R (NoDup_nil _)) as [_ H]. specialize (H r). unfold order. cbn [In] in H. tauto. Qed.
(** the implementation's map is the inverse of that list *)
Definition inverse (D : list Z) (M : list (Z * Z)) : Prop := ssorted Z.compare (keys M) /\ length M = length D /\ forall r k, map_find Z.compare r M = Some k <-> 0 <= k /\ nth_error D (Z.to_nat k) = Some r.
Lemma map_set_count (k v : Z) (m : list (Z * Z)) : map_find Z.compare k m = None -> length (map_set Z.compare k v m) = S (length m).
Proof. induction m as [|[a b] m IH]; cbn; auto. destruct (k ?= a) eqn:E; cbn; try discriminate; auto. Qed.
Lemma unindex_fold R : forall D M, NoDup D -> inverse D M -> inverse (fold_left (fun D r => if in_dec Z.eq_dec r D then D else D ++ [r]) R D) (fold_left unindex_step R M).
Proof.
  induction R as [|r R IH]; intros D M ND (S & L & F); cbn [fold_left]; [split; auto|]. unfold unindex_step at 2.
  destruct (in_dec Z.eq_dec r D) as [I|NI], (map_find Z.compare r M) as [k|] eqn:E.
  - apply IH; auto. split; auto.
  - exfalso. apply In_nth_error in I as [j Ej]. assert (Q : map_find Z.compare r M = Some (Z.of_nat j)) by (apply F; split; [lia|]; rewrite Nat2Z.id; auto). congruence.
  - exfalso. apply NI. apply F in E as [_ E]. eapply nth_error_In; eauto.
  - apply IH.
    + apply (Permutation_NoDup (l := r :: D)); [apply Permutation_cons_append|constructor; auto].
    + split; [apply (map_set_sorted Zcompare_total); auto|]. split; [rewrite map_set_count, app_length by auto; cbn; lia|].
      intros r' k. rewrite (map_find_set Zcompare_total) by auto.
      assert (NTH : forall r', 0 <= k -> (nth_error (D ++ [r]) (Z.to_nat k) = Some r' <-> nth_error D (Z.to_nat k) = Some r' \/ (k = Z.of_nat (length D) /\ r' = r))).
      { intros r1 Hk. destruct (Nat.lt_ge_cases (Z.to_nat k) (length D)) as [Lt|Ge].
        - rewrite nth_error_app1 by auto. intuition. lia.
        - rewrite nth_error_app2 by auto. assert (N0 : nth_error D (Z.to_nat k) = None) by (apply nth_error_None; auto). rewrite N0. destruct (Z.to_nat k - length D)%nat eqn:E0; cbn.
          + split; [intros Q; apply Some_inj in Q; right; split; [lia|auto]|intros [Q|[_ ->]]; [discriminate|auto]].
          + split; [destruct n; discriminate|intros [Q|[Q _]]; [discriminate|lia]]. }
      destruct (Z.compare_spec r' r) as [ -> | C | C ].
      * split; [intros Q; apply Some_inj in Q; subst k; split; [lia|]; apply NTH; [lia|]; right; split; [lia|auto]|]. intros [Hk Q]. apply NTH in Q as [Q|[Q _]]; auto; [exfalso; apply NI; eapply nth_error_In; eauto|]. f_equal. lia.
      * rewrite F. split; intros [Hk Q]; (split; [auto|]); [apply NTH; auto|]. apply NTH in Q as [Q|[_ Q]]; auto. lia.
      * rewrite F. split; intros [Hk Q]; (split; [auto|]); [apply NTH; auto|]. apply NTH in Q as [Q|[_ Q]]; auto. lia.
Qed.
Lemma unindexer_spec R : inverse (order R) (unindexer R).
Proof. apply unindex_fold; [constructor|]. split; [constructor|]. split; auto. intros r k. cbn. split; [discriminate|]. intros [_ H]. destruct (Z.to_nat k); discriminate. Qed.
Lemma addq_nth l i x j : 0 <= i < Z.of_nat (length l) -> nth j (addq l i x) 0%Qc = (nth j l 0 + (if (j =? Z.to_nat i)%nat then x else 0))%Qc.
Proof. intros H. unfold addq. rewrite nth_zput by lia. destruct (Nat.eqb_spec j (Z.to_nat i)); [subst; auto|ring]. Qed.
Lemma region_sums_spec R V : length (region_sums R V) = length (order R) /\ forall k r, nth_error (order R) k = Some r -> nth k (region_sums R V) 0%Qc = label_volume R V r.
Proof.
  destruct (unindexer_spec R) as (S & L & F). unfold region_sums, label_volume.
  assert (G : forall l s, length s = length (order R) -> (forall rv, In rv l -> In (fst rv) (order R)) ->
     let s' := fold_left (fun s '(r, v) => addq s (match map_find Z.compare r (unindexer R) with Some k => k | None => 0 end) v) l s in
     length s' = length (order R) /\ forall k r, nth_error (order R) k = Some r -> nth k s' 0%Qc = (nth k s 0 + lsum (fun rv => if (fst rv =? r)%Z then snd rv else 0) l)%Qc).
  { induction l as [|[r v] l IH]; intros s Ls H; cbn [fold_left].
    - split; auto. intros k r _. cbn. ring.
    - assert (I := H _ (or_introl eq_refl)). cbn in I. apply In_nth_error in I as [j Ej]. assert (Q : map_find Z.compare r (unindexer R) = Some (Z.of_nat j)) by (apply F; split; [lia|]; rewrite Nat2Z.id; auto).
      rewrite Q. assert (Hj : (j < length (order R))%nat) by (apply nth_error_Some; congruence). destruct (IH (addq s (Z.of_nat j) v)) as [A B]; [unfold addq; rewrite zput_length; auto|intros; apply H; cbn; auto|].
      split; auto. intros k r' E'. rewrite (B k r' E'). rewrite addq_nth by lia. cbn [lsum fst snd]. rewrite Nat2Z.id.
      assert (EQ : (k =? j)%nat = (r =? r')%Z); [|rewrite EQ; destruct (r =? r')%Z; ring]. apply eq_true_iff_eq. rewrite Nat.eqb_eq, Z.eqb_eq. split; [intros ->; congruence|intros ->].
      apply (proj1 (NoDup_nth_error (order R)) (order_NoDup R)); [apply nth_error_Some; congruence|congruence]. }
  destruct (G (combine R V) (repeat 0%Qc (length (unindexer R)))) as [A B].
  - rewrite repeat_length. auto.
  - intros [r v] I. apply order_In. apply in_combine_l in I. auto.
  - split; auto. intros k r E. rewrite (B k r E). assert (Z0 : nth k (repeat 0%Qc (length (unindexer R))) 0%Qc = 0%Qc). { generalize (length (unindexer R)) as n. clear. revert k. induction k; intros [|n]; cbn; auto. }
    rewrite Z0. ring.
Qed.
(** what region_volumes returns: key k carries the volume of the label at position D[k] of D, where D lists the labels in order of first appearance *)
Theorem c122_region_volumes_partial R V : (forall r, In r R -> 0 <= r < Z.of_nat (length (order R))) ->
  exists vs, region_volumes R V = Some vs /\ forall k a r, nth_error (order R) k = Some a -> nth_error (order R) (Z.to_nat a) = Some r -> map_find Z.compare (Z.of_nat k) vs = Some (label_volume R V r).
Proof.
  intros H. destruct (unindexer_spec R) as (S & L & F), (region_sums_spec R V) as [LS SS]. unfold region_volumes. set (s := region_sums R V) in *.
  assert (G : forall l vs, NoDup (map snd l) -> (forall a b, In (a, b) l -> 0 <= a < Z.of_nat (length s)) -> ssorted Z.compare (keys vs) ->
    exists vs', fold_left (fun acc '(a, b) => match acc with None => None | Some vs => if (0 <=? a) && (a <? Z.of_nat (length s)) then Some (map_set Z.compare b (nth (Z.to_nat a) s 0%Qc) vs) else None end) l (Some vs) = Some vs' /\
      (forall a b, In (a, b) l -> map_find Z.compare b vs' = Some (nth (Z.to_nat a) s 0%Qc)) /\ (forall b, ~ In b (map snd l) -> map_find Z.compare b vs' = map_find Z.compare b vs)).
  { induction l as [|[a b] l IH]; intros vs N B SV; cbn [fold_left].
    - exists vs. split; auto. split; [intros a b []|auto].
    - cbn [map snd] in N. inversion N as [|? ? N1 N2]; subst. assert (Ba := B a b (or_introl eq_refl)). replace ((0 <=? a) && (a <? Z.of_nat (length s))) with true by (symmetry; apply andb_true_iff; rewrite Z.leb_le, Z.ltb_lt; lia).
      destruct (IH (map_set Z.compare b (nth (Z.to_nat a) s 0%Qc) vs) N2) as (vs' & E & P & Q); [intros a' b' I; apply (B a' b'); cbn; auto|apply (map_set_sorted Zcompare_total); auto|].
      exists vs'. split; auto. split.
      + intros a' b' [I|I]; [|auto]. apply pair_equal_spec in I as [<- <-]. rewrite (Q b N1), (map_find_set Zcompare_total), Z.compare_refl by auto. auto.
      + intros b' NI. cbn in NI. rewrite (Q b') by tauto. rewrite (map_find_set Zcompare_total) by auto. destruct (Z.compare_spec b' b); auto. subst. tauto. }
  assert (KM : forall a b, In (a, b) (unindexer R) <-> 0 <= b /\ nth_error (order R) (Z.to_nat b) = Some a) by (intros a b; rewrite <- F; symmetry; apply (map_find_Some Zcompare_total); auto).
  destruct (G (unindexer R) []) as (vs & E & P & _).
  - assert (NK : NoDup (keys (unindexer R))) by (apply (ssorted_NoDup Zcompare_total); auto). unfold keys in NK. revert NK KM. generalize (unindexer R) as U. clear. intros U NK KM.
    assert (INJ : forall a a' b, In (a, b) U -> In (a', b) U -> a = a') by (intros a a' b I J; apply KM in I as [_ I]; apply KM in J as [_ J]; congruence). clear KM.
    induction U as [|[a b] U IH]; cbn in *; constructor; inversion NK; subst.
    + intros I. apply in_map_iff in I as ((a' & b') & Eb & I). cbn in Eb. subst b'. assert (a = a') by (eapply INJ; eauto). subst. apply H1. apply in_map_iff. exists (a', b). auto.
    + apply IH; auto. intros; eapply INJ; eauto.
  - intros a b I. apply KM in I as [_ I]. rewrite LS. apply H, order_In. eapply nth_error_In; eauto.
  - constructor.
  - exists vs. split; auto. intros k a r Ek Er. assert (Ha : 0 <= a) by (apply H, order_In; eapply nth_error_In; eauto). rewrite (P a (Z.of_nat k)) by (apply KM; split; [lia|]; rewrite Nat2Z.id; auto). f_equal. apply SS. auto.
Qed.
(** so the result is right when the labels appear in an order that is its own inverse, in particular in increasing order 0, 1, 2, ... *)
Corollary c122_involution_partial R V : (forall k a, nth_error (order R) k = Some a -> 0 <= a /\ nth_error (order R) (Z.to_nat a) = Some (Z.of_nat k)) ->
  exists vs, region_volumes R V = Some vs /\ forall r, In r R -> map_find Z.compare r vs = Some (label_volume R V r).
Proof.
  intros H. assert (B : forall r, In r R -> 0 <= r < Z.of_nat (length (order R))).
  { intros r I. apply order_In, In_nth_error in I as [k E]. destruct (H k r E) as [A Q]. assert (Z.to_nat r < length (order R))%nat by (apply nth_error_Some; congruence). lia. }
  destruct (c122_region_volumes_partial R V B) as (vs & E & P). exists vs. split; auto. intros r I. assert (Br := B r I). destruct (nth_error (order R) (Z.to_nat r)) as [a|] eqn:Ea; [|apply nth_error_None in Ea; lia].
  destruct (H _ _ Ea) as [A Q]. rewrite Z2Nat.id in Q by lia. assert (X := P _ _ _ Ea Q). rewrite Z2Nat.id in X by lia. auto.
Qed.
Example c122_involution_ex : let R := [0; 1; 0; 2]%Z in order R = [0; 1; 2] /\ match region_volumes R [1; Q2Qc 5; 1; Q2Qc 7]%Qc with Some vs => map (fun e => (fst e, this (snd e))) vs = [(0, (2 # 1)%Q); (1, (5 # 1)%Q); (2, (7 # 1)%Q)]%Z | None => False end.
Proof. vm_compute. auto. Qed.
(** REFUTED: with labels first appearing as 1, 2, 0 every volume is reported for the wrong region *)
Theorem c122_region_volumes_refuted : exists R V vs, region_volumes R V = Some vs /\ (forall r, In r R -> 0 <= r < 3) /\ forall r, In r R -> map_find Z.compare r vs <> Some (label_volume R V r).
Proof.
  exists [1; 2; 0]%Z, [1; Q2Qc 2; Q2Qc 3]%Qc. eexists. split; [vm_compute; reflexivity|]. split; [cbn; intuition lia|]. intros r [<-|[<-|[<-|[]]]] E; apply Some_inj, (f_equal this) in E; vm_compute in E; discriminate.
Qed.
(** REFUTED: a mesh whose cells all have the label 1 makes it read outside its vector *)
Theorem c122_undefined_refuted R V r : In r R -> (r < 0 \/ Z.of_nat (length (order R)) <= r) -> region_volumes R V = None.
Proof.
  intros I H. destruct (unindexer_spec R) as (S & L & F), (region_sums_spec R V) as [LS _]. unfold region_volumes. set (s := region_sums R V) in *.
  apply order_In, In_nth_error in I as [k Ek]. assert (IU : In (r, Z.of_nat k) (unindexer R)) by (apply (map_find_Some Zcompare_total); auto; apply F; split; [lia|]; rewrite Nat2Z.id; auto).
  assert (NN : forall l, fold_left (fun acc '(a, b) => match acc with None => None | Some vs => if (0 <=? a) && (a <? Z.of_nat (length s)) then Some (map_set Z.compare b (nth (Z.to_nat a) s 0%Qc) vs) else None end) l (None : option (list (Z * Qc))) = None) by (induction l as [|[? ?] l IH]; cbn; auto).
  clearbody s. clear S L F. generalize ([] : list (Z * Qc)) as vs. induction (unindexer R) as [|[a b] U IH]; [destruct IU|]. intros vs. cbn [fold_left]. destruct IU as [E|IU].
  - apply pair_equal_spec in E as [-> _]. replace ((0 <=? r) && (r <? Z.of_nat (length s))) with false by (symmetry; apply andb_false_iff; rewrite Z.leb_gt, Z.ltb_ge; lia). apply NN.
  - destruct ((0 <=? a) && (a <? Z.of_nat (length s))); [|apply NN]. apply IH; auto.
Qed.
Example c122_undefined_ex : region_volumes [1; 1] [1; 1]%Qc = None. Proof. reflexivity. Qed.

(** ** C123: volume_check *)
(** Specification: the mesh's volume of region r agrees with the input's up to 0.1% of the box *)
Definition agrees (total : Qc) (IMV : list Qc) (e : Z * Qc) : Prop := (qabs ((nth (Z.to_nat (fst e)) IMV 0 - snd e) / total) <= tol3)%Qc.
Lemma shift_far total x v : total <> 0%Qc -> far total x v = false -> far total (x + total)%Qc v = true.
Proof.
  intros T. unfold far. rewrite qltb_ge, qltb_lt. intros H. replace ((x + total - v) / total)%Qc with ((x - v) / total + 1)%Qc by (field; auto).
  assert (P : (0 < 1 - tol3 - tol3)%Qc) by reflexivity. set (y := ((x - v) / total)%Qc) in *. clearbody y. generalize tol3 as t, P, H. clear. intros t P H. apply qabs_le in H as [H1 H2].
  destruct (qabs_cases (y + 1)%Qc) as [[Q ->]|[Q ->]]; qc_lra.
Qed.
Lemma far_agrees total IMV r v x : nth_error IMV (Z.to_nat r) = Some x -> (far total x v = false <-> agrees total IMV (r, v)).
Proof. intros E. unfold far, agrees. cbn [fst snd]. rewrite (nth_error_nth _ _ _ E). apply qltb_ge. Qed.
Lemma volume_used total vols IMV : volume_loop total vols IMV true = Some true <-> (forall e, In e vols -> 0 <= fst e -> fst e < Z.of_nat (length IMV) /\ ~ agrees total IMV e).
Proof.
  induction vols as [|[r v] t IH]; cbn [volume_loop]; [split; auto; intros _ e []|].
  assert (CONS : forall P : Z * Qc -> Prop, (forall e, In e ((r, v) :: t) -> P e) <-> P (r, v) /\ forall e, In e t -> P e) by (intros P; split; [intros H; split; intros; apply H; cbn; auto|intros [A B] e [<-|I]; auto]).
  rewrite (CONS (fun e => 0 <= fst e -> fst e < Z.of_nat (length IMV) /\ ~ agrees total IMV e)). cbn [fst]. destruct (Z.ltb_spec r 0); [rewrite IH; intuition; lia|].
  destruct (Z.ltb_spec (Z.of_nat (length IMV)) r); [split; [discriminate|intros [A _]; lia]|].
  destruct (nth_error IMV (Z.to_nat r)) as [x|] eqn:E; [|apply nth_error_None in E; split; [discriminate|intros [A _]; lia]].
  assert (Z.to_nat r < length IMV)%nat by (apply nth_error_Some; congruence). assert (Q := far_agrees total IMV r v E). rewrite andb_false_r. destruct (far total x v).
  - rewrite IH. assert (~ agrees total IMV (r, v)) by (intros A; apply Q in A; discriminate). intuition lia.
  - split; [discriminate|]. intros [A _]. exfalso. apply A; auto. apply Q. auto.
Qed.
Theorem c123_accepts_exactly_partial total vols IMV : total <> 0%Qc -> NoDup (map fst vols) ->
  (volume_loop total vols IMV false = Some true <->
   (forall e, In e vols -> 0 <= fst e -> fst e < Z.of_nat (length IMV)) /\
   (forall e e', In e vols -> In e' vols -> 0 <= fst e -> 0 <= fst e' -> agrees total IMV e -> agrees total IMV e' -> e = e')).
Proof.
  intros T. induction vols as [|[r v] t IH]; intros ND; cbn [volume_loop]; [split; auto; intros _; split; intros e; [|intros e']; intros []|].
  cbn [map fst] in ND. inversion ND as [|? ? N1 N2]; subst. specialize (IH N2). destruct (Z.ltb_spec r 0) as [Lr|Lr].
  - rewrite IH. split; intros [A B]; split.
    + intros e [<-|I] He; [cbn in He; lia|auto].
    + intros e e' [<-|I] [<-|I'] He He'; cbn in He, He'; try lia; auto.
    + intros e I; apply A; cbn; auto.
    + intros e e' I I'; apply B; cbn; auto.
  - destruct (Z.ltb_spec (Z.of_nat (length IMV)) r); [split; [discriminate|intros [A _]; specialize (A _ (or_introl eq_refl)); cbn in A; lia]|].
    destruct (nth_error IMV (Z.to_nat r)) as [x|] eqn:E; [|apply nth_error_None in E; split; [discriminate|intros [A _]; specialize (A _ (or_introl eq_refl)); cbn in A; lia]].
    assert (Lx : (Z.to_nat r < length IMV)%nat) by (apply nth_error_Some; congruence). assert (Q := far_agrees total IMV r v E). destruct (far total x v) eqn:EF; cbn [negb andb].
    + assert (NA : ~ agrees total IMV (r, v)) by (intros A; apply Q in A; discriminate). rewrite IH. split; intros [A B]; split.
      * intros e [<-|I] He; [cbn in *; lia|auto].
      * intros e e' [<-|I] [<-|I'] He He' G G'; auto; contradiction.
      * intros e I; apply A; cbn; auto.
      * intros e e' I I'; apply B; cbn; auto.
    + assert (AG : agrees total IMV (r, v)) by (apply Q; auto). rewrite (shift_far x v T EF), volume_used. unfold addq at 1. rewrite zput_length.
      assert (SAME : forall e, In e t -> 0 <= fst e -> (agrees total (addq IMV r total) e <-> agrees total IMV e)).
      { intros e I He. unfold agrees. rewrite addq_nth by lia. destruct (Nat.eqb_spec (Z.to_nat (fst e)) (Z.to_nat r)) as [Eq|]; [|replace (nth (Z.to_nat (fst e)) IMV 0 + 0)%Qc with (nth (Z.to_nat (fst e)) IMV 0)%Qc by ring; tauto].
        exfalso. apply N1. assert (fst e = r) by lia. subst r. apply in_map. auto. }
      split.
      * intros A. split.
        -- intros e [<-|I] He; [cbn; lia|]. apply A; auto.
        -- intros e e' [<-|I] [<-|I'] He He' G G'; auto; exfalso; [apply (A e' I' He'); apply SAME; auto|apply (A e I He); apply SAME; auto|apply (A e I He); apply SAME; auto].
      * intros [A B] e I He. split; [apply A; cbn; auto|]. intros G. apply (proj1 (SAME e I He)) in G. assert (X := B e (r, v) (or_intror I) (or_introl eq_refl) He Lr G AG). subst e. apply N1. apply in_map_iff. exists (r, v). auto.
Qed.
(** REFUTED: volumes that agree exactly for two regions are rejected ... *)
Corollary c123_exact_refuted total vols IMV e e' : total <> 0%Qc -> NoDup (map fst vols) -> In e vols -> In e' vols -> e <> e' -> 0 <= fst e -> 0 <= fst e' ->
  nth_error IMV (Z.to_nat (fst e)) = Some (snd e) -> nth_error IMV (Z.to_nat (fst e')) = Some (snd e') -> volume_loop total vols IMV false <> Some true.
Proof.
  intros T ND I I' N H H' E E' A. apply c123_accepts_exactly_partial in A as [_ A]; auto. apply N. assert (AG : forall e, nth_error IMV (Z.to_nat (fst e)) = Some (snd e) -> agrees total IMV e).
  { intros [r v] Q. unfold agrees. cbn [fst snd] in *. rewrite (nth_error_nth _ _ _ Q). replace ((v - v) / total)%Qc with 0%Qc by (field; auto). vm_compute. discriminate. }
  apply A; auto.
Qed.
(** ... and volumes that are all wrong are accepted *)
Corollary c123_wrong_refuted total vols IMV : total <> 0%Qc -> NoDup (map fst vols) -> (forall e, In e vols -> 0 <= fst e < Z.of_nat (length IMV) /\ ~ agrees total IMV e) -> volume_loop total vols IMV false = Some true.
Proof. intros T ND H. apply c123_accepts_exactly_partial; auto. split; [intros e I _; apply H; auto|]. intros e e' I _ _ _ G. exfalso. apply (H e I). auto. Qed.
Definition two_regions : mesh3 := mkMesh (0, 0, 0)%Qc (1, 1, 1)%Qc (3, 2, 2) [] [] (fun _ => true) [] [] [] [mkCutCell [] 0 0 (0, 0, 0); mkCutCell [] 1 1 (1, 0, 0)] [] [] [] [] [].
Example c123_ex : volume_check two_regions [1; 1]%Qc [1; 1]%Qc = Some false /\ volume_check two_regions [1; 1]%Qc [Z2Qc 5; Z2Qc 9] = Some true /\ volume_check two_regions [1; 1]%Qc [1%Qc] = None.
Proof. vm_compute. auto. Qed.

(** brep_region_volumes: every triangle adds its signed volume to one region and subtracts it from the other *)
Theorem c123_brep_volumes ts : ts <> [] -> (forall v a b, In (v, (a, b)) ts -> 0 <= a /\ 0 <= b) -> exists s, brep_region_volumes ts = Some s /\
  (forall v a b, In (v, (a, b)) ts -> a < Z.of_nat (length s) /\ b < Z.of_nat (length s)) /\
  forall k, 0 <= k < Z.of_nat (length s) -> nth (Z.to_nat k) s 0%Qc = (lsum (fun '(v, (a, b)) => (if (b =? k)%Z then v else 0) - (if (a =? k)%Z then v else 0)) ts / Z2Qc 6)%Qc.
Proof.
  intros NE H. unfold brep_region_volumes. destruct ts as [|[v0 [a0 b0]] t0]; [congruence|]. set (ts := (v0, (a0, b0)) :: t0) in *.
  set (K := fold_left (fun k '(_, (a, b)) => Z.max (Z.max k a) b) ts (Z.max a0 b0) + 1).
  assert (KM : forall l k0, k0 <= fold_left (fun k '(_, (a, b)) => Z.max (Z.max k a) b) l k0 /\ forall v a b, In (v : Qc, (a, b)) l -> Z.max a b <= fold_left (fun k '(_, (a, b)) => Z.max (Z.max k a) b) l k0).
  { induction l as [|[v [a b]] l IH]; intros k0; cbn [fold_left]; [split; [lia|intros v a b []]|]. destruct (IH (Z.max (Z.max k0 a) b)) as [A B]. split; [lia|]. intros v' a' b' [I|I]; [|eauto]. apply pair_equal_spec in I as [_ I]. apply pair_equal_spec in I as [<- <-]. lia. }
  destruct (KM ts (Z.max a0 b0)) as [KM1 KM2]. assert (H0 := H v0 a0 b0 (or_introl eq_refl)).
  assert (KB : forall v a b, In (v, (a, b)) ts -> a < K /\ b < K) by (intros v a b I; specialize (KM2 v a b I); unfold K; lia).
  destruct (Z.ltb_spec K 0); [unfold K in *; lia|].
  assert (G : forall l s, (forall v a b, In (v, (a, b)) l -> 0 <= a < K /\ 0 <= b < K) -> Z.of_nat (length s) = K -> exists s', fold_left brep_step l (Some s) = Some s' /\ Z.of_nat (length s') = K /\
     forall k, 0 <= k < K -> nth (Z.to_nat k) s' 0%Qc = (nth (Z.to_nat k) s 0 + lsum (fun '(v, (a, b)) => (if (b =? k)%Z then v else 0) - (if (a =? k)%Z then v else 0)) l)%Qc).
  { induction l as [|[v [a b]] l IH]; intros s B L; cbn [fold_left].
    - exists s. split; auto. split; auto. intros k _. cbn. ring.
    - destruct (B v a b (or_introl eq_refl)) as [Ba Bb]. unfold brep_step at 2. rewrite L. replace ((0 <=? a) && (a <? K) && ((0 <=? b) && (b <? K))) with true by (symmetry; rewrite !andb_true_iff, !Z.leb_le, !Z.ltb_lt; lia).
      destruct (IH (addq (addq s a (- v)%Qc) b v)) as (s' & E & L' & N'); [intros; eapply B; cbn; eauto|unfold addq; rewrite !zput_length; auto|]. exists s'. split; auto. split; auto. intros k Hk. rewrite N' by auto.
      rewrite !addq_nth by (try lia; unfold addq; rewrite zput_length; lia). cbn [lsum]. assert (EQ : forall c, 0 <= c -> (Z.to_nat k =? Z.to_nat c)%nat = (c =? k)) by (intros c Hc; destruct (Nat.eqb_spec (Z.to_nat k) (Z.to_nat c)), (Z.eqb_spec c k); auto; lia).
      rewrite !EQ by lia. destruct (a =? k), (b =? k); ring. }
  destruct (G ts (repeat 0%Qc (Z.to_nat K))) as (s & E & L & N); [intros v a b I; specialize (KB v a b I); specialize (H v a b I); lia|rewrite repeat_length; lia|].
  exists (map (fun x => x / Z2Qc 6)%Qc s). rewrite E. split; [reflexivity|]. rewrite map_length, L. split; auto.
  intros k Hk. transitivity (nth (Z.to_nat k) (map (fun x => x / Z2Qc 6)%Qc s) (0 / Z2Qc 6)%Qc); [f_equal; unfold Qcdiv; ring|]. rewrite (map_nth (fun x => x / Z2Qc 6)%Qc), N by auto. f_equal. assert (Z0 : nth (Z.to_nat k) (repeat 0%Qc (Z.to_nat K)) 0%Qc = 0%Qc). { generalize (Z.to_nat K) as n, (Z.to_nat k) as j. induction n; intros [|j]; cbn; auto. }
  rewrite Z0. ring.
Qed.
Example c123_brep_ex : match brep_region_volumes [(Z2Qc 6, (0, 1)); (Z2Qc 12, (1, 0))] with Some s => map this s = [1; -1]%Q | None => False end.
Proof. vm_compute. auto. Qed.
