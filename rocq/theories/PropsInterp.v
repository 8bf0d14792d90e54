(** Properties C43, C44, C69-C71: interpolation operators (exact arithmetic). *)
From Verif Require Import Base Num CoordMask Vertex VertexSpec VertexProofs Grid SmallestEdge AdaptiveGrid Mesh ExteriorGrid ExteriorProofs PropsExterior Sparse Mesh2 PropsMesh2 Interp.
Require Import Permutation.
Local Open Scope Qc_scope.

(** ** C43: trilinear_matrix *)
(** b . x for coordinate lists *)
Fixpoint ldot (b x : list Qc) : Qc := match b, x with u :: b', v :: x' => u * v + ldot b' x' | _, _ => 0 end.
(** all 2^D corners of the cell of vertex v are grid vertices *)
Definition interior (vs : list Z) (v : vertex) : Prop := Forall2 (fun n x => 0 <= x /\ x + 1 < n)%Z vs (v_coord v).
(** ... or v lies on the last plane of an axis, with a zero fraction there *)
Definition in_grid (vs : list Z) (v : vertex) : Prop :=
  length (v_quot v) = length vs /\ forall i n, nth_error vs i = Some n -> exists x q, nth_error (v_coord v) i = Some x /\ nth_error (v_quot v) i = Some q /\ (0 <= x < n)%Z /\ ((x + 1 < n)%Z \/ q = 0).

Lemma corners_scale c q w : corners c q w = map (fun '(a, u) => (a, w * u)) (corners c q 1).
Proof.
  revert q w. induction c as [|x c IH]; intros [|y q] w; cbn [corners map]; try (f_equal; f_equal; ring).
  cbn [flat_map]. rewrite !app_nil_r, map_app, !map_map. f_equal.
  - rewrite (IH q (w * _)), (IH q (1 * _)), !map_map. apply map_ext. intros [a u]. f_equal. ring.
  - rewrite (IH q (w * _)), (IH q (1 * _)), !map_map. apply map_ext. intros [a u]. f_equal. ring.
Qed.
Lemma corners_step x y c q (f : coord * Qc -> Qc) : lsum f (corners (x :: c) (y :: q) 1) =
  lsum (fun '(a, u) => f (x :: a, (1 - y) * u)) (corners c q 1) + lsum (fun '(a, u) => f ((x + 1)%Z :: a, y * u)) (corners c q 1).
Proof.
  cbn [corners flat_map]. rewrite app_nil_r, lsum_app, !lsum_map, (corners_scale c q (1 * _)), (corners_scale c q (1 * (if (1 =? 0)%Z then _ else _))), !lsum_map. f_equal; apply lsum_ext; intros [a u] _; cbn [Z.eqb]; rewrite ?Z.add_0_r; f_equal; f_equal; ring.
Qed.
Lemma corners_affine c q k b : length c = length q -> lsum (fun '(a, u) => u * (k + ldot b (map Z2Qc a))) (corners c q 1) = k + ldot b (zipwith (fun c q => Z2Qc c + q) c q).
Proof.
  revert q k b. induction c as [|x c IH]; intros [|y q] k b L; try discriminate.
  - cbn. ring.
  - rewrite corners_step. destruct b as [|b0 b].
    + cbn [ldot]. assert (I := IH q k [] ltac:(auto)). cbn [ldot] in I.
      rewrite (@lsum_ext _ _ (fun p => (1 - y) * (let '(a, u) := p in u * (k + 0)))) by (intros [a u] _; cbn; ring). rewrite lsum_scale, I.
      rewrite (@lsum_ext _ _ (fun p => y * (let '(a, u) := p in u * (k + 0)))) by (intros [a u] _; cbn; ring). rewrite lsum_scale, I. ring.
    + cbn [map ldot zipwith].
      rewrite (@lsum_ext _ _ (fun p => (1 - y) * (let '(a, u) := p in u * ((k + b0 * Z2Qc x) + ldot b (map Z2Qc a))))) by (intros [a u] _; cbn; ring). rewrite lsum_scale, IH by auto.
      rewrite (@lsum_ext _ (fun '(a, u) => y * u * (k + _)) (fun p => y * (let '(a, u) := p in u * ((k + b0 * Z2Qc (x + 1)) + ldot b (map Z2Qc a))))) by (intros [a u] _; cbn; ring). rewrite lsum_scale, IH by auto.
      rewrite Z2Qc_plus, Z2Qc_1. ring.
Qed.
Lemma corners_in_shape vs c q : length q = length vs -> (forall i n, nth_error vs i = Some n -> exists x y, nth_error c i = Some x /\ nth_error q i = Some y /\ (0 <= x < n)%Z /\ ((x + 1 < n)%Z \/ y = 0)) -> length c = length vs ->
  forall a u, In (a, u) (corners c q 1) -> in_shape vs a = true \/ u = 0.
Proof.
  revert c q. induction vs as [|n vs IH]; intros [|x c] [|y q] Lq H Lc; try discriminate.
  - intros a u [E|[]]. left. injection E as <- _. auto.
  - intros a u I. cbn [corners flat_map] in I. rewrite app_nil_r in I. destruct (H 0%nat n eq_refl) as (x0 & y0 & E1 & E2 & R & D). cbn in E1, E2. injection E1 as <-. injection E2 as <-.
    assert (IH' := IH c q ltac:(auto) (fun i m E => H (S i) m E) ltac:(auto)).
    apply in_app_iff in I as [I|I]; apply in_map_iff in I as ([a' u'] & E & I); apply pair_equal_spec in E as [<- <-]; rewrite corners_scale in I; apply in_map_iff in I as ([a'' u''] & E & I); apply pair_equal_spec in E as [-> <-].
    + destruct (IH' _ _ I) as [A| ->]; [left; cbn [in_shape]; rewrite A; lia|right; ring].
    + destruct (IH' _ _ I) as [A| ->]; [|right; ring]. destruct D as [D| ->]; [left; cbn [in_shape]; rewrite A; lia|right; cbn; ring].
Qed.
Lemma corners_nonneg c q : Forall (fun q => 0 <= q /\ q < 1) q -> forall a u, In (a, u) (corners c q 1) -> 0 <= u.
Proof.
  revert q. induction c as [|x c IH]; intros [|y q] F a u I; try (destruct I as [E|[]]; injection E as _ <-; discriminate).
  inversion F as [|? ? [F1 F2] F3]; subst. cbn [corners flat_map] in I. rewrite app_nil_r in I.
  apply in_app_iff in I as [I|I]; apply in_map_iff in I as ([a' u'] & E & I); apply pair_equal_spec in E as [<- <-]; rewrite corners_scale in I; apply in_map_iff in I as ([a'' u''] & E & I); apply pair_equal_spec in E as [-> <-].
  - assert (U := IH _ F3 _ _ I). cbn. replace (1 * (1 - y) * u'') with ((1 - y) * u'') by ring. replace 0 with (0 * u'') by ring. apply Qcmult_le_compat_r; auto. qc_lra.
  - assert (U := IH _ F3 _ _ I). cbn. replace (1 * y * u'') with (y * u'') by ring. replace 0 with (0 * u'') by ring. apply Qcmult_le_compat_r; auto.
Qed.
(** the row of a cut vertex *)
Lemma trilinear_row vs V idx v x : nth_error V idx = Some v ->
  (0 <= shape_size vs)%Z -> mulv (trilinear vs V) x (Z.of_nat idx + shape_size vs) = lsum (fun '(a, u) => u * x (ravel vs a)) (corners (v_coord v) (v_quot v) 1).
Proof.
  intros H P. unfold trilinear. rewrite mulv_app. replace (mulv (map _ _) _ _) with 0.
  2:{ symmetry. unfold mulv. rewrite lsum_map. apply lsum_0. intros a I. apply zseq_in in I. unfold t_row. cbn. rewrite (proj2 (Z.eqb_neq _ _)) by lia. auto. }
  rewrite mulv_flat, (@lsum_single _ _ _ (Z.of_nat idx, v)).
  - unfold mulv. rewrite lsum_map. rewrite Qcplus_0_l. apply lsum_ext. intros [a u] _. unfold t_row, t_col, t_val. cbn. rewrite Z.eqb_refl. auto.
  - apply enum_NoDup.
  - apply enum_In. split; [lia|]. rewrite Nat2Z.id. auto.
  - intros [i w] I N. apply enum_In in I as [I1 I2]. unfold mulv. rewrite lsum_map. apply lsum_0. intros [a u] _. unfold t_row. cbn. rewrite (proj2 (Z.eqb_neq _ _)); auto.
    intros E. apply N. assert (i = Z.of_nat idx) by lia. subst i. rewrite Nat2Z.id in I2. congruence.
Qed.
Lemma in_grid_len vs v : in_grid vs v -> length (v_coord v) = length (v_quot v) -> length (v_coord v) = length vs.
Proof. intros [L _] E. congruence. Qed.
(** rows of grid vertices: the identity *)
Theorem c43_grid_rows vs V x i : (0 <= i < shape_size vs)%Z -> mulv (trilinear vs V) x i = x i.
Proof.
  intros H. unfold trilinear. rewrite mulv_app, mulv_flat. rewrite (@lsum_0 _ _ (enum V)).
  - unfold mulv. rewrite lsum_map. rewrite (@lsum_single _ _ _ i); [unfold t_row, t_col, t_val; cbn; rewrite Z.eqb_refl; ring|apply zseq_nodup|apply zseq_in; auto|].
    intros a _ N. unfold t_row. cbn. rewrite (proj2 (Z.eqb_neq _ _)); auto.
  - intros [j v] I. apply enum_In in I as [I _]. unfold mulv. rewrite lsum_map. apply lsum_0. intros [a u] _. unfold t_row. cbn. rewrite (proj2 (Z.eqb_neq _ _)); auto. lia.
Qed.
(** rows of cut vertices reproduce every affine function of the grid vertices: k = 1, b = 0 is the sum of the weights, k = 0, b a basis vector a coordinate *)
Theorem c43_affine vs V idx v k b : nth_error V idx = Some v -> v_wf (length vs) v -> in_grid vs v -> (0 <= shape_size vs)%Z ->
  mulv (trilinear vs V) (fun c => k + ldot b (map Z2Qc (unravel vs c))) (Z.of_nat idx + shape_size vs) = k + ldot b (pos v).
Proof.
  intros H (W1 & W2 & _) [G1 G2] P. rewrite (trilinear_row _ _ _ _ _ H P). unfold pos. rewrite <- corners_affine by congruence. apply lsum_ext. intros [a u] I.
  destruct (corners_in_shape _ _ _ G1 G2 W1 _ _ I) as [S| ->]; [rewrite unravel_ravel by auto; auto|ring].
Qed.
(** the weights of every row are nonnegative and sum to 1, so interpolated values stay within the range of the data *)
Theorem c43_bounds vs V idx v x lo hi : nth_error V idx = Some v -> v_wf (length vs) v -> normalised v -> in_grid vs v -> (0 <= shape_size vs)%Z ->
  (forall c, (0 <= c < shape_size vs)%Z -> lo <= x c /\ x c <= hi) ->
  lo <= mulv (trilinear vs V) x (Z.of_nat idx + shape_size vs) /\ mulv (trilinear vs V) x (Z.of_nat idx + shape_size vs) <= hi.
Proof.
  intros H (W1 & W2 & _) N [G1 G2] P B. rewrite (trilinear_row _ _ _ _ _ H P).
  assert (S := corners_affine (v_coord v) (v_quot v) 1 [] ltac:(congruence)). cbn [ldot] in S.
  assert (E : forall k, k = lsum (fun '(a, u) => u * k) (corners (v_coord v) (v_quot v) 1)).
  { intros k. rewrite (@lsum_ext _ _ (fun p => k * (let '(a, u) := p in u * (1 + 0)))) by (intros [a u] _; ring). rewrite lsum_scale. transitivity (k * (1 + 0)); [ring|]. f_equal. symmetry. exact S. }
  assert (M : forall f g : coord * Qc -> Qc, forall l, (forall a, In a l -> f a <= g a) -> lsum f l <= lsum g l).
  { intros f g l. induction l as [|a l IH]; intros F; cbn; [apply Qcle_refl|]. apply Qcplus_le_compat; [apply F; cbn; auto|apply IH; intros; apply F; cbn; auto]. }
  assert (C : forall a u, In (a, u) (corners (v_coord v) (v_quot v) 1) -> u * lo <= u * x (ravel vs a) /\ u * x (ravel vs a) <= u * hi).
  { intros a u I. destruct (corners_in_shape _ _ _ G1 G2 W1 _ _ I) as [Sh| ->]; [|split; rewrite !Qcmult_0_l; apply Qcle_refl].
    assert (U := corners_nonneg _ _ N _ _ I). destruct (B _ (ravel_range _ _ Sh)). rewrite !(Qcmult_comm u). split; apply Qcmult_le_compat_r; auto. }
  split; [rewrite (E lo) at 1|rewrite (E hi) at 1]; apply M; intros [a u] I; apply C; auto.
Qed.
Theorem c43_nonnegative vs V : Forall normalised V -> forall r c, 0 <= coeff (trilinear vs V) r c.
Proof.
  intros F r c. unfold coeff. apply lsum_nonneg. intros [[r' c'] w] I. destruct (_ && _)%bool; [|apply Qcle_refl]. unfold t_val. cbn. unfold trilinear in I. apply in_app_iff in I as [I|I].
  - apply in_map_iff in I as (i & E & _). injection E as _ _ <-. discriminate.
  - apply in_flat_map in I as ([i v] & I1 & I2). apply in_map_iff in I2 as ([a u] & E & I2). assert (X := f_equal snd E). cbn in X. subst u. apply enum_In in I1 as [_ I1]. apply nth_error_In in I1. rewrite Forall_forall in F. eapply corners_nonneg; [apply (F _ I1)|eauto].
Qed.
(** every entry is inside the matrix when all corners are grid vertices ... *)
Theorem c43_range_partial vs V : (forall v, In v V -> v_wf (length vs) v /\ interior vs v) ->
  forall r c w, In (r, c, w) (trilinear vs V) -> (0 <= r < shape_size vs + Z.of_nat (length V))%Z /\ (0 <= c < shape_size vs)%Z.
Proof.
  intros F r c w I. unfold trilinear in I. apply in_app_iff in I as [I|I].
  - apply in_map_iff in I as (i & E & I). injection E as -> -> _. apply zseq_in in I. lia.
  - apply in_flat_map in I as ([i v] & I1 & I2). apply in_map_iff in I2 as ([a u] & E & I2). apply enum_In in I1 as [I0 I1]. assert (HV := nth_error_In _ _ I1). destruct (F v HV) as [(W1 & W2 & _) IN].
    assert (E1 := f_equal (fun t => fst (fst t)) E). assert (E2 := f_equal (fun t => snd (fst t)) E). cbn in E1, E2.
    assert (Sh : in_shape vs a = true).
    { unfold interior in IN. clear - IN I2 W1 W2. revert IN I2 W1 W2. generalize (v_coord v), (v_quot v), 1. intros cc qq ww IN. revert qq ww a u. induction IN as [|n x vs cc [H1 H2] IN IH]; intros [|y qq] ww a u I W1 W2; try discriminate.
      - destruct I as [E|[]]. injection E as <- _. auto.
      - cbn [corners flat_map] in I. rewrite app_nil_r in I. apply in_app_iff in I as [I|I]; apply in_map_iff in I as ([a' u'] & E & I); apply pair_equal_spec in E as [<- _]; cbn [in_shape]; rewrite (IH _ _ _ _ I) by auto; lia. }
    assert (R := ravel_range _ _ Sh). assert (Z.to_nat i < length V)%nat by (apply nth_error_Some; congruence). lia.
Qed.
(** ... and refuted in general: a cut vertex on the last plane of axis 0 makes an entry (of weight 0) whose column is past the end of the matrix *)
Theorem c43_range_refuted vs n V idx v : vs = n :: tl vs -> nth_error V idx = Some v -> v_wf (length vs) v -> pos_shape vs -> in_shape vs (v_coord v) = true -> hd 0%Z (v_coord v) = (n - 1)%Z -> hd 1 (v_quot v) = 0 ->
  exists c, In ((Z.of_nat idx + shape_size vs)%Z, c, 0) (trilinear vs V) /\ (shape_size vs <= c)%Z.
Proof.
  intros E H (W1 & W2 & _) PS IS HC HQ. rewrite E in *. destruct (v_coord v) as [|x c] eqn:EC; [discriminate|]. destruct (v_quot v) as [|y q] eqn:EQ; [discriminate|]. cbn [hd] in HC, HQ. subst x y.
  exists (ravel (n :: tl vs) (n - 1 + 1 :: c)%Z). split.
  - unfold trilinear. apply in_or_app. right. apply in_flat_map. exists (Z.of_nat idx, v). split; [apply enum_In; split; [lia|]; rewrite Nat2Z.id; auto|]. rewrite EC, EQ. cbn [corners flat_map]. rewrite app_nil_r, map_app. apply in_or_app. right.
    rewrite corners_scale, !map_map. apply in_map_iff. assert (IN : forall c q, length c = length q -> exists u, In (c, u) (corners c q 1)).
    { clear. induction c as [|x c IH]; intros [|y q] L; try discriminate; [eexists; left; reflexivity|]. destruct (IH q) as [u Hu]; auto. cbn [corners flat_map]. exists (1 * (1 - y) * u). apply in_or_app. left. apply in_map_iff. exists (c, 1 * (1 - y) * u). rewrite Z.add_0_r. split; auto.
      rewrite corners_scale. apply in_map_iff. exists (c, u). auto. }
    destruct (IN c q) as [u Hu]; [cbn in W1, W2; congruence|]. exists (c, u). split; auto. cbn [Z.eqb]. repeat f_equal. ring.
  - cbn [in_shape] in IS. apply andb_true_iff in IS as [IS1 IS2]. inversion PS as [|? ? P1 P2]; subst. assert (Q := shape_size_pos P2). assert (R := ravel_range _ _ IS2). cbn [ravel shape_size]. nia.
Qed.
Definition sample_iv : vertex := mkVertex [1; 0]%Z [Q2Qc (1 # 4); qhalf] [false; false].
Example c43_example : v_wf 2 sample_iv /\ in_grid [3; 3]%Z sample_iv /\ interior [3; 3]%Z sample_iv /\
  map (fun t => (t_row t, t_col t, this (t_val t))) (skipn 9 (trilinear [3; 3]%Z [sample_iv])) = [(9, 3, 3 # 8); (9, 4, 3 # 8); (9, 6, 1 # 8); (9, 7, 1 # 8)]%Z%Q.
Proof.
  split; [repeat split|]. split; [split; auto|split; [|vm_compute; reflexivity]].
  - intros [|[|[|i]]] n E; try discriminate; injection E as <-; eexists; eexists; (split; [reflexivity|]); (split; [reflexivity|]); lia.
  - repeat constructor; lia.
Qed.

(** ** C44: InterpolatedEdge *)
Lemma key_total : TotalCmp key_cmp. Proof. apply pair_cmp_total; apply Zcompare_total. Qed.
Lemma write_sorted (ws m : kmap) : ssorted key_cmp (keys m) -> ssorted key_cmp (keys (fold_left (fun m '(k, v) => map_set key_cmp k v m) ws m)).
Proof. revert m. induction ws as [|[k v] ws IH]; intros m H; cbn; auto. apply IH. apply (map_set_sorted key_total); auto. Qed.
Lemma write_find (ws : kmap) : forall (m : kmap) k, NoDup (map fst ws) -> ssorted key_cmp (keys m) ->
  forall v, map_find key_cmp k (fold_left (fun m '(k, v) => map_set key_cmp k v m) ws m) = Some v <-> In (k, v) ws \/ (~ In k (map fst ws) /\ map_find key_cmp k m = Some v).
Proof.
  induction ws as [|[k' v'] ws IH]; intros m k N S v; cbn [fold_left map fst In]; [tauto|]. inversion N as [|? ? N1 N2]; subst. rewrite IH; auto; [|apply (map_set_sorted key_total); auto].
  rewrite (map_find_set key_total) by auto. destruct (key_cmp k k') eqn:E.
  - apply (tc_eq key_total) in E. subst k'. split.
    + intros [I|[I H]]; [auto|]. apply Some_inj in H. subst. auto.
    + intros [H|[H _]]; [|exfalso; apply H; auto]. destruct H as [H|H]; [|auto]. apply pair_equal_spec in H as [_ ->]. auto.
  - assert (K : k' <> k) by (intros ->; rewrite (tc_refl key_total) in E; discriminate). split.
    + intros [I|[I H]]; [auto|]. right. split; auto. intros [X|X]; auto.
    + intros [[X|X]|[X H]]; [apply pair_equal_spec in X as [X _]; congruence|auto|right; tauto].
  - assert (K : k' <> k) by (intros ->; rewrite (tc_refl key_total) in E; discriminate). split.
    + intros [I|[I H]]; [auto|]. right. split; auto. intros [X|X]; auto.
    + intros [[X|X]|[X H]]; [apply pair_equal_spec in X as [X _]; congruence|auto|right; tauto].
Qed.
Lemma NoDup_keys (m : kmap) : ssorted key_cmp (keys m) -> NoDup m.
Proof. intros H. apply NoDup_map_inv with (f := fst). apply (ssorted_NoDup key_total). auto. Qed.
Lemma write_all_perm (ws : kmap) : NoDup (map fst ws) -> Permutation (write_all ws) ws.
Proof.
  intros N. assert (S : ssorted key_cmp (keys (write_all ws))) by (apply write_sorted; constructor). apply NoDup_Permutation; [apply NoDup_keys; auto|apply NoDup_map_inv with (f := fst); auto|].
  intros [k v]. rewrite <- (map_find_Some key_total) by auto. unfold write_all. rewrite write_find by (auto; constructor). cbn. intuition discriminate.
Qed.
Lemma perm_map_lsum (A : Type) (f : A -> Qc) l l' : Permutation l l' -> lsum f l = lsum f l'. Proof. apply lsum_perm. Qed.

(** the two ends of a piece, with their parameters on the parent edge *)
Definition edge_end (ts : Qc * Qc) (ix : edge) (r : Z) (t : Qc) : Prop := (r, t) = (fst ix, fst ts) \/ (r, t) = (snd ix, snd ts).
Theorem c44_weights ts ix e : fst ix <> snd ix -> fst e <> snd e -> let A := triplets_of (edge_entries ts ix e) in
  (forall r t, edge_end ts ix r t -> coeff A r (fst e) = 1 - t /\ coeff A r (snd e) = t /\ (forall x, mulv A x r = (1 - t) * x (fst e) + t * x (snd e))) /\
  (forall r c v, In (r, c, v) A -> v <> 0 /\ (c = fst e \/ c = snd e) /\ exists t, edge_end ts ix r t) /\ NoDup (map fst A).
Proof.
  destruct ts as [t0 t1], ix as [i0 i1], e as [e0 e1]. intros NI NE A. cbn [fst snd] in NI, NE |- *.
  assert (K : forall l, NoDup (map fst l) -> Permutation (write_all l) l) by apply write_all_perm.
  assert (ND : NoDup (map fst (edge_writes (t0, t1) (i0, i1) (e0, e1)))).
  { unfold edge_writes. cbn [flat_map fst snd]. destruct (qeqb t0 1), (qeqb t0 0), (qeqb t1 1), (qeqb t1 0); cbn; repeat (apply NoDup_cons; [cbn; intros X; decompose [or] X; congruence|]); apply NoDup_nil. }
  specialize (K _ ND). change (write_all (edge_writes (t0, t1) (i0, i1) (e0, e1))) with (edge_entries (t0, t1) (i0, i1) (e0, e1)) in K.
  assert (PA : Permutation A (triplets_of (edge_writes (t0, t1) (i0, i1) (e0, e1)))) by (apply Permutation_map; auto).
  split; [|split].
  - intros r t HE. unfold coeff, mulv. rewrite !(lsum_perm _ PA).
    assert (MX : forall x, lsum (fun t2 => if (t_row t2 =? r)%Z then t_val t2 * x (t_col t2) else 0) (triplets_of (edge_writes (t0, t1) (i0, i1) (e0, e1))) = (1 - t) * x e0 + t * x e1).
    { intros x. unfold edge_writes, triplets_of. cbn [flat_map fst snd]. destruct HE as [HE|HE]; apply pair_equal_spec in HE as [-> ->]; cbn [fst snd].
      - destruct (qeqb t0 1) eqn:Q1, (qeqb t0 0) eqn:Q2; try (apply qeqb_eq in Q1; subst t0); try (apply qeqb_eq in Q2; subst t0); try discriminate;
        destruct (qeqb t1 1), (qeqb t1 0); cbn; unfold t_row, t_col, t_val; cbn; rewrite ?Z.eqb_refl, ?(proj2 (Z.eqb_neq i1 i0)) by auto; ring.
      - destruct (qeqb t1 1) eqn:Q1, (qeqb t1 0) eqn:Q2; try (apply qeqb_eq in Q1; subst t1); try (apply qeqb_eq in Q2; subst t1); try discriminate;
        destruct (qeqb t0 1), (qeqb t0 0); cbn; unfold t_row, t_col, t_val; cbn; rewrite ?Z.eqb_refl, ?(proj2 (Z.eqb_neq i0 i1)) by auto; ring. }
    assert (CX : forall c, lsum (fun t2 => if ((t_row t2 =? r) && (t_col t2 =? c))%Z%bool then t_val t2 else 0) (triplets_of (edge_writes (t0, t1) (i0, i1) (e0, e1))) = (1 - t) * bit (e0 =? c)%Z + t * bit (e1 =? c)%Z).
    { intros c. rewrite <- (MX (fun z => bit (z =? c)%Z)). apply lsum_ext. intros a _. destruct (t_row a =? r)%Z, (t_col a =? c)%Z; cbn; ring. }
    split; [|split; [|intros x; rewrite (lsum_perm _ PA); auto]].
    + rewrite CX, Z.eqb_refl, (proj2 (Z.eqb_neq e1 e0)) by auto. cbn. ring.
    + rewrite CX, Z.eqb_refl, (proj2 (Z.eqb_neq e0 e1)) by auto. cbn. ring.
  - intros r c v I. apply (Permutation_in _ PA) in I. unfold triplets_of in I. apply in_map_iff in I as ([[a b] w] & E & I). apply pair_equal_spec in E as [E ->]. apply pair_equal_spec in E as [-> ->].
    unfold edge_writes in I. cbn [flat_map fst snd] in I. rewrite app_nil_r in I.
    assert (G : forall i t, In (r, c, v) ((if qeqb t 1 then [] else [(i, e0, 1 - t)]) ++ (if qeqb t 0 then [] else [(i, e1, t)])) -> r = i /\ v <> 0 /\ (c = e0 \/ c = e1)).
    { intros i t H. apply in_app_iff in H as [H|H]; [destruct (qeqb t 1) eqn:Q|destruct (qeqb t 0) eqn:Q]; try contradiction; destruct H as [H|[]]; apply pair_equal_spec in H as [H <-]; apply pair_equal_spec in H as [-> ->]; (split; [auto|]); split; auto; intros X.
      - assert (T : t = 1) by (replace t with (1 - (1 - t)) by ring; rewrite X; ring). apply qeqb_eq in T. congruence.
      - apply qeqb_eq in X. congruence. }
    apply in_app_iff in I as [I|I]; apply G in I as (-> & N & C); split; auto; split; auto; eexists; [left; reflexivity|right; reflexivity].
  - unfold A, triplets_of. rewrite map_map. rewrite (@map_ext _ _ _ fst) by (intros [[a b] v]; auto). apply (ssorted_NoDup key_total). apply write_sorted. constructor.
Qed.
(** distinct ends are needed: an edge stored twice at the same vertex loses its first weights *)
Example c44_degenerate : triplets_of (edge_entries (qhalf, qhalf) (4, 5)%Z (7, 7)%Z) = [(4, 7, qhalf); (5, 7, qhalf)]%Z. Proof. reflexivity. Qed.
Example c44_example : triplets_of (edge_entries (0, Q2Qc (1 # 4)) (4, 5)%Z (7, 8)%Z) = [(4%Z, 7%Z, 1 - 0); (5%Z, 7%Z, 1 - Q2Qc (1 # 4)); (5%Z, 8%Z, Q2Qc (1 # 4))]. Proof. reflexivity. Qed.

(** subdivision: pieces that are, up to order and direction, the consecutive intervals of 0 = t0 <= ... <= tn = 1 *)
Fixpoint intervals (t : Qc) (ts : list Qc) : list (Qc * Qc) := match ts with [] => [] | u :: r => (t, u) :: intervals u r end.
Definition upward (p : Qc * Qc) : Qc * Qc := if qltb (snd p) (fst p) then (snd p, fst p) else p.
Fixpoint rising (t : Qc) (ts : list Qc) : Prop := match ts with [] => True | u :: r => t <= u /\ rising u r end.
Lemma fraction_upward p : edge_fraction (upward p) = edge_fraction p.
Proof.
  unfold edge_fraction, upward. destruct p as [a b]. cbn [fst snd]. destruct (qltb b a) eqn:E; auto. cbn [fst snd]. unfold qabs. replace (a - b) with (- (b - a)) by ring.
  destruct (qltb (b - a) 0) eqn:E1, (qltb (- (b - a)) 0) eqn:E2; try ring.
  - apply qltb_lt in E1, E2. exfalso. apply (Qclt_not_le _ _ E1). qc_lra.
  - apply qltb_ge in E1, E2. apply qltb_lt in E. exfalso. apply (Qclt_not_le _ _ E). qc_lra.
Qed.
Theorem c44_subdivision ps ts parent : rising 0 ts -> last ts 0 = 1 -> ts <> [] ->
  Permutation (map upward (map (fun p : Z * (Qc * Qc * Z) => fst (snd p)) (filter (fun p => (snd (snd p) =? parent)%Z) ps))) (intervals 0 ts) ->
  mulTv (edge_bary_volumes ps) (fun _ => 1) parent = 1.
Proof.
  intros R L NE P. transitivity (lsum edge_fraction (intervals 0 ts)).
  - rewrite <- (lsum_perm _ P). rewrite !lsum_map. unfold mulTv, edge_bary_volumes. rewrite !lsum_map. rewrite (@lsum_ext _ _ (fun p : Z * (Qc * Qc * Z) => if (snd (snd p) =? parent)%Z then edge_fraction (fst (snd p)) else 0)).
    + clear. induction ps as [|[i [t p]] ps IH]; cbn [lsum filter]; auto. cbn [snd fst]. destruct (p =? parent)%Z; cbn [lsum]; rewrite IH; [cbn [snd fst]; rewrite fraction_upward; auto|ring].
    + intros [i [t p]] _. unfold t_col, t_val, t_row. cbn [fst snd]. destruct (p =? parent)%Z; auto. ring.
  - assert (G : forall ts t, rising t ts -> lsum edge_fraction (intervals t ts) = last ts t - t).
    { clear. induction ts as [|u ts IH]; intros t R; [cbn; ring|]. destruct R as [R1 R2]. cbn [intervals lsum]. rewrite (IH u R2). unfold edge_fraction. cbn [fst snd]. unfold qabs. rewrite (proj2 (qltb_ge _ _)) by qc_lra.
      assert (LL : last (u :: ts) t = last ts u). { clear. revert u t. induction ts as [|v ts IH]; intros u t; auto. change (last (u :: v :: ts) t) with (last (v :: ts) t). change (last (v :: ts) u) with (last (v :: ts) u). rewrite !IH. auto. }
      rewrite LL. ring. }
    rewrite G by auto. rewrite L. ring.
Qed.
Definition sample_pieces : list (Z * (Qc * Qc * Z)) := [(3%Z, (1, Q2Qc (1 # 3), 8%Z)); (5%Z, (0, 1, 2%Z)); (4%Z, (0, Q2Qc (1 # 3), 8%Z))].
Example c44_subdivision_ex : Permutation (map upward (map (fun p : Z * (Qc * Qc * Z) => fst (snd p)) (filter (fun p => (snd (snd p) =? 8)%Z) sample_pieces))) (intervals 0 [Q2Qc (1 # 3); 1]) /\ rising 0 [Q2Qc (1 # 3); 1].
Proof. split; [|split; [discriminate|split; [discriminate|exact I]]]. cbn. unfold upward. cbn [fst snd]. change (qltb (Q2Qc (1 # 3)) 1) with true. change (qltb (Q2Qc (1 # 3)) 0) with false. cbv iota. apply perm_swap. Qed.

(** ** C69: barycentric_matrix (2D pieces of edges, 3D pieces of triangles) *)
Lemma emplace_fold_sorted (t m : kmap) : ssorted key_cmp (keys m) -> ssorted key_cmp (keys (fold_left (fun m '(k, v) => map_emplace key_cmp k v m) t m)).
Proof. revert m. induction t as [|[k v] t IH]; intros m H; cbn; auto. apply IH. apply (map_emplace_sorted key_total); auto. Qed.
Lemma emplace_fold_find (t : kmap) : forall (m : kmap) k, ssorted key_cmp (keys m) ->
  (forall v, map_find key_cmp k m = Some v -> map_find key_cmp k (fold_left (fun m '(k, v) => map_emplace key_cmp k v m) t m) = Some v) /\
  (map_find key_cmp k m = None -> (forall v, map_find key_cmp k (fold_left (fun m '(k, v) => map_emplace key_cmp k v m) t m) = Some v -> In (k, v) t) /\
     (forall v, In (k, v) t -> map_find key_cmp k (fold_left (fun m '(k, v) => map_emplace key_cmp k v m) t m) <> None)).
Proof.
  induction t as [|[k' v'] t IH]; intros m k S; cbn [fold_left]; [split; [auto|intros ->; split; [discriminate|intros v []]]|].
  assert (S' := map_emplace_sorted key_total k' v' m S). destruct (IH _ k S') as [I1 I2]. rewrite (map_find_emplace key_total) in I1, I2 by auto. split.
  - intros v H. apply I1. rewrite H. auto.
  - intros H. rewrite H in I1, I2. destruct (key_cmp k k') eqn:E.
    + apply (tc_eq key_total) in E. subst k'. specialize (I1 v' eq_refl). rewrite I1. split; [intros v X; apply Some_inj in X; subst; left; auto|discriminate].
    + destruct (I2 eq_refl) as [J1 J2]. split; [intros v X; right; auto|]. intros v [X|X]; [|eauto]. apply pair_equal_spec in X as [X _]. subst. rewrite (tc_refl key_total) in E. discriminate.
    + destruct (I2 eq_refl) as [J1 J2]. split; [intros v X; right; auto|]. intros v [X|X]; [|eauto]. apply pair_equal_spec in X as [X _]. subst. rewrite (tc_refl key_total) in E. discriminate.
Qed.
Lemma merge_fold_sorted ps : forall m : kmap, ssorted key_cmp (keys m) -> ssorted key_cmp (keys (fold_left (fun mp t => fold_left (fun m '(k, v) => map_emplace key_cmp k v m) t mp) ps m)).
Proof. induction ps as [|t ps IH]; intros m H; cbn; auto. apply IH, emplace_fold_sorted, H. Qed.
Lemma merge_sorted ps : ssorted key_cmp (keys (merge_entries ps)). Proof. apply merge_fold_sorted. constructor. Qed.
Lemma merge_fold_find ps : forall (m : kmap) k, ssorted key_cmp (keys m) -> let R := fold_left (fun mp t => fold_left (fun m '(k, v) => map_emplace key_cmp k v m) t mp) ps m in
  (forall v, map_find key_cmp k m = Some v -> map_find key_cmp k R = Some v) /\
  (map_find key_cmp k m = None -> (forall v, map_find key_cmp k R = Some v -> exists t, In t ps /\ In (k, v) t) /\ (forall t v, In t ps -> In (k, v) t -> map_find key_cmp k R <> None)).
Proof.
  induction ps as [|t ps IH]; intros m k S; cbn [fold_left]; [split; [auto|intros H; cbn; rewrite H; split; [discriminate|intros ? ? []]]|]. cbn zeta.
  destruct (emplace_fold_find t m k S) as [E1 E2]. destruct (IH _ k (emplace_fold_sorted t m S)) as [I1 I2]. cbn zeta in I1, I2. split; [auto|]. intros H. destruct (E2 H) as [F1 F2].
  destruct (map_find key_cmp k (fold_left (fun m '(k, v) => map_emplace key_cmp k v m) t m)) as [w|] eqn:Q.
  - rewrite (I1 w eq_refl). split; [intros v X; apply Some_inj in X; subst; exists t; split; [left; auto|apply F1; auto]|discriminate].
  - destruct (I2 eq_refl) as [J1 J2]. split; [intros v X; apply J1 in X as (t' & X1 & X2); exists t'; split; [right; auto|auto]|].
    intros t' v [<-|X] Y; [exfalso; apply (F2 v Y); auto|eauto].
Qed.
Lemma merge_In ps k v : In (k, v) (merge_entries ps) -> exists t, In t ps /\ In (k, v) t.
Proof. rewrite <- (map_find_Some key_total) by apply merge_sorted. intros H. destruct (merge_fold_find ps [] k) as [_ M]; [constructor|]. apply (proj1 (M eq_refl)). auto. Qed.
Lemma merge_has ps t k v : In t ps -> In (k, v) t -> exists v', In (k, v') (merge_entries ps).
Proof.
  intros H1 H2. destruct (merge_fold_find ps [] k) as [_ M]; [constructor|]. assert (N := proj2 (M eq_refl) t v H1 H2). destruct (map_find key_cmp k (merge_entries ps)) as [w|] eqn:E.
  - apply (map_find_Some key_total) in E; [eauto|apply merge_sorted].
  - exfalso. apply N. exact E.
Qed.
Lemma bary_mulv ps x r : mulv (barycentric ps) x r = row_scale (mulv (triplets_of (merge_entries ps)) (fun _ => 1) r) * mulv (triplets_of (merge_entries ps)) x r.
Proof.
  unfold barycentric. set (A := triplets_of _). generalize (fun r => row_scale (mulv A (fun _ => 1) r)). intros g. clearbody A. unfold mulv. rewrite lsum_map, <- lsum_scale. apply lsum_ext. intros [[a b] v] _. unfold t_row, t_col, t_val. cbn.
  destruct (Z.eqb_spec a r); [subst; ring|ring].
Qed.
Lemma bary_coeff ps r c : coeff (barycentric ps) r c = row_scale (mulv (triplets_of (merge_entries ps)) (fun _ => 1) r) * coeff (triplets_of (merge_entries ps)) r c.
Proof.
  unfold barycentric. set (A := triplets_of _). generalize (fun r => row_scale (mulv A (fun _ => 1) r)). intros g. clearbody A. unfold coeff. rewrite lsum_map, <- lsum_scale. apply lsum_ext. intros [[a b] v] _. unfold t_row, t_col, t_val. cbn.
  destruct (Z.eqb_spec a r); [subst; destruct (b =? c)%Z; cbn; ring|cbn; ring].
Qed.
(** whatever the pieces are, every row sums to 1, or to 0 when its raw sum is below the cutoff *)
Theorem c69_row_sums ps r : mulv (barycentric ps) (fun _ => 1) r = 1 \/ (mulv (barycentric ps) (fun _ => 1) r = 0 /\ forall c, coeff (barycentric ps) r c = 0).
Proof.
  rewrite bary_mulv. set (s := mulv _ _ r). unfold row_scale. destruct (qltb tiny (qabs s)) eqn:E.
  - left. assert (s <> 0) by (intros X; rewrite X in E; revert E; vm_compute; discriminate). field. auto.
  - right. split; [ring|]. intros c. rewrite bary_coeff. fold s. unfold row_scale. rewrite E. ring.
Qed.
(** when all pieces that touch vertex r agree on its barycentric weights w, row r is w: the matrix reproduces positions of r and every linear function of the mesh vertices *)
Theorem c69_reproduces ps r (w : Z -> Qc) cols : (forall t c v, In t ps -> In ((r, c), v) t -> v = w c) -> (forall c, w c <> 0 -> exists t v, In t ps /\ In ((r, c), v) t) ->
  NoDup cols -> (forall c, w c <> 0 -> In c cols) -> lsum w cols = 1 ->
  (forall c, coeff (barycentric ps) r c = w c) /\ (forall x, mulv (barycentric ps) x r = lsum (fun c => w c * x c) cols).
Proof.
  intros H1 H2 ND HC HS. set (A := triplets_of (merge_entries ps)).
  assert (NA : NoDup (map fst A)). { unfold A, triplets_of. rewrite map_map. rewrite (@map_ext _ _ _ fst) by (intros [[a b] v]; auto). apply (ssorted_NoDup key_total). apply merge_sorted. }
  assert (IA : forall c v, In (r, c, v) A -> v = w c). { intros c v I. unfold A, triplets_of in I. apply in_map_iff in I as ([[a b] u] & E & I). apply pair_equal_spec in E as [E ->]. apply pair_equal_spec in E as [-> ->]. apply merge_In in I as (t & I1 & I2). eauto. }
  assert (CA : forall c, coeff A r c = w c).
  { intros c. destruct (Qc_eq_dec (w c) 0) as [Z|N].
    - unfold coeff. rewrite lsum_0; auto. intros [[a b] v] I. unfold t_row, t_col, t_val. cbn. destruct (Z.eqb_spec a r); auto. destruct (Z.eqb_spec b c); auto. subst. cbn. apply IA in I. congruence.
    - destruct (H2 c N) as (t & v & T1 & T2). destruct (merge_has _ _ _ _ T1 T2) as [v' I]. assert (IN : In (r, c, v') A) by (unfold A, triplets_of; apply in_map_iff; exists ((r, c), v'); auto).
      rewrite (coeff_in A r c v' NA IN). auto. }
  assert (MA : forall x, mulv A x r = lsum (fun c => w c * x c) cols).
  { intros x. unfold mulv. transitivity (lsum (fun t => lsum (fun c => if ((t_row t =? r) && (t_col t =? c))%Z%bool then t_val t * x c else 0) cols) A).
    - apply lsum_ext. intros [[a b] v] I. unfold t_row, t_col, t_val. cbn. destruct (Z.eqb_spec a r); [|symmetry; apply lsum_0; auto]. subst a. cbn [andb]. destruct (in_dec Z.eq_dec b cols) as [J|J].
      + rewrite (@lsum_single _ _ _ b); auto; [rewrite Z.eqb_refl; auto|]. intros c _ N. rewrite (proj2 (Z.eqb_neq b c)); auto.
      + rewrite lsum_0; [|intros c Hc; destruct (Z.eqb_spec b c); auto; subst; contradiction]. assert (V := IA _ _ I). destruct (Qc_eq_dec (w b) 0) as [Z|N]; [rewrite V, Z; ring|exfalso; auto].
    - rewrite lsum_swap. apply lsum_ext. intros c _. rewrite <- CA. unfold coeff. rewrite Qcmult_comm, <- lsum_scale. apply lsum_ext. intros t _. destruct (_ && _)%bool; ring. }
  assert (SA : mulv A (fun _ => 1) r = 1) by (rewrite MA; rewrite (@lsum_ext _ _ w) by (intros; ring); auto).
  assert (RS : row_scale 1 = 1) by (unfold row_scale; change (qltb tiny (qabs 1)) with true; cbv iota; field; discriminate).
  split; [intros c; rewrite bary_coeff; fold A; rewrite SA, RS, CA; ring|intros x; rewrite bary_mulv; fold A; rewrite SA, RS, MA; ring].
Qed.
Lemma coeff_nz ts r c : coeff ts r c <> 0 -> exists v, In (r, c, v) ts.
Proof.
  induction ts as [|[[a b] v] ts IH]; intros H; [exfalso; apply H; reflexivity|]. change (coeff ((a, b, v) :: ts) r c) with ((if ((a =? r) && (b =? c))%Z%bool then v else 0) + coeff ts r c) in H.
  destruct (Z.eqb_spec a r); [destruct (Z.eqb_spec b c)|]; [subst; exists v; left; auto| |]; cbn [andb] in H; rewrite Qcplus_0_l in H; destruct (IH H) as [u Hu]; exists u; right; auto.
Qed.
Lemma In_triplets (m : kmap) r c v : In ((r, c), v) m <-> In (r, c, v) (triplets_of m).
Proof.
  unfold triplets_of. rewrite in_map_iff. split; [intros I; exists ((r, c), v); auto|]. intros ([[a b] u] & E & I). apply pair_equal_spec in E as [E ->]. apply pair_equal_spec in E as [-> ->]. auto.
Qed.
(** the combination of mesh vertices that a point at parameter t of edge e is; likewise for barycentric coordinates b in triangle f *)
Definition comb2 (e : edge) (t : Qc) (c : Z) : Qc := (1 - t) * bit (fst e =? c)%Z + t * bit (snd e =? c)%Z.
Definition comb3 (f : c3) (b : q3) (c : Z) : Qc := fst (fst b) * bit (fst (fst f) =? c)%Z + snd (fst b) * bit (snd (fst f) =? c)%Z + snd b * bit (snd f =? c)%Z.
(** 2D: a piece = (parameters, vertex indices, parent edge); if all pieces that meet at vertex r place it at the same combination of mesh vertices, the row of r is that combination *)
Theorem c69_edges (ps : list ((Qc * Qc) * edge * edge)) r ts ix e t :
  (forall p, In p ps -> fst (snd (fst p)) <> snd (snd (fst p)) /\ fst (snd p) <> snd (snd p)) ->
  In (ts, ix, e) ps -> edge_end ts ix r t ->
  (forall ts' ix' e' t', In (ts', ix', e') ps -> edge_end ts' ix' r t' -> forall c, comb2 e' t' c = comb2 e t c) ->
  forall x, mulv (barycentric (map (fun '(ts, ix, e) => edge_entries ts ix e) ps)) x r = (1 - t) * x (fst e) + t * x (snd e).
Proof.
  intros HD HI HE HA x. destruct (HD _ HI) as [D1 D2]. cbn [fst snd] in D1, D2.
  assert (CE : forall ts ix e r t, fst ix <> snd ix -> fst e <> snd e -> edge_end ts ix r t -> forall c, coeff (triplets_of (edge_entries ts ix e)) r c = comb2 e t c).
  { clear. intros ts ix e r t D1 D2 HE c. destruct (c44_weights ts ix e D1 D2) as (W & R & ND). destruct (W r t HE) as (W1 & W2 & _). unfold comb2. destruct (Z.eqb_spec (fst e) c); [subst c|destruct (Z.eqb_spec (snd e) c); [subst c|]].
    - rewrite (proj2 (Z.eqb_neq (snd e) (fst e))) by auto. rewrite W1. cbn. ring.
    - rewrite W2. cbn. ring.
    - rewrite coeff_0; [cbn; ring|]. intros v I. apply R in I as (_ & [C|C] & _); congruence. }
  destruct (c69_reproduces (map (fun '(ts, ix, e) => edge_entries ts ix e) ps) r (comb2 e t) [fst e; snd e]) as [_ M].
  - intros m c v I1 I2. apply in_map_iff in I1 as ([[ts' ix'] e'] & <- & I1). destruct (HD _ I1) as [D1' D2']. cbn [fst snd] in D1', D2'. apply In_triplets in I2. destruct (c44_weights ts' ix' e' D1' D2') as (_ & R & ND).
    destruct (R _ _ _ I2) as (_ & _ & t' & HE'). rewrite <- (HA _ _ _ _ I1 HE'), <- (CE ts' ix' e' r t') by auto. symmetry. apply coeff_in; auto.
  - intros c N. exists (edge_entries ts ix e). rewrite <- (CE ts ix e r t) in N by auto. apply coeff_nz in N as [v N]. exists v. split; [apply in_map_iff; exists (ts, ix, e); auto|apply In_triplets; auto].
  - apply NoDup_cons; [intros [X|[]]; auto|]. apply NoDup_cons; [intros []|apply NoDup_nil].
  - intros c N. unfold comb2 in N. destruct (Z.eqb_spec (fst e) c); [left; auto|]. destruct (Z.eqb_spec (snd e) c); [right; left; auto|]. exfalso. apply N. cbn. ring.
  - unfold comb2. cbn [lsum]. rewrite !Z.eqb_refl, (proj2 (Z.eqb_neq (fst e) (snd e))), (proj2 (Z.eqb_neq (snd e) (fst e))) by auto. cbn. ring.
  - rewrite M. unfold comb2. cbn [lsum]. rewrite !Z.eqb_refl, (proj2 (Z.eqb_neq (fst e) (snd e))), (proj2 (Z.eqb_neq (snd e) (fst e))) by auto. cbn. ring.
Qed.
(** 3D, one piece *)
Definition distinct3 (f : c3) : Prop := fst (fst f) <> snd (fst f) /\ fst (fst f) <> snd f /\ snd (fst f) <> snd f.
Lemma face_entries_spec barys ix f m : length ix = length barys -> NoDup ix -> distinct3 f -> face_entries barys ix f = Some m ->
  NoDup (map fst (triplets_of m)) /\ (forall r b, In (r, b) (combine ix barys) -> forall c, coeff (triplets_of m) r c = comb3 f b c) /\ (forall r c v, In (r, c, v) (triplets_of m) -> v <> 0 /\ exists b, In (r, b) (combine ix barys)).
Proof.
  destruct f as [[f0 f1] f2]. intros L ND (D1 & D2 & D3) H. cbn [fst snd] in D1, D2, D3. unfold face_entries, face_writes in H. rewrite (proj2 (Nat.leb_le _ _)) in H by lia. cbn [option_map fst snd] in H. apply Some_inj in H. subst m.
  set (g := fun z : Z * q3 => let '(row, (b0, b1, b2)) := z in flat_map (fun '(v, b) => if qeqb b 0 then [] else [((row, v), b)]) [(f0, b0); (f1, b1); (f2, b2)]).
  change (flat_map _ (combine ix barys)) with (flat_map g (combine ix barys)).
  assert (NC : NoDup (map fst (combine ix barys))). { assert (E : map fst (combine ix barys) = ix) by (clear - L; revert barys L; induction ix; intros [|? ?] L; try discriminate; cbn; auto; f_equal; auto). rewrite E. auto. }
  assert (GR : forall r b k v, In (k, v) (g (r, b)) -> fst k = r /\ v <> 0).
  { intros r [[b0 b1] b2] k v I. cbn in I. destruct (qeqb b0 0) eqn:Q0, (qeqb b1 0) eqn:Q1, (qeqb b2 0) eqn:Q2; cbn in I; decompose [or] I; try contradiction;
    match goal with E : _ = (k, v) |- _ => apply pair_equal_spec in E as [<- <-] end; split; auto; intros ->; rewrite (proj2 (qeqb_eq 0 0) eq_refl) in *; discriminate. }
  assert (NG : forall z, NoDup (map fst (g z))).
  { intros [r [[b0 b1] b2]]. cbn. destruct (qeqb b0 0), (qeqb b1 0), (qeqb b2 0); cbn; repeat (apply NoDup_cons; [cbn; intros X; decompose [or] X; congruence|]); apply NoDup_nil. }
  assert (NW : NoDup (map fst (flat_map g (combine ix barys)))).
  { clear L ND. induction (combine ix barys) as [|[r b] l IH]; [apply NoDup_nil|]. cbn [flat_map map fst] in *. inversion NC as [|? ? N1 N2]; subst. rewrite map_app. assert (IH' := IH N2).
    assert (DJ : forall k, In k (map fst (g (r, b))) -> ~ In k (map fst (flat_map g l))).
    { intros k I J. apply in_map_iff in I as ([k1 v1] & <- & I). apply in_map_iff in J as ([k2 v2] & E & J). cbn in E. subst k2. apply in_flat_map in J as ([r' b'] & J1 & J2). apply GR in I as [I _]. apply GR in J2 as [J2 _]. apply N1. cbn [fst] in *. assert (r = r') by congruence. subst. apply (in_map fst) in J1. auto. }
    clear - DJ IH' NG. specialize (NG (r, b)). induction (map fst (g (r, b))) as [|k ks IH]; auto. cbn. inversion NG; subst. apply NoDup_cons; [intros X; apply in_app_iff in X as [X|X]; [auto|apply (DJ k); cbn; auto]|]. apply IH; auto. intros k' I. apply DJ. right. auto. }
  assert (P := write_all_perm _ NW). assert (PT : Permutation (triplets_of (write_all (flat_map g (combine ix barys)))) (triplets_of (flat_map g (combine ix barys)))) by (apply Permutation_map; auto).
  split; [|split].
  - unfold triplets_of. rewrite map_map. rewrite (@map_ext _ _ _ fst) by (intros [[a b] v]; auto). apply (ssorted_NoDup key_total). apply write_sorted. constructor.
  - intros r b I c. unfold coeff. rewrite (lsum_perm _ PT). unfold triplets_of. rewrite lsum_map, lsum_flat, (@lsum_single _ _ _ (r, b)).
    + destruct b as [[b0 b1] b2]. unfold g, comb3. cbn [flat_map fst snd]. rewrite app_nil_r. rewrite !lsum_app.
      assert (X : forall v bb, lsum (fun a : key * Qc => if ((t_row (let '(a0, b, v) := a in (a0, b, v)) =? r) && (t_col (let '(a0, b, v) := a in (a0, b, v)) =? c))%Z%bool then t_val (let '(a0, b, v) := a in (a0, b, v)) else 0) (if qeqb bb 0 then [] else [((r, v), bb)]) = bb * bit (v =? c)%Z).
      { intros v bb. destruct (qeqb bb 0) eqn:Q; [apply qeqb_eq in Q; subst; cbn; ring|]. cbn [lsum]. unfold t_row, t_col, t_val. cbn [fst snd]. rewrite Z.eqb_refl. destruct (v =? c)%Z; cbn; ring. }
      rewrite !X. ring.
    + apply NoDup_map_inv with (f := fst). auto.
    + auto.
    + intros [r' b'] J N. apply lsum_0. intros [[k1 k2] v] K. apply GR in K as [K _]. cbn [fst] in K. subst k1. unfold t_row, t_col, t_val. cbn [fst snd]. destruct (Z.eqb_spec r' r); [|auto]. subst r'. exfalso. apply N. f_equal.
      clear - NC I J. induction (combine ix barys) as [|[a q] l IH]; [contradiction|]. cbn in NC. inversion NC as [|? ? N1 N2]; subst. destruct I as [I|I], J as [J|J]; [congruence| | |auto]; exfalso; apply N1; [apply pair_equal_spec in I as [-> _]; apply (in_map fst) in J; auto|apply pair_equal_spec in J as [-> _]; apply (in_map fst) in I; auto].
  - intros r c v I. apply (Permutation_in _ PT) in I. apply In_triplets in I. apply in_flat_map in I as ([r' b] & I1 & I2). apply GR in I2 as [I2 V]. cbn [fst] in I2. subst. eauto.
Qed.
(** 3D: a piece = (barycentric columns, loop, parent triangle) *)
Theorem c69_faces (ps : list (list q3 * list Z * c3)) ms r bs ix f b :
  (forall p, In p ps -> length (snd (fst p)) = length (fst (fst p)) /\ NoDup (snd (fst p)) /\ distinct3 (snd p)) ->
  Forall2 (fun p m => face_entries (fst (fst p)) (snd (fst p)) (snd p) = Some m) ps ms ->
  In (bs, ix, f) ps -> In (r, b) (combine ix bs) -> fst (fst b) + snd (fst b) + snd b = 1 ->
  (forall bs' ix' f' b', In (bs', ix', f') ps -> In (r, b') (combine ix' bs') -> forall c, comb3 f' b' c = comb3 f b c) ->
  forall x, mulv (barycentric ms) x r = fst (fst b) * x (fst (fst f)) + snd (fst b) * x (snd (fst f)) + snd b * x (snd f).
Proof.
  intros HD HM HI HE HS HA x. destruct (HD _ HI) as (L1 & L2 & L3). cbn [fst snd] in L1, L2, L3.
  assert (PM : forall p, In p ps -> exists m, In m ms /\ face_entries (fst (fst p)) (snd (fst p)) (snd p) = Some m).
  { clear - HM. induction HM as [|p m ps ms H HM IH]; intros q I; [contradiction|]. destruct I as [<-|I]; [exists m; split; [left|]; auto|]. destruct (IH _ I) as (m' & I1 & I2). exists m'. split; [right|]; auto. }
  assert (MP : forall m, In m ms -> exists p, In p ps /\ face_entries (fst (fst p)) (snd (fst p)) (snd p) = Some m).
  { clear - HM. induction HM as [|p m ps ms H HM IH]; intros q I; [contradiction|]. destruct I as [<-|I]; [exists p; split; [left|]; auto|]. destruct (IH _ I) as (m' & I1 & I2). exists m'. split; [right|]; auto. }
  destruct f as [[f0 f1] f2], b as [[b0 b1] b2]. cbn [fst snd] in *. destruct L3 as (D1 & D2 & D3). cbn [fst snd] in D1, D2, D3.
  destruct (c69_reproduces ms r (comb3 (f0, f1, f2) (b0, b1, b2)) [f0; f1; f2]) as [_ M].
  - intros m c v I1 I2. destruct (MP m I1) as ([[bs' ix'] f'] & P1 & P2). cbn [fst snd] in P2. destruct (HD _ P1) as (K1 & K2 & K3). cbn [fst snd] in K1, K2, K3. destruct (face_entries_spec _ _ _ _ K1 K2 K3 P2) as (S1 & S2 & S3).
    apply In_triplets in I2. destruct (S3 _ _ _ I2) as (_ & b' & B). rewrite <- (HA _ _ _ _ P1 B), <- (S2 _ _ B). symmetry. apply coeff_in; auto.
  - intros c N. destruct (PM _ HI) as (m & I1 & I2). cbn [fst snd] in I2. destruct (face_entries_spec _ _ _ _ L1 L2 (conj D1 (conj D2 D3) : distinct3 (f0, f1, f2)) I2) as (S1 & S2 & S3). rewrite <- (S2 _ _ HE) in N. apply coeff_nz in N as [v N]. exists m, v. split; auto. apply In_triplets. auto.
  - repeat (apply NoDup_cons; [cbn; intros X; decompose [or] X; congruence|]); apply NoDup_nil.
  - intros c N. unfold comb3 in N. cbn [fst snd] in N. destruct (Z.eqb_spec f0 c); [left; auto|]. destruct (Z.eqb_spec f1 c); [right; left; auto|]. destruct (Z.eqb_spec f2 c); [right; right; left; auto|]. exfalso. apply N. cbn. ring.
  - unfold comb3. cbn [lsum fst snd]. rewrite !Z.eqb_refl, (proj2 (Z.eqb_neq f0 f1)), (proj2 (Z.eqb_neq f1 f0)), (proj2 (Z.eqb_neq f0 f2)), (proj2 (Z.eqb_neq f2 f0)), (proj2 (Z.eqb_neq f1 f2)), (proj2 (Z.eqb_neq f2 f1)) by auto. transitivity (b0 + b1 + b2); [cbn; ring|exact HS].
  - rewrite M. unfold comb3. cbn [lsum fst snd]. rewrite !Z.eqb_refl, (proj2 (Z.eqb_neq f0 f1)), (proj2 (Z.eqb_neq f1 f0)), (proj2 (Z.eqb_neq f0 f2)), (proj2 (Z.eqb_neq f2 f0)), (proj2 (Z.eqb_neq f1 f2)), (proj2 (Z.eqb_neq f2 f1)) by auto. cbn. ring.
Qed.
(** two triangles (7,8,9) and (8,7,6) sharing the edge 7-8, with cut vertex 20 at one quarter of it *)
Definition qq : Qc := Q2Qc (1 # 4).
Definition sample_tris : list (list q3 * list Z * c3) :=
  [([(1 - qq, qq, 0); (0, 1, 0); (0, 0, 1)], [20; 21; 22]%Z, (7, 8, 9)%Z); ([(0, 1, 0); (qq, 1 - qq, 0); (0, 0, 1)], [23; 20; 24]%Z, (8, 7, 6)%Z)].
Example c69_example : exists ms, Forall2 (fun p m => face_entries (fst (fst p)) (snd (fst p)) (snd p) = Some m) sample_tris ms /\
  map (fun t => (t_row t, t_col t, this (t_val t))) (filter (fun t => (t_row t =? 20)%Z) (barycentric ms)) = [(20, 7, 3 # 4); (20, 8, 1 # 4)]%Z%Q /\
  (forall bs' ix' f' b', In (bs', ix', f') sample_tris -> In (20%Z, b') (combine ix' bs') -> forall c, comb3 f' b' c = comb3 (7, 8, 9)%Z (1 - qq, qq, 0) c).
Proof.
  eexists. split; [constructor; [vm_compute; reflexivity|constructor; [vm_compute; reflexivity|constructor]]|]. split; [vm_compute; reflexivity|].
  intros bs ix f b [E|[E|[]]] I c; apply pair_equal_spec in E as [E <-]; apply pair_equal_spec in E as [<- <-]; cbn in I; decompose [or] I; try contradiction;
  match goal with H : _ = (20%Z, b) |- _ => apply pair_equal_spec in H as [H <-]; try discriminate end; auto.
  unfold comb3. cbn [fst snd]. destruct (7 =? c)%Z, (8 =? c)%Z, (9 =? c)%Z, (6 =? c)%Z; cbn; ring.
Qed.

(** ** C70: face_barycentric_volume_matrix *)
(** directed edges of a closed polygon *)
Definition sides (ps : list q2) : list (q2 * q2) := combine ps (tl ps ++ firstn 1 ps).
Definition top2 (b : q3) : q2 := (fst (fst b), snd (fst b)).
(** a subdivision of the segment a-b: the points a + s (b - a) for s = 0, ss..., listed as consecutive directed pieces *)
Definition on_segment (a b : q2) (s : Qc) : q2 := (fst a + s * (fst b - fst a), snd a + s * (snd b - snd a)).
Fixpoint cut_segment (a b : q2) (s : Qc) (ss : list Qc) : list (q2 * q2) := match ss with [] => [] | u :: r => (on_segment a b s, on_segment a b u) :: cut_segment a b u r end.
(** the pieces of one parent triangle: their sides cancel in pairs except for a subdivision of the three sides of the triangle (1,0) (0,1) (0,0) *)
Definition tiles (pieces : list (list q3)) : Prop := exists inner s0 s1 s2, last s0 0 = 1 /\ last s1 0 = 1 /\ last s2 0 = 1 /\ s0 <> [] /\ s1 <> [] /\ s2 <> [] /\
  Permutation (flat_map (fun b => sides (map top2 b)) pieces)
    (flat_map (fun e => [e; (snd e, fst e)]) inner ++ cut_segment (1, 0) (0, 1) 0 s0 ++ cut_segment (0, 1) (0, 0) 0 s1 ++ cut_segment (0, 0) (1, 0) 0 s2).
Definition det2 (e : q2 * q2) : Qc := fst (fst e) * snd (snd e) - fst (snd e) * snd (fst e).
Lemma last_cons_irr (A : Type) (l : list A) d d' : l <> [] -> last l d = last l d'.
Proof. induction l as [|a l IH]; [congruence|]. intros _. destruct l; auto. change (last (a :: a0 :: l) d) with (last (a0 :: l) d). change (last (a :: a0 :: l) d') with (last (a0 :: l) d'). apply IH. discriminate. Qed.
Lemma cut_segment_det a b s ss : lsum det2 (cut_segment a b s ss) = (last ss s - s) * det2 (a, b).
Proof.
  revert s. induction ss as [|u ss IH]; intros s; [cbn; ring|]. cbn [cut_segment lsum]. rewrite IH. assert (L : last (u :: ss) s = last ss u). { destruct ss; auto. change (last (u :: q :: ss) s) with (last (q :: ss) s). apply last_cons_irr. discriminate. }
  rewrite L. unfold det2, on_segment. cbn [fst snd]. ring.
Qed.
Theorem c70_column_sums (ps : list (Z * (list q3 * Z))) parent : tiles (map (fun p => fst (snd p)) (filter (fun p => (snd (snd p) =? parent)%Z) ps)) ->
  mulTv (face_bary_volumes ps) (fun _ => 1) parent = 1.
Proof.
  intros (inner & s0 & s1 & s2 & L0 & L1 & L2 & N0 & N1 & N2 & P).
  transitivity (lsum det2 (flat_map (fun b => sides (map top2 b)) (map (fun p => fst (snd p)) (filter (fun p => (snd (snd p) =? parent)%Z) ps)))).
  - rewrite lsum_flat, lsum_map. unfold mulTv, face_bary_volumes. rewrite lsum_map. clear. induction ps as [|[i [b p]] ps IH]; auto. cbn [lsum filter snd]. unfold t_col, t_val, t_row. cbn [fst snd].
    destruct (p =? parent)%Z; cbn [lsum]; unfold t_col, t_val, t_row in IH; rewrite IH; [|ring]. f_equal. cbn [fst snd]. unfold bary_area, shoelace. fold (sides (map (fun b0 : q3 => (fst (fst b0), snd (fst b0))) b)). change (fun b0 : q3 => (fst (fst b0), snd (fst b0))) with top2.
    rewrite (@lsum_ext _ _ det2) by (intros [u v] _; reflexivity). match goal with |- _ * (?z / _) * 1 = ?z' => change z' with z; generalize z end. intros z. field. discriminate.
  - rewrite (lsum_perm _ P), !lsum_app, lsum_flat, !cut_segment_det, L0, L1, L2. rewrite lsum_0; [unfold det2; cbn [fst snd]; ring|]. intros [u v] _. cbn [lsum]. unfold det2. cbn [fst snd]. ring.
Qed.
(** tilings exist: the triangle cut by the segment from the middle of side 0 to corner 2 *)
Lemma perm6 (A : Type) (a b c d e f : A) : Permutation [a; b; c; d; e; f] [b; f; a; d; e; c].
Proof.
  apply perm_trans with (b :: a :: c :: d :: e :: [f]); [apply perm_swap|]. apply perm_skip. apply (Permutation_cons_app [f]). cbn. apply (Permutation_cons_app [f; d; e] []). cbn. apply (Permutation_cons_app [f]). cbn. apply perm_swap.
Qed.
Example c70_example : tiles [[(1, 0, 0); (qhalf, qhalf, 0); (0, 0, 1)]; [(qhalf, qhalf, 0); (0, 1, 0); (0, 0, 1)]].
Proof.
  exists [((qhalf, qhalf), (0, 0))], [qhalf; 1], [1], [1]. repeat (split; [solve [reflexivity|discriminate]|]).
  assert (E1 : on_segment (1, 0) (0, 1) 0 = (1, 0)) by (unfold on_segment; apply f_equal2; apply Qc_is_canon; reflexivity). assert (E2 : on_segment (1, 0) (0, 1) qhalf = (qhalf, qhalf)) by (unfold on_segment; apply f_equal2; apply Qc_is_canon; reflexivity).
  assert (E3 : on_segment (1, 0) (0, 1) 1 = (0, 1)) by (unfold on_segment; apply f_equal2; apply Qc_is_canon; reflexivity). assert (E4 : on_segment (0, 1) (0, 0) 0 = (0, 1)) by (unfold on_segment; apply f_equal2; apply Qc_is_canon; reflexivity).
  assert (E5 : on_segment (0, 1) (0, 0) 1 = (0, 0)) by (unfold on_segment; apply f_equal2; apply Qc_is_canon; reflexivity). assert (E6 : on_segment (0, 0) (1, 0) 0 = (0, 0)) by (unfold on_segment; apply f_equal2; apply Qc_is_canon; reflexivity).
  assert (E7 : on_segment (0, 0) (1, 0) 1 = (1, 0)) by (unfold on_segment; apply f_equal2; apply Qc_is_canon; reflexivity).
  cbn [cut_segment]. rewrite E1, E2, E3, E4, E5, E6, E7. apply perm6.
Qed.

(** ** C71: face_grid_volume_matrix (2D) *)
(** every in-grid cell is either exterior without owned cut faces, or its cut faces fill it *)
Definition filled (m : mesh2) (vols : Z -> Qc) : Prop := forall c, in_shape (m2_cells m) c = true ->
  (m2_mask m c = true /\ owners m c = []) \/ (m2_mask m c = false /\ lsum vols (owners m c) = fst (m2_dx m) * snd (m2_dx m)).
Theorem c71_column_sums m vols : ssorted Z.compare (keys (m2_owner m)) -> fst (m2_dx m) <> 0 -> snd (m2_dx m) <> 0 -> filled m vols ->
  forall c, in_shape (m2_cells m) c = true -> mulTv (face_grid_volumes m vols) (fun _ => 1) (ravel (m2_cells m) c) = 1.
Proof.
  intros SO D0 D1 F c HC. unfold face_grid_volumes, mulTv. rewrite lsum_app, lsum_flat, lsum_map. set (g := ravel (m2_cells m) c).
  assert (E1 : lsum (fun a : Z * list Z => lsum (fun t => if (t_col t =? g)%Z then t_val t * 1 else 0) (let '(g0, fs) := a in map (fun f => (f, g0, vols f / (fst (m2_dx m) * snd (m2_dx m)))) fs)) (m2_owner m)
               = lsum vols (owners m c) / (fst (m2_dx m) * snd (m2_dx m))).
  { assert (G : forall a : Z * list Z, lsum (fun t => if (t_col t =? g)%Z then t_val t * 1 else 0) (let '(g0, fs) := a in map (fun f => (f, g0, vols f / (fst (m2_dx m) * snd (m2_dx m)))) fs) = if (fst a =? g)%Z then lsum vols (snd a) / (fst (m2_dx m) * snd (m2_dx m)) else 0).
    { intros [g0 fs]. rewrite lsum_map. unfold t_col, t_val. cbn [fst snd]. destruct (g0 =? g)%Z; [|apply lsum_0; auto]. rewrite (@lsum_ext _ _ (fun f => / (fst (m2_dx m) * snd (m2_dx m)) * vols f)) by (intros; unfold Qcdiv; ring). rewrite lsum_scale. unfold Qcdiv. ring. }
    rewrite (lsum_ext _ _ _ (fun a _ => G a)). unfold owners. fold g. destruct (map_find Z.compare g (m2_owner m)) as [l|] eqn:MF.
    - apply (map_find_Some Zcompare_total) in MF; auto. rewrite (@lsum_single _ _ _ (g, l)); [cbn [fst snd]; rewrite Z.eqb_refl; auto| |auto|].
      + apply NoDup_map_inv with (f := fst). apply (ssorted_NoDup Zcompare_total). auto.
      + intros [g' l'] I N. cbn [fst]. destruct (Z.eqb_spec g' g); auto. subst g'. exfalso. apply N. f_equal. apply (map_find_Some Zcompare_total) in I; auto. apply (map_find_Some Zcompare_total) in MF; auto. congruence.
    - rewrite lsum_0; [cbn; unfold Qcdiv; ring|]. intros [g' l'] I. cbn [fst]. destruct (Z.eqb_spec g' g); auto. subst g'. apply (map_find_None Zcompare_total) in MF; auto. exfalso. apply MF. apply (in_map fst) in I. auto. }
  destruct (c33_index_bijection (m2_cells m) (m2_mask m)) as (LN & B & B' & BN).
  assert (E2 : lsum (fun a : Z * coord => if (t_col (let '(i, c0) := a in ((i + num_cutfaces m)%Z, ravel (m2_cells m) c0, 1%Qc)) =? g)%Z then t_val (let '(i, c0) := a in ((i + num_cutfaces m)%Z, ravel (m2_cells m) c0, 1)) * 1 else 0) (enum (cell_coords (m2_cells m) (m2_mask m)))
               = bit (m2_mask m c)).
  { destruct (m2_mask m c) eqn:M.
    - destruct (B c (conj HC M)) as [R N]. rewrite (@lsum_single _ _ _ (ext_cell_index (m2_cells m) (m2_mask m) c, c)).
      + unfold t_col, t_val. cbn [fst snd]. fold g. rewrite Z.eqb_refl. cbn. ring.
      + apply enum_NoDup.
      + apply enum_In. split; [lia|auto].
      + intros [i c'] I NE. apply enum_In in I as [I1 I2]. destruct (B' _ _ I2) as [[X1 X2] X3]. unfold t_col. cbn [fst snd]. destruct (Z.eqb_spec (ravel (m2_cells m) c') g) as [Q|Q]; auto. exfalso. apply NE. apply ravel_inj in Q; auto. subst c'. f_equal. lia.
    - apply lsum_0. intros [i c'] I. apply enum_In in I as [I1 I2]. destruct (B' _ _ I2) as [[X1 X2] X3]. unfold t_col. cbn [fst snd]. destruct (Z.eqb_spec (ravel (m2_cells m) c') g) as [Q|Q]; auto. apply ravel_inj in Q; auto. congruence. }
  etransitivity; [apply f_equal2; [exact E1|exact E2]|]. destruct (F c HC) as [[-> ->]|[-> ->]]; cbn [lsum bit]; field; auto.
Qed.
(** the row of a cut face holds its volume fraction at its grid cell; the row of an exterior cell a 1 at its cell *)
Theorem c71_rows m vols : ssorted Z.compare (keys (m2_owner m)) ->
  (forall r c, (0 <= r < num_cutfaces m)%Z -> in_shape (m2_cells m) c = true -> NoDup (owners m c) -> (In r (owners m c) -> coeff (face_grid_volumes m vols) r (ravel (m2_cells m) c) = vols r / (fst (m2_dx m) * snd (m2_dx m))) /\ (~ In r (owners m c) -> coeff (face_grid_volumes m vols) r (ravel (m2_cells m) c) = 0)) /\
  (owners_valid m -> forall i c c', nth_error (cell_coords (m2_cells m) (m2_mask m)) i = Some c' -> in_shape (m2_cells m) c = true -> coeff (face_grid_volumes m vols) (Z.of_nat i + num_cutfaces m) (ravel (m2_cells m) c) = bit (coord_eqb c c')).
Proof.
  intros SO. assert (G : forall r c, in_shape (m2_cells m) c = true -> coeff (flat_map (fun '(g, fs) => map (fun f => (f, g, vols f / (fst (m2_dx m) * snd (m2_dx m)))) fs) (m2_owner m)) r (ravel (m2_cells m) c) = lsum (fun f => if (f =? r)%Z then vols f / (fst (m2_dx m) * snd (m2_dx m)) else 0) (owners m c)).
  { intros r c HC. rewrite coeff_flat. set (g := ravel (m2_cells m) c). rewrite (@lsum_ext _ _ (fun a => if (fst a =? g)%Z then lsum (fun f => if (f =? r)%Z then vols f / (fst (m2_dx m) * snd (m2_dx m)) else 0) (snd a) else 0)).
    - unfold owners. fold g. destruct (map_find Z.compare g (m2_owner m)) as [l|] eqn:MF.
      + apply (map_find_Some Zcompare_total) in MF; auto. rewrite (@lsum_single _ _ _ (g, l)); [cbn [fst snd]; rewrite Z.eqb_refl; auto| |auto|].
        * apply NoDup_map_inv with (f := fst). apply (ssorted_NoDup Zcompare_total). auto.
        * intros [g' l'] I N. cbn [fst]. destruct (Z.eqb_spec g' g); auto. subst g'. exfalso. apply N. f_equal. apply (map_find_Some Zcompare_total) in I; auto. apply (map_find_Some Zcompare_total) in MF; auto. congruence.
      + cbn [lsum]. apply lsum_0. intros [g' l'] I. cbn [fst]. destruct (Z.eqb_spec g' g); auto. subst g'. apply (map_find_None Zcompare_total) in MF; auto. exfalso. apply MF. apply (in_map fst) in I. auto.
    - intros [g' l'] _. unfold coeff. rewrite lsum_map. unfold t_row, t_col, t_val. cbn [fst snd]. destruct (g' =? g)%Z; [apply lsum_ext; intros f _; rewrite andb_true_r; auto|apply lsum_0; intros f _; rewrite andb_false_r; auto]. }
  destruct (c33_index_bijection (m2_cells m) (m2_mask m)) as (LN & B & B' & BN). split.
  - intros r c HR HC ND. unfold face_grid_volumes. rewrite coeff_app, G by auto. rewrite (coeff_0 (map _ (enum _))).
    + split; intros H.
      * rewrite (@lsum_single _ _ _ r); auto; [rewrite Z.eqb_refl; ring|]. intros a _ N. rewrite (proj2 (Z.eqb_neq a r)); auto.
      * rewrite lsum_0; [ring|]. intros a I. destruct (Z.eqb_spec a r); auto. subst. contradiction.
    + intros v I. apply in_map_iff in I as ([i c'] & E & I). apply enum_In in I as [I _]. assert (E' := f_equal (fun t => fst (fst t)) E). cbn in E'. lia.
  - intros OV i c c' H HC. unfold face_grid_volumes. rewrite coeff_app, G by auto. rewrite (@lsum_0 _ _ (owners m c)).
    + rewrite Qcplus_0_l. unfold coeff. rewrite lsum_map. rewrite (@lsum_single _ _ _ (Z.of_nat i, c')); [|apply enum_NoDup|apply enum_In; split; [lia|rewrite Nat2Z.id; auto]|].
      * unfold t_row, t_col, t_val. cbn [fst snd]. rewrite Z.eqb_refl. cbn [andb]. destruct (B' _ _ H) as [[X1 X2] X3]. destruct (coord_eqb c c') eqn:Q.
        -- apply coord_eqb_eq in Q. subst. rewrite Z.eqb_refl. auto.
        -- rewrite (proj2 (Z.eqb_neq _ _)); auto. intros Y. apply ravel_inj in Y; auto. subst. rewrite (proj2 (coord_eqb_eq c c) eq_refl) in Q. discriminate.
      * intros [j c''] J N. apply enum_In in J as [J1 J2]. unfold t_row, t_col, t_val. cbn [fst snd]. destruct (Z.eqb_spec (j + num_cutfaces m) (Z.of_nat i + num_cutfaces m)) as [Q|Q]; auto. exfalso. apply N. assert (j = Z.of_nat i) by lia. subst j. rewrite Nat2Z.id in J2. congruence.
    + intros f I. apply OV in I as [ff Hf]. apply is_face_range in Hf. rewrite (proj2 (Z.eqb_neq f _)); auto. lia.
Qed.
(** hypotheses hold for the sample mesh: cell 0 filled by its one cut face, cell 1 exterior *)
Example c71_example : filled sample2 (fun _ => 1) /\ ssorted Z.compare (keys (m2_owner sample2)).
Proof.
  split; [|repeat constructor]. intros c HC. assert (L := in_shape_length _ _ HC). destruct c as [|x [|y [|? ?]]]; try discriminate. cbn in HC. apply andb_true_iff in HC as [H1 H2].
  assert (y = 0%Z) by lia. subst y. assert (X : x = 0%Z \/ x = 1%Z) by lia. destruct X as [-> | ->]; [right|left]; (split; [reflexivity|]); reflexivity.
Qed.

(** ** C72: grid face -> cut face volume fractions *)
(** 3D: a face covering a fraction of the area of its grid face, with unit normal along the bound axis, gets plus or minus that fraction *)
Definition square_area (dx : q3) (axis : nat) : Qc := q3_at dx ((axis + 1) mod 3) * q3_at dx ((axis + 2) mod 3).
Theorem c72_face_fraction m inc f fv k c axis v : face_grid_entry m inc f fv = Some (Some (c, axis, v)) -> (Z.to_nat axis < 3)%nat -> square_area (m_dx m) (Z.to_nat axis) <> 0 -> fv = k * square_area (m_dx m) (Z.to_nat axis) ->
  axis = bound_axis (cf_mask f) /\ v = k * q3_at (cf_N f) (Z.to_nat axis) /\ (q3_at (cf_N f) (Z.to_nat axis) = 1 \/ q3_at (cf_N f) (Z.to_nat axis) = - (1) -> qabs v = qabs k).
Proof.
  unfold face_grid_entry. destruct (if inc then _ else _); [|discriminate]. destruct (fold_right _ _ _) as [[|c0 cs]|]; try discriminate. intros H LT NA FV. apply Some_inj, Some_inj in H. apply pair_equal_spec in H as [H HV]. apply pair_equal_spec in H as [_ <-].
  assert (SA : square_area (m_dx m) (Z.to_nat (bound_axis (cf_mask f))) = grid_face_area (m_dx m) (Z.to_nat (bound_axis (cf_mask f)))).
  { revert LT. destruct (Z.to_nat (bound_axis (cf_mask f))) as [|[|[|n]]]; intros LT; [| | |lia]; unfold square_area, grid_face_area; cbn; ring. }
  rewrite SA in NA, FV. split; auto. assert (V : v = k * q3_at (cf_N f) (Z.to_nat (bound_axis (cf_mask f)))) by (rewrite <- HV, FV; field; auto). split; auto. intros [N|N]; rewrite V, N; [f_equal; ring|]. replace (k * - (1)) with (- k) by ring.
  unfold qabs. destruct (qltb (- k) 0) eqn:E1, (qltb k 0) eqn:E2; try ring.
  - apply qltb_lt in E1, E2. exfalso. apply (Qclt_not_le _ _ E1). qc_lra.
  - apply qltb_ge in E1, E2. assert (K : k = 0) by (apply Qcle_antisym; qc_lra). rewrite K. ring.
Qed.
(** the column is the componentwise minimum of the coordinates of its vertices; which faces get an entry *)
Lemma coord_min_le a b : length a = length b -> Forall2 Z.le (coord_min a b) a /\ Forall2 Z.le (coord_min a b) b /\ length (coord_min a b) = length a.
Proof. revert b. unfold coord_min. induction a as [|x a IH]; intros [|y b] L; try discriminate; cbn; [split; [constructor|split; [constructor|auto]]|]. destruct (IH b ltac:(auto)) as (A & B & C). split; [constructor; [lia|auto]|split; [constructor; [lia|auto]|lia]]. Qed.
Lemma Forall2_le_trans a : forall b c, Forall2 Z.le a b -> Forall2 Z.le b c -> Forall2 Z.le a c.
Proof. induction a as [|x a IH]; intros b c H1 H2; inversion H1; subst; inversion H2; subst; constructor; [lia|]. eapply IH; eauto. Qed.
Lemma fold_min cs : forall c, Forall (fun d : coord => length d = length c) cs -> let r := fold_left coord_min cs c in
  length r = length c /\ Forall (Forall2 Z.le r) (c :: cs) /\ forall i x, nth_error r i = Some x -> exists d, In d (c :: cs) /\ nth_error d i = Some x.
Proof.
  induction cs as [|d cs IH]; intros c F; cbn [fold_left]; cbn zeta.
  - split; auto. split; [constructor; auto; clear; induction c; constructor; auto; lia|]. intros i x H. exists c. split; [left|]; auto.
  - inversion F as [|? ? F1 F2]; subst. destruct (coord_min_le c d ltac:(auto)) as (A & B & C). destruct (IH (coord_min c d)) as (I1 & I2 & I3); [rewrite C; auto|]. split; [lia|]. inversion I2 as [|? ? J1 J2]; subst. split.
    + constructor; [eapply Forall2_le_trans; eauto|]. constructor; [eapply Forall2_le_trans; eauto|auto].
    + intros i x H. destruct (I3 i x H) as (e & [<-|E] & N); [|exists e; split; [right; right; auto|auto]]. unfold coord_min in N. rewrite nth_error_zipwith in N. destruct (nth_error c i) as [u|] eqn:NC; [|discriminate]. destruct (nth_error d i) as [w|] eqn:ND; [|discriminate]. injection N as N.
      destruct (Z.min_spec u w) as [[_ M]|[_ M]]; [exists c; split; [left; auto|congruence]|exists d; split; [right; left; auto|congruence]].
Qed.
Theorem c72_face_column m inc f fv c axis v : Forall (v_wf 3) (m_verts m) -> face_grid_entry m inc f fv = Some (Some (c, axis, v)) ->
  (forall i, In i (concat (cf_loops f)) -> exists w, masked_vertex (list3 (m_vshape m)) (m_verts m) i = Some w /\ Forall2 Z.le c (v_coord w)) /\
  (forall a x, nth_error c a = Some x -> exists i w, In i (concat (cf_loops f)) /\ masked_vertex (list3 (m_vshape m)) (m_verts m) i = Some w /\ nth_error (v_coord w) a = Some x) /\
  (inc = false -> is_axial f = true) /\ (inc = true -> mask_count (cf_mask f) = 1%nat).
Proof.
  intros WV. unfold face_grid_entry. destruct (if inc then _ else _) eqn:EI; [|discriminate]. destruct (fold_right _ _ _) as [[|c0 cs]|] eqn:FR; try discriminate. intros H. apply Some_inj, Some_inj in H. apply pair_equal_spec in H as [H _]. apply pair_equal_spec in H as [<- _].
  assert (G : forall l r, fold_right (fun i acc => match acc, masked_vertex (list3 (m_vshape m)) (m_verts m) i with Some l, Some v => Some (v_coord v :: l) | _, _ => None end) (Some []) l = Some r -> Forall2 (fun i d => exists w, masked_vertex (list3 (m_vshape m)) (m_verts m) i = Some w /\ v_coord w = d) l r).
  { clear. induction l as [|i l IH]; intros r H; cbn in H; [apply Some_inj in H; subst; constructor|]. destruct (fold_right _ _ l); [|discriminate]. destruct (masked_vertex _ _ i) eqn:M; [|discriminate]. apply Some_inj in H. subst. constructor; eauto. }
  apply G in FR. assert (LW : forall i w, masked_vertex (list3 (m_vshape m)) (m_verts m) i = Some w -> length (v_coord w) = 3%nat).
  { intros i w. unfold masked_vertex. destruct (i <? 0)%Z; [discriminate|]. destruct (i <? _)%Z.
    - intros E. apply Some_inj in E. subst w. destruct (m_vshape m) as [[s0 s1] s2]. reflexivity.
    - intros E. apply nth_error_In in E. rewrite Forall_forall in WV. apply WV in E. apply E. }
  assert (LC : Forall (fun d : coord => length d = 3%nat) (c0 :: cs)). { clear - FR LW. revert FR. generalize (c0 :: cs). intros L FR. induction FR as [|i d l r (w & W1 & W2) FR IH]; constructor; auto. subst d. eauto. }
  inversion LC as [|? ? LC1 LC2]; subst. destruct (fold_min cs c0) as (F1 & F2 & F3); [rewrite LC1; auto|]. cbn zeta in *. split; [|split; [|split]].
  - intros i I. change (@Forall coord (Forall2 Z.le (fold_left coord_min cs c0)) (@cons coord c0 cs)) in F2. clear - I FR F2. revert F2. generalize (fold_left coord_min cs c0). revert FR. generalize (c0 :: cs). intros L FR z F2. induction FR as [|j d l r (w & W1 & W2) FR IH]; [contradiction|]. inversion F2; subst. destruct I as [<-|I]; eauto.
  - intros a x H. destruct (F3 a x H) as (d & D1 & D2). change (@In coord d (@cons coord c0 cs)) in D1. clear - D1 D2 FR. revert FR D1. generalize (c0 :: cs). intros L FR D1. induction FR as [|j d' l r (w & W1 & W2) FR IH]; [contradiction|]. destruct D1 as [->|D1]; [exists j, w; split; [left; auto|split; [auto|congruence]]|]. destruct (IH D1) as (i & w' & X1 & X2). exists i, w'. split; [right|]; auto.
  - intros ->. auto.
  - intros ->. apply Nat.eqb_eq. auto.
Qed.
(** 2D: which edges get an entry, and at which grid edge: the one starting at the smaller of the coordinates of its two vertices, along the axis on which the edge is free *)
Theorem c72_edge_column m e ev c axis v : Forall (v_wf 2) (m2_verts m) -> length (m2_cells m) = 2%nat -> edge_grid_entry m e ev = Some (Some (c, axis, v)) ->
  exists a b, masked_vertex (vshape2 m) (m2_verts m) (fst (e2_ix e)) = Some a /\ masked_vertex (vshape2 m) (m2_verts m) (snd (e2_ix e)) = Some b /\
    mask_count (e2_mask e) = 1%nat /\ axis = unbound_axis (e2_mask e) /\ length c = 2%nat /\
    forall d, (d < 2)%nat -> nth d c 0%Z = Z.min (nth d (v_coord a) 0%Z) (nth d (v_coord b) 0%Z).
Proof.
  intros WV LS. unfold edge_grid_entry. destruct (Nat.eqb_spec (mask_count (e2_mask e)) 1); [|discriminate].
  destruct (masked_vertex _ _ (fst _)) as [a|] eqn:A; [|discriminate]. destruct (masked_vertex _ _ (snd _)) as [b|] eqn:B; [|discriminate].
  intros H. apply Some_inj, Some_inj in H. apply pair_equal_spec in H as [H _]. apply pair_equal_spec in H as [<- <-].
  assert (LW : forall i w, masked_vertex (vshape2 m) (m2_verts m) i = Some w -> length (v_coord w) = 2%nat).
  { intros i w. unfold masked_vertex. destruct (i <? 0)%Z; [discriminate|]. destruct (i <? _)%Z.
    - intros E. apply Some_inj in E. subst w. unfold vshape2. destruct (m2_cells m) as [|s0 [|s1 [|? ?]]]; try discriminate. reflexivity.
    - intros E. apply nth_error_In in E. rewrite Forall_forall in WV. apply WV in E. apply E. }
  exists a, b. split; [auto|]. split; [auto|]. split; [auto|]. split; [auto|]. apply LW in A, B.
  destruct (v_coord a) as [|x0 [|x1 [|? ?]]]; try discriminate. destruct (v_coord b) as [|y0 [|y1 [|? ?]]]; try discriminate. split; [reflexivity|].
  intros [|[|d]] Hd; [reflexivity|reflexivity|lia].
Qed.
(** 2D, refuted: the entry divides by dx * dy, so a grid edge covered by the fraction k gets k over the OTHER spacing *)
Theorem c72_edge_fraction_refuted m e ev c axis v k : edge_grid_entry m e ev = Some (Some (c, axis, v)) -> fst (m2_dx m) <> 0 -> snd (m2_dx m) <> 0 -> ev = k * axis2 (m2_dx m) (Z.to_nat axis) ->
  (axis = 0 \/ axis = 1)%Z -> let other := axis2 (m2_dx m) (Z.to_nat (1 - axis)) in v = k / other /\ (v = k <-> k = 0 \/ other = 1).
Proof.
  unfold edge_grid_entry. destruct (mask_count _ =? 1)%nat; [|discriminate]. destruct (masked_vertex _ _ (fst _)); [|discriminate]. destruct (masked_vertex _ _ (snd _)); [|discriminate]. intros H D0 D1 -> A. apply Some_inj, Some_inj in H. apply pair_equal_spec in H as [H HV]. apply pair_equal_spec in H as [_ HA]. cbn zeta.
  assert (G : forall o, o <> 0 -> v = k / o -> v = k / o /\ (v = k <-> k = 0 \/ o = 1)).
  { intros o NO ->. split; auto. split.
    - intros E. destruct (Qc_eq_dec k 0); auto. right. assert (E2 : k = k * o) by (rewrite <- E at 2; field; auto). assert (E3 : k * (o - 1) = 0) by (replace (k * (o - 1)) with (k * o - k) by ring; rewrite <- E2; ring).
      apply Qcmult_integral in E3 as [E3|E3]; [contradiction|]. replace o with (o - 1 + 1) by ring. rewrite E3. ring.
    - intros [-> | ->]; field; auto; discriminate. }
  destruct A as [-> | ->]; [change (Z.to_nat (1 - 0)) with 1%nat in *; change (Z.to_nat 0) with 0%nat in *|change (Z.to_nat (1 - 1)) with 0%nat in *; change (Z.to_nat 1) with 1%nat in *]; cbn [axis2] in *; apply G; auto; rewrite <- HV; field; auto.
Qed.
(** a grid edge of length 1 along axis 0, fully covered, on a grid with spacing (1, 1/2): the entry is 2, not 1 *)
Example c72_edge_example : let m := mkMesh2 (0, 0) (1, qhalf) [2; 1]%Z [] [] [] (fun _ => true) [] [] [] in
  option_map (option_map (fun '(c, a, v) => (c, a, this v))) (edge_grid_entry m (mkEdge2 [None; Some 0%Z] (0, 2)%Z (AxialEdge 1 0) None) 1) = Some (Some ([0; 0]%Z, 0%Z, 2%Q)).
Proof. reflexivity. Qed.
Example c72_face_example : let m := mkMesh (0, 0, 0) (1, 1, qhalf) (2, 2, 2)%Z [] [] (fun _ => true) [] [] [] [] [] [] [] [] [] in
  option_map (option_map (fun '(c, a, v) => (c, a, this v))) (face_grid_entry m false (mkCutFace [Some 1%Z; None; None] [[4; 6; 7]%Z] (AxialFace 0 1) (- (1), 0, 0) None None None) (Q2Qc (1 # 4))) = Some (Some ([1; 0; 0]%Z, 0%Z, (-1 # 2)%Q)).
Proof. reflexivity. Qed.
