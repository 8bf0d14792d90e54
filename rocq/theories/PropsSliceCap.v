(** C154: the cap, the vertex table and the result of a slice. *)
From Verif Require Import Base Num CoordMask Vertex VertexSpec VertexProofs Grid CrossingsSpec CrossingsProofs Crossings SmallestEdge AdaptiveGrid Mesh Sparse Volume VolumeProofs Queries3 PropsQueries3 Triangulate PropsTriang Slicer PropsSlicer SliceCap PropsExport PropsConstruct.
Set Implicit Arguments.
Local Open Scope Z_scope.

Lemma plane_at v : v_wf 3 v -> normalised v -> (match nth 2 (v_mask v) None with Some k => k =? 1 | None => false end = true <-> nth 2 (pos v) 0%Qc = 1%Qc).
Proof.
  intros (L1 & L2 & L3) N. unfold v_mask, pos. destruct v as [c q b]. unfold normalised in N. cbn [v_coord v_quot] in *.
  destruct c as [|c0 [|c1 [|c2 [|? ?]]]]; try discriminate. destruct q as [|q0 [|q1 [|q2 [|? ?]]]]; try discriminate. cbn [zipwith nth]. clear L1 L2 L3.
  inversion N as [|? ? _ N1]; subst. inversion N1 as [|? ? _ N2]; subst. inversion N2 as [|? ? [Q0 Q1] _]; subst. clear N N1 N2. split.
  - destruct (qeqb q2 0) eqn:E; [|discriminate]. apply qeqb_eq in E. intros H. apply Z.eqb_eq in H. subst. apply Qc_is_canon. reflexivity.
  - intros H. assert (F : qfloor (Z2Qc c2 + q2) = c2) by (apply qfloor_unique; [qc_lra|qc_lra]). rewrite H in F. assert (F1 : qfloor 1%Qc = 1) by reflexivity. rewrite F1 in F. subst c2. assert (E : q2 = 0%Qc) by (assert (E1 : Z2Qc 1 = 1%Qc) by reflexivity; rewrite E1 in H; clear - H; revert H; generalize q2; intros q H; qc_lra). subst q2. reflexivity.
Qed.
(** ** the vertex table *)
Lemma column_spec cs i : match column cs i with Some p => exists v, In (v, i) cs /\ p = pos v | None => forall v, ~ In (v, i) cs end.
Proof.
  unfold column. assert (G : forall cs r, match fold_left (fun r c => if snd c =? i then Some (pos (fst c)) else r) cs r with Some p => (exists v, In (v, i) cs /\ p = pos v) \/ r = Some p | None => r = None /\ forall v, ~ In (v, i) cs end).
  { clear cs. induction cs as [|[v k] cs IH]; intros r; cbn [fold_left fst snd]; [destruct r; auto|]. specialize (IH (if k =? i then Some (pos v) else r)). destruct (fold_left _ cs _) as [p|].
    - destruct IH as [(w & I & E)|E]; [left; exists w; cbn; auto|]. destruct (Z.eqb_spec k i) as [->|]; [|auto]. left. exists v. split; [cbn; auto|congruence].
    - destruct IH as [E NI]. destruct (Z.eqb_spec k i) as [->|N]; [discriminate|]. split; auto. intros w [X|X]; [injection X as _ X; auto|apply (NI w); auto]. }
  specialize (G cs None). destruct (fold_left _ cs None); [destruct G as [G|G]; [auto|discriminate]|apply G].
Qed.
Lemma table_size_eq cs : table_size cs = cut_vertex_size sshape (map snd cs).
Proof. unfold table_size, cut_vertex_size. generalize (shape_size sshape). induction cs as [|[v i] cs IH]; intros a; cbn [map fold_left snd]; auto. Qed.
(** every crossing is found in the slicer's table at its index with its own world position, the first twelve entries are the grid's vertices, and no entry is left unset *)
Theorem c154_table : forall vs r c g, Forall (good_crossing 3 sshape) vs -> compute_crossings sshape vs = (r, c) ->
  exists T, slice_table g (combine vs r) = Some T /\ Z.of_nat (length T) = c /\
    (forall j v i, nth_error vs j = Some v -> nth_error r j = Some i -> corner_at T i = Some (world_coord g (q3_of (pos v)))) /\
    (forall p, in_shape sshape p = true -> corner_at T (ravel sshape p) = Some (world_coord g (q3_of (map Z2Qc p)))).
Proof.
  intros vs r c g HG HC. destruct (compute_crossings_spec 3 sshape vs r c HG HC) as (L & A1 & A2 & A3). assert (SZ := cut_vertex_size_spec 3 sshape vs r c HG HC).
  assert (HSND : map snd (combine vs r) = r) by (clear - L; revert vs L; induction r as [|x r IH]; intros [|v vs] L; cbn in *; try discriminate; auto; f_equal; auto).
  assert (INC : forall v i, In (v, i) (combine vs r) <-> exists j, nth_error vs j = Some v /\ nth_error r j = Some i).
  { clear - L. revert vs L. induction r as [|x r IH]; intros [|u vs] L v i; cbn in *; try discriminate.
    - split; [intros []|]. intros (j & H & _). destruct j; discriminate.
    - rewrite IH by lia. split.
      + intros [H|(j & H1 & H2)]; [injection H as <- <-; exists 0%nat; auto|exists (S j); auto].
      + intros ([|j] & H1 & H2); cbn in *; [left; congruence|right; eauto]. }
  assert (TS : table_size (combine vs r) = c) by (rewrite table_size_eq, HSND; auto).
  assert (C12 : 12 <= c). { rewrite <- SZ. unfold cut_vertex_size. destruct (fold_max_ge r (shape_size sshape)) as (H1 & _). exact H1. }
  assert (DEF : forall i, In i (zseq c) -> slice_vertex g (combine vs r) i = Some (match slice_vertex g (combine vs r) i with Some p => p | None => (0, 0, 0)%Qc end)).
  { intros i I. apply zseq_in in I. destruct (slice_vertex g (combine vs r) i) eqn:E; auto. exfalso. unfold slice_vertex in E. destruct (Z.ltb_spec i (shape_size sshape)); [discriminate|]. assert (X := column_spec (combine vs r) i). destruct (column _ i); [discriminate|]. destruct (A3 i ltac:(lia)) as (j & v & Hv & Hr & _). apply (X v), INC. eauto. }
  set (T := map (fun i => match slice_vertex g (combine vs r) i with Some p => p | None => (0, 0, 0)%Qc end) (zseq c)). exists T. split; [|split; [|split]].
  - unfold slice_table. rewrite TS. apply sequence_all. auto.
  - unfold T. rewrite map_length, zseq_length by lia. lia.
  - intros j v i Hv Hr. assert (R : 0 <= i < c). { destruct (A2 _ _ _ Hv Hr) as [B1 B2]. change (shape_size sshape) with 12 in *. destruct (is_grid_vertex v); [destruct (B1 eq_refl); lia|specialize (B2 eq_refl); lia]. }
    unfold corner_at. destruct (Z.ltb_spec i 0); [lia|]. unfold T. rewrite nth_error_map, zseq_nth by lia. rewrite Z2Nat.id by lia. cbn [option_map]. f_equal.
    assert (HGv := proj1 (Forall_forall _ _) HG v (nth_error_In _ _ Hv)). destruct HGv as (WF & NM & FL & IS).
    unfold slice_vertex. destruct (Z.ltb_spec i (shape_size sshape)).
    + destruct (A2 _ _ _ Hv Hr) as [B1 B2]. destruct (is_grid_vertex v) eqn:GV; [|specialize (B2 eq_refl); lia]. destruct (B1 eq_refl) as [-> _]. rewrite unravel_ravel by auto. do 2 f_equal.
      assert (Q : forall c q b, Forall2 (fun (b : bool) q => b = true <-> q = 0%Qc) b q -> forallb (fun b => b) b = true -> length c = length q -> map Z2Qc c = zipwith (fun c q => Z2Qc c + q)%Qc c q).
      { clear. intros c q b F. revert c. induction F as [|b q bs qs H F IH]; intros [|c cs] G E; try discriminate; auto. cbn [map zipwith forallb] in *. apply andb_prop in G as [-> G]. rewrite (proj1 H eq_refl), Qcplus_0_r. f_equal. apply IH; auto. }
      destruct WF as (W1 & W2 & W3). unfold pos. eapply Q; eauto. congruence.
    + assert (X := column_spec (combine vs r) i). destruct (column _ i) as [p|]; [|exfalso; apply (X v), INC; eauto]. destruct X as (w & I & ->). apply INC in I as (k & Hk & Hk'). cbn [option_map]. rewrite (proj1 (A1 _ _ _ _ _ _ Hk Hv Hk' Hr) eq_refl). auto.
  - intros p IP. assert (R := ravel_range _ _ IP). change (shape_size sshape) with 12 in R. unfold corner_at. destruct (Z.ltb_spec (ravel sshape p) 0); [lia|]. unfold T. rewrite nth_error_map, zseq_nth by lia. rewrite Z2Nat.id by lia. cbn [option_map]. f_equal.
    unfold slice_vertex. change (shape_size sshape) with 12. destruct (Z.ltb_spec (ravel sshape p) 12); [|lia]. rewrite unravel_ravel by auto. auto.
Qed.
(** ** the edges handed to the cap *)
Lemma world_height V g a b z : embedding V = Some g -> (snd (sg_dx g) <> 0)%Qc -> (snd (world_coord g (a, b, z)) = 0 <-> z = 1)%Qc.
Proof.
  intros E NZ. assert (M := c94_middle_plane V g E a b). unfold world_coord in *. destruct (sg_origin g) as [[ox oy] oz], (sg_dx g) as [[dx dy] dz]. cbn [snd] in *. split.
  - intros H. assert (D : (dz * z = dz * 1)%Qc) by (transitivity ((oz + dz * z) - oz)%Qc; [ring|]; transitivity ((oz + dz * 1) - oz)%Qc; [rewrite H, M; auto|ring]).
    assert (X : ((z - 1) * dz = 0)%Qc) by (replace ((z - 1) * dz)%Qc with (dz * z - dz * 1)%Qc by ring; rewrite D; ring). apply Qcmult_integral in X as [X|X]; [|contradiction]. replace z with ((z - 1) + 1)%Qc by ring. rewrite X. ring.
  - intros ->. exact M.
Qed.
Lemma is_boundary_spec vs r c V g i p : Forall (good_crossing 3 sshape) vs -> compute_crossings sshape vs = (r, c) -> embedding V = Some g -> (snd (sg_dx g) <> 0)%Qc ->
  forall T, slice_table g (combine vs r) = Some T -> corner_at T i = Some p -> (is_boundary (combine vs r) i = true <-> snd p = 0%Qc).
Proof.
  intros HG HC EM NZ T HT Hp. destruct (c154_table g HG HC) as (T' & HT' & LT & TV & TG). rewrite HT in HT'. apply Some_inj in HT'. subst T'. destruct (compute_crossings_spec 3 sshape vs r c HG HC) as (L & A1 & A2 & A3).
  assert (R : 0 <= i < c). { unfold corner_at in Hp. destruct (Z.ltb_spec i 0); [discriminate|]. assert (X : (Z.to_nat i < length T)%nat) by (apply nth_error_Some; congruence). lia. }
  unfold is_boundary. destruct (Z.ltb_spec i (shape_size sshape)) as [LT12|GE12].
  - assert (PS : pos_shape sshape) by (unfold sshape; repeat constructor). destruct (@unravel_in sshape i PS ltac:(lia)) as [IS RV]. assert (Y := TG _ IS). rewrite RV, Hp in Y. apply Some_inj in Y. subst p. assert (LL := in_shape_length _ _ IS). cbn [length sshape] in LL. destruct (unravel sshape i) as [|a [|b [|z [|? ?]]]]; try discriminate. cbn [map q3_of nth].
    unfold q3_of. cbn [nth]. rewrite (@world_height _ _ _ _ _ EM NZ). rewrite Z.eqb_eq. split; [intros ->; reflexivity|]. intros H. apply (f_equal qfloor) in H. rewrite qfloor_Z in H. exact H.
  - destruct (A3 i ltac:(lia)) as (j & v & Hv & Hr & NG). assert (Y := TV _ _ _ Hv Hr). rewrite Hp in Y. apply Some_inj in Y. subst p.
    assert (HGv := proj1 (Forall_forall _ _) HG v (nth_error_In _ _ Hv)). destruct HGv as (WF & NM & _). unfold q3_of. rewrite (@world_height _ _ _ _ _ EM NZ), <- (plane_at WF NM). rewrite existsb_exists. split.
    + intros (x & I & E). apply Z.eqb_eq in E. subst x. unfold plane_verts in I. apply (proj1 (set_of_list_In Zcompare_total _ _)) in I. apply in_map_iff in I as ((w & k) & E & I). cbn in E. subst k. apply filter_In in I as [I Q]. cbn [fst] in Q.
      assert (exists k, nth_error vs k = Some w /\ nth_error r k = Some i) as (k & Hk & Hk').
      { clear - I. revert r I. induction vs as [|u us IH]; intros [|x r] I; cbn in I; try (destruct I; fail). destruct I as [I|I]; [injection I as -> ->; exists 0%nat; auto|]. destruct (IH _ I) as (k & H). exists (S k). auto. }
      assert (HGw := proj1 (Forall_forall _ _) HG w (nth_error_In _ _ Hk)). destruct HGw as (WF' & NM' & _). apply (plane_at WF' NM') in Q. apply (plane_at WF NM). rewrite <- (proj1 (A1 _ _ _ _ _ _ Hk Hv Hk' Hr) eq_refl). auto.
    + intros Q. exists i. split; [|apply Z.eqb_refl]. unfold plane_verts. apply (proj2 (set_of_list_In Zcompare_total _ _)). apply in_map_iff. exists (v, i). split; auto. apply filter_In. split; [|exact Q].
      clear - Hv Hr. revert r j Hv Hr. induction vs as [|u us IH]; intros [|x r] [|j] Hv Hr; cbn in *; try discriminate; [left; congruence|right; eauto].
Qed.
(** the cap is made from exactly the cut edges both of whose ends are in the cutting plane *)
Theorem c154_edges : forall vs r c V g T edges e, Forall (good_crossing 3 sshape) vs -> compute_crossings sshape vs = (r, c) -> embedding V = Some g -> (snd (sg_dx g) <> 0)%Qc ->
  slice_table g (combine vs r) = Some T -> (forall e, In e edges -> in_table T (fst e) /\ in_table T (snd e)) ->
  (In e (plane_edges (combine vs r) edges) <-> In e edges /\ exists p q, corner_at T (fst e) = Some p /\ corner_at T (snd e) = Some q /\ snd p = 0%Qc /\ snd q = 0%Qc).
Proof.
  intros vs r c V g T edges e HG HC EM NZ HT HE. unfold plane_edges. rewrite filter_In, andb_true_iff. split.
  - intros (I & B1 & B2). split; auto. destruct (HE _ I) as [T1 T2]. apply corner_some in T1, T2. destruct (corner_at T (fst e)) as [p|] eqn:P; [|congruence]. destruct (corner_at T (snd e)) as [q|] eqn:Q; [|congruence]. exists p, q. split; auto. split; auto.
    split; [eapply is_boundary_spec; eauto|eapply is_boundary_spec; eauto].
  - intros (I & p & q & P & Q & Zp & Zq). split; auto. split; [eapply is_boundary_spec; eauto|eapply is_boundary_spec; eauto].
Qed.
(** ** the cap *)
Lemma tri_false X V loops a c W F : triangulate_triangle X V loops a c false = Some (W, F) -> W = [] /\ forall t, In t F -> let '(x, y, z) := t in forall v, In v [x; y; z] -> exists l, In l loops /\ In v l.
Proof.
  unfold triangulate_triangle. destruct (used_vertices loops) as [|u0 us] eqn:EU; [intros H; apply Some_inj in H; apply pair_equal_spec in H as [<- <-]; split; auto; intros t []|].
  destruct (tri_input V loops) as [[P E]|]; [|discriminate]. destruct (te_tri X P E) as [nV nF]. cbn [andb orb].
  destruct (existsb (fun f => match map_find Z.compare f (unreindexer loops) with Some _ => false | None => true end) (tri_entries nF)) eqn:AD; cbn [orb negb].
  - destruct (sequence _); [|discriminate]. intros H. cbn [andb] in H. apply Some_inj in H. apply pair_equal_spec in H as [<- <-]. split; auto. intros t [].
  - destruct (sequence _) as [Bs|]; [|discriminate]. cbn [andb map sequence]. set (F0 := map (tri_map (map_at (unreindexer loops))) nF).
    assert (IN : forall t, In t F0 -> let '(x, y, z) := t in forall v, In v [x; y; z] -> exists l, In l loops /\ In v l).
    { intros t It. unfold F0 in It. apply in_map_iff in It as (((x & y) & z) & <- & It). cbn [tri_map]. intros v Iv.
      assert (K : forall f, In f [x; y; z] -> exists l, In l loops /\ In (map_at (unreindexer loops) f) l).
      { intros f If. assert (Q : (fun f => match map_find Z.compare f (unreindexer loops) with Some _ => false | None => true end) f = false).
        { destruct ((fun f => match map_find Z.compare f (unreindexer loops) with Some _ => false | None => true end) f) eqn:Q; auto. assert (Y : existsb (fun f => match map_find Z.compare f (unreindexer loops) with Some _ => false | None => true end) (tri_entries nF) = true); [|congruence]. apply existsb_exists. exists f. split; auto. unfold tri_entries. apply in_flat_map. exists (x, y, z). auto. }
        cbn beta in Q. unfold map_at. destruct (map_find Z.compare f (unreindexer loops)) as [w|] eqn:M; [|discriminate]. rewrite unre_find in M. apply used_In. unfold corner_at in M. destruct (f <? 0); [discriminate|]. eapply nth_error_In; eauto. }
      cbn [In] in *. destruct Iv as [<-|[<-|[<-|[]]]]; apply K; auto. }
    set (I0 := map fst (filter (fun tb => inside X V loops (snd tb)) (combine F0 Bs))). assert (II : forall t, In t I0 -> In t F0).
    { intros t It. unfold I0 in It. apply in_map_iff in It as ((t' & b) & <- & It). apply filter_In in It as [It _]. apply in_combine_l in It. auto. }
    clearbody I0. destruct I0 as [|i0 Is].
    + destruct F0 as [|f0 Fs] eqn:EF; [discriminate|]. rewrite <- EF in *. intros H. apply Some_inj in H. apply pair_equal_spec in H as [<- <-]. split; auto.
    + intros H. apply Some_inj in H. apply pair_equal_spec in H as [<- <-]. split; auto. exact (fun t It => IN t (II t It)).
Qed.
(** a triangle uses only vertices of the loops *)
Definition corners_within (loops : list (list Z)) (t : c3) : Prop := let '(a, b, c) := t in forall v, In v [a; b; c] -> exists l, In l loops /\ In v l.
Definition ear_ok (X : externals) : Prop := forall V l t, In t (te_ear X V [l]) -> corners_within [l] t.
Lemma cap_cell_spec X V2 inds v f : ear_ok X -> cap_cell X V2 inds = Some (v, f) -> v = [] /\ forall t, In t f -> corners_within inds t.
Proof.
  intros EO. unfold cap_cell. assert (G : forall l, triangulate_triangle X V2 l 2 1 false = Some (v, f) -> v = [] /\ forall t, In t f -> corners_within l t).
  { intros l H. destruct (tri_false _ _ _ _ _ H) as [E1 E2]. split; [exact E1|]. intros ((a & b) & c) I. exact (E2 (a, b, c) I). }
  destruct inds as [|l [|l' t]]; [apply G| |apply G]. intros H. apply Some_inj in H. apply pair_equal_spec in H as [<- <-]. split; auto. intros t I. eapply EO; eauto.
Qed.
Definition positive (areas : list (Z * Qc)) (cid : Z) : Prop := exists a, map_find Z.compare cid areas = Some a /\ (0 < a)%Qc.
(** the cap adds no vertices, and its triangles are those of the cells of positive area, each with its own vertices *)
Theorem c154_cap : forall X V2 areas cells off VV FC, ear_ok X -> cap X V2 areas cells off = Some (VV, FC) ->
  concat VV = [] /\
  (forall t, In t (concat FC) -> exists cid inds f, In (cid, inds) cells /\ positive areas cid /\ cap_cell X V2 inds = Some ([], f) /\ In t f /\ corners_within inds t) /\
  (forall cid inds, In (cid, inds) cells -> positive areas cid -> exists f, cap_cell X V2 inds = Some ([], f) /\ In f FC).
Proof.
  intros X V2 areas cells off VV FC EO. revert off VV FC. induction cells as [|[cid inds] cells IH]; intros off VV FC H; cbn [cap] in H.
  - apply Some_inj in H. apply pair_equal_spec in H as [<- <-]. split; auto. split; [intros t []|intros ? ? []].
  - destruct (match map_find Z.compare cid areas with Some a => qltb 0 a | None => false end) eqn:P.
    + assert (PP : positive areas cid) by (unfold positive; destruct (map_find _ _ _) as [a|]; [|discriminate]; exists a; split; auto; apply qltb_lt; auto).
      destruct (cap_cell X V2 inds) as [[v f]|] eqn:E; [|discriminate]. destruct (cap_cell_spec _ _ EO E) as [-> CW]. cbn [length] in H. destruct (cap X V2 areas cells _) as [[W T]|] eqn:EC; [|discriminate]. cbn [option_map] in H. apply Some_inj in H. apply pair_equal_spec in H as [<- <-].
      destruct (IH _ _ _ EC) as (I1 & I2 & I3). cbn [concat app shift]. split; auto. split.
      * intros t I. apply in_app_iff in I as [I|I]; [exists cid, inds, f; split; [cbn; auto|auto]|]. destruct (I2 _ I) as (c' & i' & f' & J & R). exists c', i', f'. split; [cbn; auto|auto].
      * intros c' i' [J|J] R; [injection J as <- <-; exists f; split; auto; cbn; auto|]. destruct (I3 _ _ J R) as (f' & R1 & R2). exists f'. cbn. auto.
    + destruct (IH _ _ _ H) as (I1 & I2 & I3). split; auto. split.
      * intros t I. destruct (I2 _ I) as (c' & i' & f' & J & R). exists c', i', f'. split; [cbn; auto|auto].
      * intros c' i' [J|J] R; [|exact (I3 _ _ J R)]. injection J as <- <-. exfalso. destruct R as (a & E & L). rewrite E in P. apply qltb_lt in L. congruence.
Qed.
(** ** the result *)
(** the cells use only ends of the edges handed over *)
Definition cells_ok (hem : list q2 -> list edge -> list (Z * Qc) * list (Z * list (list Z))) : Prop :=
  forall V2 E cid inds l v, In (cid, inds) (snd (hem V2 E)) -> In l inds -> In v l -> exists e, In e E /\ (v = fst e \/ v = snd e).
(** the result lies in the closed half space above the plane, its cap in the plane, and every vertex is a table entry sent back; the faces above are all there *)
Theorem c154_above : forall X hem inv tr vs r c V g edges faces V' F', ear_ok X -> cells_ok hem -> (forall x, tr (inv x) = x) ->
  Forall (good_crossing 3 sshape) vs -> compute_crossings sshape vs = (r, c) -> embedding V = Some g -> (snd (sg_dx g) <> 0)%Qc ->
  (forall T e, slice_table g (combine vs r) = Some T -> In e edges -> in_table T (fst e) /\ in_table T (snd e)) ->
  (forall T f i, slice_table g (combine vs r) = Some T -> In f faces -> In i f -> in_table T i) ->
  slice_result X hem inv g (combine vs r) edges faces = Some (V', F') ->
  (V' = [] /\ F' = []) \/
  exists T FC FK, slice_table g (combine vs r) = Some T /\ V' = map inv T /\ F' = FC ++ FK /\
    (forall t, In t FC -> let '(a, b, c) := t in forall i, In i [a; b; c] -> exists p, corner_at V' i = Some p /\ snd (tr p) = 0%Qc) /\
    (forall t, In t FK -> let '(a, b, c) := t in forall i, In i [a; b; c] -> exists p, corner_at V' i = Some p /\ (0 <= snd (tr p))%Qc) /\
    (forall f, In f faces -> (forall i, In i f -> exists p, corner_at V' i = Some p /\ (0 <= snd (tr p))%Qc) -> exists F, fan_tris f = Some F /\ incl F FK).
Proof.
  intros X hem inv tr vs r c V g edges faces V' F' EO CO TI HG HC EM NZ HE HF. unfold slice_result. destruct (slice_table g (combine vs r)) as [T|] eqn:HT; [|discriminate]. specialize (HE T). specialize (HF T).
  destruct (hem (sub_V 2 T) (plane_edges (combine vs r) edges)) as [areas cells] eqn:EH. destruct (cap X _ areas cells _) as [[VV FC]|] eqn:EC; [|discriminate]. destruct (kept_tris T faces) as [FK|] eqn:EK; [|discriminate]. intros H. apply Some_inj in H.
  destruct (c154_cap _ _ _ _ EO EC) as (C1 & C2 & C3). destruct (FC ++ FK) as [|F0 FF] eqn:EF; [apply pair_equal_spec in H as [<- <-]; auto|]. right. rewrite <- EF in H. clear EF F0 FF. apply pair_equal_spec in H as [<- <-].
  assert (BK : back inv T (concat VV) = map inv T) by (rewrite C1; unfold back; rewrite app_nil_r, firstn_all, skipn_all, app_nil_r; auto). rewrite BK.
  exists T, (concat FC), (concat FK). split; auto. split; auto. split; [apply concat_app|].
  assert (CM : forall i p, corner_at T i = Some p -> corner_at (map inv T) i = Some (inv p)) by (intros i p; unfold corner_at; destruct (i <? 0); [discriminate|]; intros E; apply map_nth_error; auto).
  assert (CM' : forall i p, corner_at (map inv T) i = Some p -> exists q, corner_at T i = Some q /\ p = inv q) by (intros i p; unfold corner_at; destruct (i <? 0); [discriminate|]; rewrite nth_error_map; destruct (nth_error T (Z.to_nat i)) as [q|]; [|discriminate]; intros E; apply Some_inj in E; subst; eauto).
  assert (NTH : forall i p, corner_at T i = Some p -> nth (Z.to_nat i) T (0, 0, 0)%Qc = p) by (intros i p; unfold corner_at; destruct (i <? 0); [discriminate|]; apply nth_error_nth).
  assert (KS : forall F, In F FK <-> exists f, In f (kept (fun i => nth (Z.to_nat i) T (0, 0, 0)%Qc) faces) /\ fan_tris f = Some F) by (apply sequence_in; exact EK).
  split; [|split].
  - intros ((a & b) & d) I. destruct (C2 _ I) as (cid & inds & f & J & _ & _ & _ & CW). intros i Ii. destruct (CW i Ii) as (l & Il & Iv). assert (CO' := CO (sub_V 2 T) (plane_edges (combine vs r) edges) cid inds l i). rewrite EH in CO'. destruct (CO' J Il Iv) as (e & Ie & VE).
    assert (IE : In e edges) by (unfold plane_edges in Ie; apply filter_In in Ie; apply Ie). destruct (proj1 (@c154_edges vs r c V g T edges e HG HC EM NZ HT (fun e => HE e eq_refl)) Ie) as (_ & p & q & P & Q & Zp & Zq).
    destruct VE as [->| ->]; [exists (inv p)|exists (inv q)]; rewrite TI; auto.
  - intros ((a & b) & d) I i Ii. apply in_concat in I as (F & IF & IT). apply KS in IF as (f & Jf & Ef). destruct (c96_fan_vertices _ Ef) as [_ FV]. assert (W := proj1 (Forall_forall _ _) FV _ IT). cbn beta in W. destruct W as (W1 & W2 & W3).
    assert (IFa : In f faces) by (unfold kept in Jf; apply filter_In in Jf; apply Jf). assert (Iif : In i f) by (cbn [In] in Ii; destruct Ii as [<-|[<-|[<-|[]]]]; assumption). assert (INT := HF f i eq_refl IFa Iif). apply corner_some in INT. destruct (corner_at T i) as [p|] eqn:P; [|congruence].
    exists (inv p). split; auto. rewrite TI. assert (Y := proj1 (proj1 (c94_kept (fun i => nth (Z.to_nat i) T (0, 0, 0)%Qc) faces f IFa) ) Jf i Iif). cbn beta in Y. rewrite (NTH _ _ P) in Y. exact Y.
  - intros f If Hf. assert (Jf : In f (kept (fun i => nth (Z.to_nat i) T (0, 0, 0)%Qc) faces)).
    { apply (proj1 (c94_kept _ faces f If)). intros i Ii. destruct (Hf i Ii) as (p & P & Zp). destruct (CM' _ _ P) as (q & Q & ->). rewrite TI in Zp. rewrite (NTH _ _ Q). exact Zp. }
    assert (FA := sequence_forall2 _ _ EK). assert (XE : exists F, fan_tris f = Some F).
    { assert (G : forall (l : list (list Z)) l', Forall2 (fun x (y : list c3) => fan_tris x = Some y) l l' -> forall x, In x l -> exists F, fan_tris x = Some F) by (intros l l' Q; induction Q as [|u w l l' E Q IH]; [intros ? []|intros x [<-|I]; eauto]). exact (G _ _ FA f Jf). }
    destruct XE as (F & EF). exists F. split; auto. intros t It. apply in_concat. exists F. split; auto. apply KS. eauto.
Qed.

(** a vertex of the mesh comes back where it was, at the index its crossing was given *)
Theorem c154_input : forall X hem inv tr M vs r c g edges faces V' F' k v x y z i, ear_ok X -> (forall x, inv (tr x) = x) ->
  Forall (good_crossing 3 sshape) vs -> compute_crossings sshape vs = (r, c) -> embedding (map tr M) = Some g ->
  (fst (fst (sg_dx g)) <> 0)%Qc -> (snd (fst (sg_dx g)) <> 0)%Qc -> (snd (sg_dx g) <> 0)%Qc ->
  local_coord g (tr v) = (x, y, z) -> nth_error vs k = Some (from_vertex [x; y; z]) -> nth_error r k = Some i ->
  slice_result X hem inv g (combine vs r) edges faces = Some (V', F') -> F' <> [] -> corner_at V' i = Some v.
Proof.
  intros X hem inv tr M vs r c g edges faces V' F' k v x y z i EO TI HG HC EM NX NY NZ HL Hk Hr. unfold slice_result. destruct (c154_table g HG HC) as (T & HT & LT & TV & TG). rewrite HT.
  destruct (hem (sub_V 2 T) (plane_edges (combine vs r) edges)) as [areas cells]. destruct (cap X _ areas cells _) as [[VV FC]|] eqn:EC; [|discriminate]. destruct (kept_tris T faces) as [FK|]; [|discriminate]. intros H NE. apply Some_inj in H.
  destruct (c154_cap _ _ _ _ EO EC) as (C1 & _). destruct (FC ++ FK) as [|F0 FF]; [apply pair_equal_spec in H as [_ <-]; destruct NE; auto|]. apply pair_equal_spec in H as [<- _].
  assert (W := TV _ _ _ Hk Hr). rewrite (from_vertex_pos [x; y; z]) in W. unfold q3_of in W. cbn [nth] in W. rewrite <- HL in W. destruct (@c94_local _ g (tr v) EM NX NY NZ) as (R & _). rewrite R in W.
  rewrite C1. unfold back. rewrite app_nil_r, firstn_all, skipn_all, app_nil_r. unfold corner_at in *. destruct (i <? 0); [discriminate|]. rewrite (map_nth_error _ _ _ W), TI. auto.
Qed.
(** the cap is decided by the cut edges alone: with the same edges but other faces — a solid part, or the same part hollowed out — the same triangles close the section *)
Theorem c154_cavity_refuted : forall X hem inv g cs edges faces1 faces2 V1 F1 V2 F2,
  slice_result X hem inv g cs edges faces1 = Some (V1, F1) -> slice_result X hem inv g cs edges faces2 = Some (V2, F2) -> F1 <> [] -> F2 <> [] ->
  V1 = V2 /\ exists C K1 K2 T, F1 = C ++ concat K1 /\ F2 = C ++ concat K2 /\ kept_tris T faces1 = Some K1 /\ kept_tris T faces2 = Some K2.
Proof.
  intros X hem inv g cs edges faces1 faces2 V1 F1 V2 F2. unfold slice_result. destruct (slice_table g cs) as [T|]; [|discriminate]. destruct (hem _ _) as [areas cells]. destruct (cap _ _ _ _ _) as [[VV FC]|]; [|discriminate].
  destruct (kept_tris T faces1) as [K1|] eqn:E1; [|discriminate]. destruct (kept_tris T faces2) as [K2|] eqn:E2; [|discriminate]. intros H1 H2 N1 N2. apply Some_inj in H1, H2.
  destruct (FC ++ K1) as [|a A] eqn:EA; [apply pair_equal_spec in H1 as [_ <-]; destruct N1; auto|]. destruct (FC ++ K2) as [|b B] eqn:EB; [apply pair_equal_spec in H2 as [_ <-]; destruct N2; auto|].
  apply pair_equal_spec in H1 as [<- <-]. apply pair_equal_spec in H2 as [<- <-]. split; auto. exists (concat FC), K1, K2, T. rewrite <- EA, <- EB, !concat_app. auto.
Qed.
Lemma q3_ext (p q : q3) : (fst (fst p) == fst (fst q))%Q -> (snd (fst p) == snd (fst q))%Q -> (snd p == snd q)%Q -> p = q.
Proof. destruct p as [[a b] c], q as [[x y] z]. cbn. intros. repeat f_equal; apply Qc_is_canon; auto. Qed.
(** REFUTED: mesh vertices that become grid vertices are vertices of the slicer's grid.  The box need not contain the mesh (c94_contains_refuted), so such a vertex can have
    coordinates outside 2 x 2 x 3, and its index is then no index of the vertex table *)
Theorem c154_outside_refuted : exists V g v p, embedding V = Some g /\ In v V /\ (fst (fst (sg_dx g)) <> 0 /\ snd (fst (sg_dx g)) <> 0 /\ snd (sg_dx g) <> 0)%Qc /\
  local_coord g v = (q3_of p) /\ length p = 3%nat /\ is_grid_vertex (from_vertex p) = true /\ in_shape sshape (v_coord (from_vertex p)) = false /\ compute_crossings sshape [from_vertex p] = ([-8], 12).
Proof.
  set (n := fun z => Z2Qc z). exists [(n 11, n 11, n 0); (n 12, n 12, n 1)]. eexists. exists (n 11, n 11, n 0), [n (-1); n (-1); n 1]. split; [reflexivity|]. split; [cbn; auto|].
  split; [split; [|split]; discriminate|]. split; [apply q3_ext; vm_compute; reflexivity|]. split; [reflexivity|]. split; [reflexivity|]. split; [reflexivity|]. vm_compute. reflexivity.
Qed.

(** ** a concrete slice: a bipyramid over a triangle in the plane *)
Definition bi : list q3 := let n := Z2Qc in [(n (-1), n (-1), n 0); (n 1, n (-1), n 0); (n 0, n 1, n 0); (n 0, n 0, n 1); (n 0, n 0, n (-1))].
Definition bi_grid : slice_grid := match embedding bi with Some g => g | None => mkSGrid (0, 0, 0)%Qc (0, 0, 0)%Qc end.
Definition bi_vs : list vertex := map (fun p => let '(x, y, z) := local_coord bi_grid p in from_vertex [x; y; z]) bi.
Definition bi_r : list Z := fst (compute_crossings sshape bi_vs).
Definition bi_edges : list edge := [(12, 13); (12, 14); (12, 15); (12, 16); (13, 14); (13, 15); (13, 16); (14, 15); (14, 16)].
Definition bi_faces : list (list Z) := [[12; 13; 15]; [13; 14; 15]; [14; 12; 15]; [13; 12; 16]; [14; 13; 16]; [12; 14; 16]].
(** a half-edge mesh that knows this triangle and an ear clipping that returns a triangle as it is *)
Definition bi_hem (V2 : list q2) (E : list edge) : list (Z * Qc) * list (Z * list (list Z)) :=
  if existsb (fun e => (fst e =? 12) && (snd e =? 13)) E && existsb (fun e => (fst e =? 13) && (snd e =? 14)) E then ([(0, Z2Qc (-2)); (1, Z2Qc 2)], [(0, [[14; 13; 12]]); (1, [[12; 13; 14]])]) else ([], []).
Definition bi_ext : externals := mkExt (fun _ _ => ([], [])) (fun _ loops => match loops with [[a; b; c]] => [(a, b, c)] | _ => [] end) (fun _ _ _ => 0%Qc).
Example c154_bi_ok : ear_ok bi_ext /\ cells_ok bi_hem /\ Forall (good_crossing 3 sshape) bi_vs /\ compute_crossings sshape bi_vs = (bi_r, 17) /\ embedding bi = Some bi_grid /\
  (fst (fst (sg_dx bi_grid)) <> 0 /\ snd (fst (sg_dx bi_grid)) <> 0 /\ snd (sg_dx bi_grid) <> 0)%Qc /\
  nth_error bi_vs 1 = Some (from_vertex (let '(x, y, z) := local_coord bi_grid (nth 1 bi (0, 0, 0)%Qc) in [x; y; z])) /\ nth_error bi_r 1 = Some 13 /\
  plane_edges (combine bi_vs bi_r) bi_edges = [(12, 13); (12, 14); (13, 14)] /\
  option_map (fun '(V', F') => (map (fun p => let '(x, y, z) := p in (this x, this y, this z)) (skipn 12 V'), F')) (slice_result bi_ext bi_hem (fun x => x) bi_grid (combine bi_vs bi_r) bi_edges bi_faces)
    = Some ([(-1 # 1, -1 # 1, 0); (1, -1 # 1, 0); (0, 1, 0); (0, 0, 1); (0, 0, -1 # 1)]%Q, [(12, 13, 14); (12, 13, 15); (13, 14, 15); (14, 12, 15)]).
Proof.
  split; [|split; [|split; [|split; [|split; [|split; [|split; [|split; [|split]]]]]]]]; try (vm_compute; reflexivity).
  - intros V l [[a b] c] I. cbn in I. destruct l as [|x [|y [|z [|? ?]]]]; try (destruct I; fail). destruct I as [I|[]]. injection I as <- <- <-. intros v Iv. exists [x; y; z]. cbn in *. tauto.
  - intros V2 E cid inds l v J Il Iv. unfold bi_hem in J. match type of J with context [if ?b then _ else _] => destruct b eqn:Q end; [|destruct J]. apply andb_prop in Q as [Q1 Q2]. apply existsb_exists in Q1 as ([a b] & I1 & E1). apply existsb_exists in Q2 as ([c d] & I2 & E2). cbn [fst snd] in *.
    apply andb_prop in E1 as [A1 A2]. apply andb_prop in E2 as [A3 A4]. apply Z.eqb_eq in A1, A2, A3, A4. subst. assert (W : v = 12 \/ v = 13 \/ v = 14) by (cbn in J; destruct J as [J|[J|[]]]; injection J as _ <-; destruct Il as [<-|[]]; cbn in Iv; lia).
    destruct W as [->|[->| ->]]; [exists (12, 13)|exists (12, 13)|exists (13, 14)]; cbn; auto.
  - unfold bi_vs. apply Forall_forall. intros v I. apply in_map_iff in I as (p & <- & Ip). destruct (local_coord bi_grid p) as [[x y] z] eqn:EL. split; [apply (from_vertex_wf [x; y; z])|]. split; [apply from_vertex_normalised|]. split; [apply from_vertex_flags|].
    rewrite from_vertex_floor. intros GV. assert (Q : Forall (fun p => let '(x, y, z) := local_coord bi_grid p in is_grid_vertex (from_vertex [x; y; z]) = true -> in_shape sshape (map qfloor [x; y; z]) = true) bi) by (repeat constructor; vm_compute; auto).
    assert (W := proj1 (Forall_forall _ _) Q p Ip). cbn beta in W. rewrite EL in W. auto.
  - repeat split; discriminate.
Qed.
(** directed edges of triangles *)
Definition dir_edges (F : list c3) : list edge := flat_map (fun '(a, b, c) => [(a, b); (b, c); (c, a)]) F.
(** REFUTED: the result of slicing a consistently oriented closed mesh is consistently oriented.  The cap lies below what is kept, but its cells are the ones of positive area,
    which are seen counterclockwise from above: along the section cap and mesh run in the same direction *)
Theorem c154_orientation_refuted : exists X hem V g vs r c edges faces V' F', ear_ok X /\ cells_ok hem /\ Forall (good_crossing 3 sshape) vs /\ compute_crossings sshape vs = (r, c) /\ embedding V = Some g /\
  vs = map (fun p => let '(x, y, z) := local_coord g p in from_vertex [x; y; z]) V /\
  (forall F, sequence (map fan_tris faces) = Some F -> NoDup (dir_edges (concat F)) /\ forall a b, In (a, b) (dir_edges (concat F)) -> In (b, a) (dir_edges (concat F))) /\
  (exists F, sequence (map fan_tris faces) = Some F) /\
  slice_result X hem (fun x => x) g (combine vs r) edges faces = Some (V', F') /\ ~ NoDup (dir_edges F').
Proof.
  destruct c154_bi_ok as (E1 & E2 & E3 & E4 & E5 & _ & _ & _ & _ & E6). destruct (slice_result bi_ext bi_hem (fun x => x) bi_grid (combine bi_vs bi_r) bi_edges bi_faces) as [[V' F']|] eqn:ES; [|discriminate].
  cbn [option_map] in E6. apply Some_inj in E6. apply pair_equal_spec in E6 as [_ ->].
  exists bi_ext, bi_hem, bi, bi_grid, bi_vs, bi_r, 17, bi_edges, bi_faces, V', [(12, 13, 14); (12, 13, 15); (13, 14, 15); (14, 12, 15)].
  split; [exact E1|]. split; [exact E2|]. split; [exact E3|]. split; [exact E4|]. split; [exact E5|]. split; [unfold bi_vs; reflexivity|]. clear E1 E2 E3 E4 E5. split; [|split; [eexists; reflexivity|split; [exact ES|]]]; clear ES.
  - intros F HF. vm_compute in HF. apply Some_inj in HF. subst F. split.
    + cbn [concat app dir_edges flat_map]. repeat constructor; cbn [In]; intros I; repeat (destruct I as [I|I]; [discriminate I|]); exact I.
    + intros a b H. cbn [concat app dir_edges flat_map In] in H |- *. repeat (destruct H as [H|H]; [injection H as <- <-; tauto|]). destruct H.
  - cbn [dir_edges flat_map app]. intros N. inversion_clear N as [|? ? N1 _]. apply N1. cbn [In]. tauto.
Qed.
