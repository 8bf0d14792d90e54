(** C51, C73: grid boundary faces and the 3D boundary operator. *)
From Verif Require Import Base Num CoordMask CoordMaskProofs Vertex VertexProofs Grid SmallestEdge AdaptiveGrid AdaptiveSpec AdaptiveProofs AdaptiveFaces AdaptiveFactory PropsAdaptive PropsAdaptive2 Mesh Sparse Mesh2 ExteriorGrid PropsExterior PropsMesh2 Boundary3.
Local Open Scope Z_scope.

(** ** C51 *)
Definition is_cut_face (m : mesh3) (i : Z) (f : cut_face) : Prop := 0 <= i /\ nth_error (m_faces m) (Z.to_nat i) = Some f.
(** the face lies on the first or last grid plane of some axis *)
Definition on_domain_plane (vs : c3) (k : mask) : Prop := exists d v, nth_error k d = Some (Some v) /\ (v = 0 \/ v = get3 vs d - 1).
(** cells per axis: one less than vertices *)
Definition cells_per_axis (vs : c3) : c3 := let '(x, y, z) := vs in (x - 1, y - 1, z - 1).
Definition adaptive_on_boundary (shape : c3) (f : aface) : Prop := get3 (af_corner f) (af_axis f) = 0 \/ get3 (af_corner f) (af_axis f) = get3 shape (af_axis f).
Theorem c51_grid_boundary_faces m i : In i (grid_boundary_faces3 m) <->
  (exists f, is_cut_face m i f /\ on_domain_plane (m_vshape m) (cf_mask f)) \/
  (exists k f, i = num_cut_faces m + Z.of_nat k /\ nth_error (m_afaces m) k = Some f /\ adaptive_on_boundary (cells_per_axis (m_vshape m)) f).
Proof.
  change (cells_per_axis (m_vshape m)) with (cshape m).
  unfold grid_boundary_faces3. rewrite (set_of_list_In Zcompare_total), in_app_iff.
  assert (A : forall (P Q R S : Prop), (P <-> R) -> (Q <-> S) -> (P \/ Q <-> R \/ S)) by tauto. apply A.
  - rewrite in_flat_map. split.
    + intros ([j f] & Hj & H). apply enum_In in Hj. apply in_flat_map in H as ([d v] & Hd & H). apply combine_seq_nth in Hd. destruct v as [x|]; [|destruct H].
      destruct (_ || _) eqn:E; [|destruct H]. destruct H as [<-|[]]. exists f. split; [exact Hj|]. exists d, x. split; auto. apply orb_true_iff in E as [E|E]; apply Z.eqb_eq in E; auto.
    + intros (f & Hj & d & v & Hd & E). exists (i, f). split; [apply enum_In; exact Hj|]. apply in_flat_map. exists (d, Some v). split; [apply combine_seq_nth; auto|].
      assert (X : (v =? 0) || (v =? get3 (m_vshape m) d - 1) = true) by (apply orb_true_iff; destruct E as [E|E]; [left|right]; apply Z.eqb_eq; auto). rewrite X. cbn; auto.
  - unfold ag_grid_boundary_faces. rewrite in_flat_map. split.
    + intros ([j f] & Hj & H). apply enum_In in Hj as [J Hj]. cbv zeta in H. destruct (_ || _) eqn:E; [|destruct H]. destruct H as [<-|[]]. exists (Z.to_nat j), f. split; [lia|]. split; auto.
      apply orb_true_iff in E as [E|E]; apply Z.eqb_eq in E; unfold adaptive_on_boundary; auto.
    + intros (k & f & -> & Hk & E). exists (Z.of_nat k, f). split; [apply enum_In; rewrite Nat2Z.id; split; [lia|auto]|]. cbv zeta.
      assert (X : (get3 (af_corner f) (af_axis f) =? 0) || (get3 (af_corner f) (af_axis f) =? get3 (cshape m) (af_axis f)) = true) by (apply orb_true_iff; destruct E as [E|E]; [left|right]; apply Z.eqb_eq; auto).
      rewrite X. cbn; auto.
Qed.
(** for faces made from cells, lying on the first or last plane is the same as having no cell on one side *)
Theorem c51_adaptive_boundary shape cells f : pos3 shape -> wf_cells shape cells -> disjoint_cells cells -> In f (make_faces shape cells) ->
  (adaptive_on_boundary shape f <-> fst (af_dual f) = -2 \/ snd (af_dual f) = -2).
Proof.
  intros PS W D Hf. destruct f as [c d w [a b]]. cbn [af_dual fst snd]. assert (Hd : (d < 3)%nat) by (apply faces_In in Hf; apply Hf).
  assert (M : meet shape cells d a b) by (apply faces_exist; auto; eexists; split; eauto).
  apply faces_In in Hf as (_ & _ & G). unfold adaptive_on_boundary. cbn [af_dual af_axis af_corner af_width fst snd] in *.
  destruct M as [(N & x & O1 & O2)|[(-> & x & O & E)|(-> & x & O & E)]].
  - assert (NA : 0 <= a) by (eapply own_nn; eauto). assert (NB : 0 <= b) by (eapply own_nn; eauto). split; [|lia].
    destruct (own_geom shape cells W d a b N) as (ca & cb & Ca & Cb & G'); [eauto|]. rewrite G' in G. apply Some_inj, pair_equal_spec in G as [<- _].
    assert (I1 := proj1 (own_box shape cells W _ _ _ Ca) O1). assert (I2 := proj1 (own_box shape cells W _ _ _ Cb) O2).
    assert (G1 := own_grid shape cells W _ _ O1 d Hd). assert (G2 := own_grid shape cells W _ _ O2 d Hd). rewrite add3_get, Nat.eqb_refl in G2 by auto.
    apply (cellsi shape cells W) in Ca. apply (cellsi shape cells W) in Cb.
    assert (PA : get3 (fst ca) d + snd ca = get3 x d + 1).
    { assert (X := I1 d Hd). destruct (Z.eq_dec (get3 (fst ca) d + snd ca) (get3 x d + 1)); auto. destruct N. apply (D a ca b cb (add3 x d 1)); auto. intros i Hi. rewrite add3_get by auto. destruct (Nat.eqb_spec i d) as [->|NE]; [lia|apply I1; auto]. }
    assert (PB : get3 (fst cb) d = get3 x d + 1).
    { assert (X := I2 d Hd). rewrite add3_get, Nat.eqb_refl in X by auto. destruct (Z.eq_dec (get3 (fst cb) d) (get3 x d + 1)); auto. destruct N. apply (D a ca b cb x); auto. intros i Hi. destruct (Nat.eq_dec i d) as [->|NE]; [lia|].
      assert (Y := I2 i Hi). rewrite add3_get, (proj2 (Nat.eqb_neq _ _)) in Y by auto. auto. }
    assert (PC : get3 (if Z.min (snd ca) (snd cb) =? snd cb then fst cb else add3 (fst ca) d (Z.min (snd ca) (snd cb))) d = get3 x d + 1).
    { destruct (Z.eqb_spec (Z.min (snd ca) (snd cb)) (snd cb)); auto. rewrite add3_get, Nat.eqb_refl by auto. lia. }
    rewrite PC. lia.
  - destruct (low_geom shape cells W d b x O) as (cb & Cb & G'). rewrite G' in G. apply Some_inj, pair_equal_spec in G as [<- _]. split; auto. intros _. left.
    assert (I := proj1 (own_box shape cells W _ _ _ Cb) O). apply (cellsi shape cells W) in Cb. assert (IC : in_box cb (fst cb)) by (intros i Hi; assert (X := proj1 (proj2 (proj2 W _ _ Cb))); lia).
    assert (X := proj2 (proj2 (proj2 W _ _ Cb)) _ IC d Hd). assert (Y := I d Hd). lia.
  - destruct (high_geom shape cells W d a x O) as (cb & Cb & G'). rewrite G' in G. apply Some_inj, pair_equal_spec in G as [<- _]. split; auto. intros _. right.
    assert (I := proj1 (own_box shape cells W _ _ _ Cb) O). apply (cellsi shape cells W) in Cb. rewrite add3_get, Nat.eqb_refl by auto.
    assert (IC : in_box cb (add3 x d (get3 (fst cb) d + snd cb - 1 - get3 x d))). { intros i Hi. rewrite add3_get by auto. assert (X := I i Hi). destruct (Nat.eqb_spec i d) as [->|NE]; lia. }
    assert (X := proj2 (proj2 (proj2 W _ _ Cb)) _ IC d Hd). rewrite add3_get, Nat.eqb_refl in X by auto. assert (Y := I d Hd). lia.
Qed.
(** entry i of the mask vector *)
Definition entry (l : list Z) (i : Z) : option Z := if i <? 0 then None else nth_error l (Z.to_nat i).
Lemma entry_cut m i f (g : cut_face -> Z) t : is_cut_face m i f -> entry (map g (m_faces m) ++ t) i = Some (g f).
Proof.
  intros [H1 H2]. unfold entry. rewrite (proj2 (Z.ltb_ge i 0)) by auto. rewrite nth_error_app1; [rewrite nth_error_map, H2; auto|]. rewrite map_length. apply nth_error_Some. congruence.
Qed.
Lemma entry_tail m k (g : cut_face -> Z) t : entry (map g (m_faces m) ++ t) (num_cut_faces m + Z.of_nat k) = nth_error t k.
Proof.
  unfold entry, num_cut_faces. rewrite (proj2 (Z.ltb_ge _ 0)) by lia. rewrite nth_error_app2; rewrite map_length; [f_equal; lia|lia].
Qed.
Theorem c51_mesh_face_mask m :
  Z.of_nat (length (mesh_face_mask m)) = face_size m /\
  (forall i f, is_cut_face m i f -> entry (mesh_face_mask m) i = Some (match cf_id f with MeshFace _ => 0 | AxialFace _ _ => 1 end)) /\
  (forall k f, nth_error (m_afaces m) k = Some f -> entry (mesh_face_mask m) (num_cut_faces m + Z.of_nat k) = Some 1).
Proof.
  unfold mesh_face_mask. split; [|split].
  - rewrite app_length, map_length, repeat_length. unfold face_size, num_cut_faces. lia.
  - intros i f H. rewrite (entry_cut m i f _ _ H). auto.
  - intros k f H. rewrite entry_tail. assert (L : (k < length (m_afaces m))%nat) by (apply nth_error_Some; congruence). revert L. generalize (length (m_afaces m)). clear. induction k; intros [|n] L; try lia; cbn; auto. apply IHk. lia.
Qed.
(** axial faces carry plane values 0 .. vertex_shape - 1: only the first plane is ever masked; the exterior part is right *)
Theorem c51_mask_first_plane_partial m :
  (forall i f a v, is_cut_face m i f -> cf_id f = AxialFace a v -> 0 <= v < get3 (m_vshape m) (Z.to_nat a) -> (entry (grid_boundary_mask m) i = Some 0 <-> v = 0)) /\
  (forall i f j, is_cut_face m i f -> cf_id f = MeshFace j -> entry (grid_boundary_mask m) i = Some 1) /\
  (forall k f, nth_error (m_afaces m) k = Some f -> (entry (grid_boundary_mask m) (num_cut_faces m + Z.of_nat k) = Some 0 <-> adaptive_on_boundary (cells_per_axis (m_vshape m)) f)).
Proof.
  change (cells_per_axis (m_vshape m)) with (cshape m).
  unfold grid_boundary_mask. split; [|split].
  - intros i f a v H E R. rewrite (entry_cut m i f _ _ H), E. destruct (Z.eqb_spec v 0); cbn [orb]; [tauto|]. rewrite (proj2 (Z.eqb_neq _ v)) by lia. split; [intros [=]|lia].
  - intros i f j H E. rewrite (entry_cut m i f _ _ H), E. auto.
  - intros k f H. rewrite entry_tail. unfold grid_boundary_face_mask. rewrite !nth_error_map, H. cbn [option_map]. unfold adaptive_on_boundary.
    destruct (Z.eqb_spec (get3 (af_corner f) (af_axis f)) 0); cbn [orb negb]; [tauto|]. destruct (Z.eqb_spec (get3 (af_corner f) (af_axis f)) (get3 (cshape m) (af_axis f))); cbn [negb]; [tauto|]. split; [discriminate|tauto].
Qed.
(** a cut face on the last plane of its axis is never masked *)
Theorem c51_last_plane_refuted m i f a v : is_cut_face m i f -> cf_id f = AxialFace a v -> 0 < v -> v = get3 (m_vshape m) (Z.to_nat a) - 1 -> entry (grid_boundary_mask m) i = Some 1.
Proof.
  intros H E P L. unfold grid_boundary_mask. rewrite (entry_cut m i f _ _ H), E. rewrite (proj2 (Z.eqb_neq v 0)), (proj2 (Z.eqb_neq _ v)) by lia. auto.
Qed.

(** ** C73: the 3D boundary operator of a generated mesh *)
(** what generation provides: cells numbered by position, each face once per cell (a std::map); exterior cells renumbered after the cut cells
    while the exterior faces keep the factory's ids (cubes0); external boundaries name uncut unit cells *)
Record generated (m : mesh3) (cubes0 : acells) : Prop := {
  g_cells : forall i c, nth_error (m_cells m) i = Some c -> ce_index c = Z.of_nat i /\ NoDup (map fst (ce_faces c)) /\ forall f s, In (f, s) (ce_faces c) -> 0 <= f < num_cut_faces m;
  g_pos : pos3 (cshape m); g_wf : wf_cells (cshape m) cubes0; g_disj : disjoint_cells cubes0;
  g_ids : forall i b, In (i, b) cubes0 -> i = index3 (cshape m) (fst b);
  g_cubes : m_cubes m = renumber (num_cut_cells m) cubes0;
  g_faces : m_afaces m = make_faces (cshape m) cubes0;
  g_ext : forall f o s, In f (m_faces m) -> cf_ext f = Some (o, s) -> 0 <= o -> exists p i, o = index3 (cshape m) p /\ owns cubes0 i p }.
Definition is_cut_cell (m : mesh3) (i : Z) (c : cut_cell) : Prop := 0 <= i /\ nth_error (m_cells m) (Z.to_nat i) = Some c.
Local Open Scope Qc_scope.
Definition keep3 (m : mesh3) (dom : bool) (f : Z) : bool := dom || negb (match nth_error (m_faces m) (Z.to_nat f) with Some fc => is_domain_face fc | None => false end).
Definition cell_part (m : mesh3) (dom : bool) : list triplet :=
  flat_map (fun '(i, c) => flat_map (fun '(f, s) => if keep3 m dom f then [(f, i, sgnQ s)] else []) (ce_faces c)) (enum (m_cells m)).
Lemma enum_cons (A : Type) (a : A) l : enum (a :: l) = (0, a)%Z :: map (fun '(i, x) => (i + 1, x)%Z) (enum l).
Proof.
  unfold enum, zseq. rewrite !Nat2Z.id. cbn [length seq map combine]. f_equal. rewrite <- seq_shift, map_map.
  generalize (seq 0 (length l)) as s. intros s. revert l. induction s as [|k s IH]; intros [|b l]; auto. cbn [map combine]. rewrite <- IH. f_equal. f_equal. lia.
Qed.
Lemma cell_triplets_eq m dom :
  (forall i c, nth_error (m_cells m) i = Some c -> ce_index c = Z.of_nat i /\ forall f s, In (f, s) (ce_faces c) -> (0 <= f < num_cut_faces m)%Z) ->
  cell_triplets m dom = Some (cell_part m dom).
Proof.
  intros OK. unfold cell_triplets, cell_part.
  assert (G2 : forall (k : Z) es (acc : list triplet), (forall f s, In (f, s) es -> (0 <= f < num_cut_faces m)%Z) ->
    fold_left (fun acc '(fi, s) => match acc, (if (fi <? 0)%Z then None else nth_error (m_faces m) (Z.to_nat fi)) with
      | Some l, Some f => Some (if dom || negb (is_domain_face f) then l ++ [(fi, k, sgnQ s)] else l) | _, _ => None end) es (Some acc) = Some (acc ++ flat_map (fun '(f, s) => if keep3 m dom f then [(f, k, sgnQ s)] else []) es)).
  { intros k es. induction es as [|[e s] es IH]; intros acc R; cbn [fold_left flat_map]; [rewrite app_nil_r; auto|]. assert (Re := R e s (or_introl eq_refl)). rewrite (proj2 (Z.ltb_ge e 0)) by lia.
    destruct (nth_error (m_faces m) (Z.to_nat e)) as [f|] eqn:N; [|apply nth_error_None in N; unfold num_cut_faces in Re; lia].
    unfold keep3. rewrite N. destruct (dom || negb (is_domain_face f)); rewrite IH by (intros; eapply R; cbn; eauto); [rewrite <- app_assoc|]; reflexivity. }
  assert (G : forall l k (acc : list triplet), (forall i c, nth_error l i = Some c -> ce_index c = (k + Z.of_nat i)%Z /\ forall f s, In (f, s) (ce_faces c) -> (0 <= f < num_cut_faces m)%Z) ->
    fold_left (fun acc c => fold_left (fun acc '(fi, s) => match acc, (if (fi <? 0)%Z then None else nth_error (m_faces m) (Z.to_nat fi)) with
      | Some l, Some f => Some (if dom || negb (is_domain_face f) then l ++ [(fi, ce_index c, sgnQ s)] else l) | _, _ => None end) (ce_faces c) acc) l (Some acc)
    = Some (acc ++ flat_map (fun '(i, c) => flat_map (fun '(f, s) => if keep3 m dom f then [(f, (k + i)%Z, sgnQ s)] else []) (ce_faces c)) (enum l))).
  { induction l as [|c l IH]; intros k acc HK; [cbn; rewrite app_nil_r; auto|]. cbn [fold_left]. destruct (HK 0%nat c eq_refl) as [E R]. rewrite G2 by auto. rewrite (IH (k + 1)%Z).
    - rewrite enum_cons. cbn [flat_map]. rewrite <- app_assoc. f_equal. f_equal. rewrite E. change (Z.of_nat 0) with 0%Z. f_equal.
      rewrite !flat_map_concat_map, map_map. f_equal. apply map_ext. intros [i x]. replace (k + 1 + i)%Z with (k + (i + 1))%Z by lia. auto.
    - intros i x Hx. destruct (HK (S i) x Hx) as [E2 R2]. split; auto. rewrite E2. lia. }
  exact (G (m_cells m) 0%Z [] (fun i c H => OK i c H)).
Qed.
(** face f is on the boundary of cut cell i with orientation s *)
Definition bounds3 (m : mesh3) (i f : Z) (s : bool) : Prop := exists c, is_cut_cell m i c /\ In (f, s) (ce_faces c).
Lemma cell_part_In m dom r c v : In (r, c, v) (cell_part m dom) <-> exists s, bounds3 m c r s /\ keep3 m dom r = true /\ v = sgnQ s.
Proof.
  unfold cell_part, bounds3. rewrite in_flat_map. split.
  - intros ([i x] & I & H). apply enum_In in I. apply in_flat_map in H as ([f s] & I' & H). destruct (keep3 m dom f) eqn:K; [|destruct H]. destruct H as [[= <- <- <-]|[]]. exists s. split; auto. exists x. split; auto.
  - intros (s & (x & I & I') & K & ->). exists (c, x). split; [apply enum_In; exact I|]. apply in_flat_map. exists (r, s). rewrite K. cbn; auto.
Qed.
Lemma cell_part_nodup m cubes0 dom : generated m cubes0 -> NoDup (map fst (cell_part m dom)).
Proof.
  intros OK. unfold cell_part. rewrite map_flat_map. apply NoDup_flat_map.
  - apply enum_NoDup.
  - intros [i c] I. apply enum_In in I as [I1 I2]. rewrite map_flat_map. destruct (g_cells m cubes0 OK _ _ I2) as (_ & ND & _). apply NoDup_flat_map.
    + eapply NoDup_map_inv. exact ND.
    + intros [e s] _. destruct (keep3 m dom e); cbn; repeat constructor. intros [].
    + intros [e s] [e' s'] y H1 H2 I1' I2'. destruct (keep3 m dom e), (keep3 m dom e'); cbn in I1', I2'; try tauto. destruct I1' as [<-|[]], I2' as [E|[]]. assert (e = e') by congruence. subst. f_equal. eapply NoDup_fst_inj; eauto.
  - intros [i c] [i' c'] y H1 H2 I1 I2. apply enum_In in H1 as [N1 H1], H2 as [N2 H2]. apply in_map_iff in I1 as (t & <- & I1), I2 as (t' & E & I2). apply in_flat_map in I1 as ([f s] & _ & I1), I2 as ([f' s'] & _ & I2).
    destruct (keep3 m dom f), (keep3 m dom f'); cbn in I1, I2; try tauto. destruct I1 as [<-|[]], I2 as [<-|[]]. cbn in E. assert (i = i') by congruence. subst. congruence.
Qed.
Lemma is_cut_face_range m i f : is_cut_face m i f -> (0 <= i < num_cut_faces m)%Z.
Proof. intros [H1 H2]. assert (Z.to_nat i < length (m_faces m))%nat by (apply nth_error_Some; congruence). unfold num_cut_faces. lia. Qed.
Lemma cell_coeff m cubes0 dom f i : generated m cubes0 ->
  (forall s, bounds3 m i f s -> coeff (cell_part m dom) f i = if keep3 m dom f then sign s else 0) /\ ((forall s, ~ bounds3 m i f s) -> coeff (cell_part m dom) f i = 0).
Proof.
  intros OK. split.
  - intros s H. destruct (keep3 m dom f) eqn:K.
    + rewrite <- sgn_sign. apply coeff_in; [eapply cell_part_nodup; eauto|]. apply cell_part_In. eauto.
    + apply coeff_0. intros v I. apply cell_part_In in I as (s' & _ & K' & _). congruence.
  - intros H. apply coeff_0. intros v I. apply cell_part_In in I as (s' & B & _). eapply H; eauto.
Qed.
(** *** looking up owners after renumbering *)
Lemma own_get_spec shape n cubes0 i p : (0 <= n)%Z -> wf_cells shape cubes0 -> disjoint_cells cubes0 -> owns cubes0 i p ->
  forall k b, nth_error cubes0 k = Some (i, b) -> own_get shape (renumber n cubes0) (index3 shape p) = (n + Z.of_nat k)%Z.
Proof.
  intros Hn W D (b' & Hb' & HB) k b Hk. destruct (renumber_wf shape n cubes0 Hn W D) as [W' D'].
  assert (EB : b' = b) by (apply (cellsi shape cubes0 W) in Hb'; apply nth_error_In in Hk; apply (cellsi shape cubes0 W) in Hk; congruence). subst b'.
  assert (HG := proj2 (proj2 (proj2 W i b Hb')) _ HB). apply in3_grid in HG.
  assert (U : unravel (list3 shape) (index3 shape p) = list3 p). { destruct shape as [[sn sm] sk], p as [[x y] z]. cbn [in3 index3 list3] in *. apply unravel_ravel; auto. }
  unfold own_get. rewrite U. destruct p as [[x y] z]. cbn [list3]. apply (gfc_owner shape); auto; [lia|]. exists b. split; auto. apply renumber_In. eauto.
Qed.
Lemma owns_nth (cubes0 : acells) i p : owns cubes0 i p -> exists k b, nth_error cubes0 k = Some (i, b) /\ in_box b p.
Proof. intros (b & H & HB). apply In_nth_error in H as [k Hk]. eauto. Qed.
Lemma external_coeff m cubes0 f fc k i b : generated m cubes0 -> is_cut_face m f fc -> nth_error cubes0 k = Some (i, b) ->
  (forall p s, cf_ext fc = Some (index3 (cshape m) p, s) -> in_box b p -> coeff (external_triplets m) f (num_cut_cells m + Z.of_nat k)%Z = sign s) /\
  ((forall p s, cf_ext fc = Some (index3 (cshape m) p, s) -> ~ in_box b p) -> coeff (external_triplets m) f (num_cut_cells m + Z.of_nat k)%Z = 0).
Proof.
  intros OK HF HK. assert (NC : (0 <= num_cut_cells m)%Z) by (unfold num_cut_cells; lia).
  assert (E : coeff (external_triplets m) f (num_cut_cells m + Z.of_nat k)%Z = match cf_ext fc with Some (o, s) => if ((0 <=? o) && (own_get (cshape m) (m_cubes m) o =? num_cut_cells m + Z.of_nat k))%Z then sign s else 0 | None => 0 end).
  { unfold external_triplets. rewrite coeff_flat. rewrite (@lsum_single _ _ _ (f, fc)).
    - cbv beta iota. destruct (cf_ext fc) as [[o s]|]; [|reflexivity]. destruct (0 <=? o)%Z; [|reflexivity]. unfold coeff. cbn [lsum t_row t_col t_val fst snd andb]. rewrite Z.eqb_refl. cbn [andb]. destruct (_ =? _)%Z; rewrite ?sgn_sign; ring.
    - apply enum_NoDup.
    - apply enum_In. exact HF.
    - intros [f' fc'] I N. apply enum_In in I. assert (X : (f' =? f)%Z = false). { apply Z.eqb_neq. intros ->. apply N. destruct HF, I. congruence. }
      destruct (cf_ext fc') as [[o s]|]; [|reflexivity]. destruct (0 <=? o)%Z; [|reflexivity]. unfold coeff. cbn [lsum t_row t_col t_val fst snd]. rewrite X. cbn [andb]. ring. }
  rewrite E. clear E. assert (W := g_wf m cubes0 OK). assert (D := g_disj m cubes0 OK). assert (IB := nth_error_In _ _ HK). rewrite (g_cubes m cubes0 OK).
  split.
  - intros p s EX HB. rewrite EX. assert (OW : owns cubes0 i p) by (exists b; auto). assert (HG := own_grid _ _ W _ _ OW). assert (IX : (0 <= index3 (cshape m) p)%Z).
    { apply in3_grid in HG. destruct (cshape m) as [[a1 a2] a3], p as [[x y] z]. cbn [index3 in3] in *. apply ravel_range in HG. lia. }
    rewrite (proj2 (Z.leb_le _ _)) by auto. rewrite (own_get_spec (cshape m) (num_cut_cells m) cubes0 i p NC W D OW k b HK), Z.eqb_refl. auto.
  - intros H. destruct (cf_ext fc) as [[o s]|] eqn:EX; auto. destruct (Z.leb_spec 0 o) as [L|L]; cbn [andb]; auto.
    destruct (g_ext m cubes0 OK fc o s) as (p & j & -> & OW); auto; [destruct HF; eapply nth_error_In; eauto|]. destruct (owns_nth _ _ _ OW) as (k' & b' & Hk' & HB').
    rewrite (own_get_spec (cshape m) (num_cut_cells m) cubes0 j p NC W D OW k' b' Hk'). destruct (Z.eqb_spec (num_cut_cells m + Z.of_nat k') (num_cut_cells m + Z.of_nat k)) as [EQ|]; auto.
    assert (k' = k) by lia. subst. rewrite HK in Hk'. apply Some_inj, pair_equal_spec in Hk' as [_ <-]. edestruct H; eauto.
Qed.
Lemma ag_get_own shape cells fs off dom : ag_boundary_triplets shape cells fs off dom =
  flat_map (fun '(i, f) => let '(l, h) := af_dual f in
      if dom || negb ((l =? -2) || (h =? -2))%Z then
        (if 0 <=? l then [(off + Z.of_nat i, own_get shape cells l, -1)] else [])%Z ++ (if 0 <=? h then [(off + Z.of_nat i, own_get shape cells h, 1)] else [])%Z
      else []) (combine (seq 0 (length fs)) fs).
Proof. unfold ag_boundary_triplets, own_get, list3. destruct shape as [[a b] c]. reflexivity. Qed.
Definition is_domain_aface (f : aface) : bool := ((fst (af_dual f) =? -2) || (snd (af_dual f) =? -2))%Z.
Lemma dual_owner shape cubes0 f : pos3 shape -> wf_cells shape cubes0 -> disjoint_cells cubes0 -> In f (make_faces shape cubes0) ->
  fst (af_dual f) <> snd (af_dual f) /\ forall l, (l = fst (af_dual f) \/ l = snd (af_dual f)) -> (0 <= l)%Z -> exists b, In (l, b) cubes0.
Proof.
  intros PS W D Hf. assert (M : meet shape cubes0 (af_axis f) (fst (af_dual f)) (snd (af_dual f))).
  { apply (faces_exist shape cubes0 PS W D); [apply faces_In in Hf; apply Hf|]. exists f. split; auto. split; auto. apply surjective_pairing. }
  split; [eapply adj_ne; eauto|]. intros l HL Hl. destruct M as [(_ & x & (b1 & H1 & _) & (b2 & H2 & _))|[(E & x & (b1 & H1 & _) & _)|(E & x & (b1 & H1 & _) & _)]]; destruct HL as [->| ->]; try lia; eauto.
Qed.
Lemma own_get_corner shape n cubes0 : (0 <= n)%Z -> wf_cells shape cubes0 -> disjoint_cells cubes0 -> (forall i b, In (i, b) cubes0 -> i = index3 shape (fst b)) ->
  forall k i b, nth_error cubes0 k = Some (i, b) -> own_get shape (renumber n cubes0) i = (n + Z.of_nat k)%Z.
Proof.
  intros Hn W D ID k i b Hk. assert (I := nth_error_In _ _ Hk). rewrite (ID i b I) at 1. apply (own_get_spec shape n cubes0 i (fst b) Hn W D) with (b := b); auto.
  exists b. split; auto. intros d Hd. assert (X := proj1 (proj2 (proj2 W i b I))). lia.
Qed.
Lemma adaptive_coeff m cubes0 dom j f k i b : generated m cubes0 -> nth_error (m_afaces m) j = Some f -> nth_error cubes0 k = Some (i, b) ->
  coeff (adaptive_part m dom) (num_cut_faces m + Z.of_nat j)%Z (num_cut_cells m + Z.of_nat k)%Z =
  if dom || negb (is_domain_aface f) then bit (snd (af_dual f) =? i)%Z - bit (fst (af_dual f) =? i)%Z else 0.
Proof.
  intros OK Hj Hk. assert (W := g_wf m cubes0 OK). assert (D := g_disj m cubes0 OK). assert (NC : (0 <= num_cut_cells m)%Z) by (unfold num_cut_cells; lia).
  assert (OG := own_get_corner (cshape m) (num_cut_cells m) cubes0 NC W D (g_ids m cubes0 OK)).
  assert (Hf : In f (make_faces (cshape m) cubes0)) by (rewrite <- (g_faces m cubes0 OK); eapply nth_error_In; eauto).
  destruct (dual_owner _ _ _ (g_pos m cubes0 OK) W D Hf) as [NE OWN]. assert (IK := nth_error_In _ _ Hk). assert (NI : (0 <= i)%Z) by apply (proj2 W i b IK).
  assert (EQ : forall l, (l = fst (af_dual f) \/ l = snd (af_dual f)) -> (0 <= l)%Z -> (own_get (cshape m) (m_cubes m) l =? num_cut_cells m + Z.of_nat k)%Z = (l =? i)%Z).
  { intros l HL Hl. destruct (OWN l HL Hl) as [b' Hb']. apply In_nth_error in Hb' as [k' Hk']. rewrite (g_cubes m cubes0 OK), (OG k' l b' Hk'). apply Bool.eq_iff_eq_true. rewrite !Z.eqb_eq. split.
    - intros E. assert (k' = k) by lia. subst. congruence.
    - intros ->. assert (k' = k); [|lia]. destruct W as [W _]. apply (ssorted_NoDup Zcompare_total) in W. rewrite NoDup_nth_error in W. apply W; [rewrite map_length; apply nth_error_Some; congruence|]. rewrite !nth_error_map, Hk, Hk'. auto. }
  unfold adaptive_part. rewrite ag_get_own, map_flat_map, coeff_flat. rewrite (@lsum_single _ _ _ (j, f)).
  - cbv beta iota. unfold is_domain_aface. destruct (af_dual f) as [l h]. cbn [fst snd] in *. destruct (dom || _); [|reflexivity].
    assert (EL := EQ l (or_introl eq_refl)). assert (EH := EQ h (or_intror eq_refl)).
    destruct (Z.leb_spec 0 l) as [L|L], (Z.leb_spec 0 h) as [H|H]; cbn [app map]; unfold coeff; cbn [lsum t_row t_col t_val fst snd]; rewrite ?Z.eqb_refl; cbn [andb];
    rewrite ?EL, ?EH by auto; change (Z2Qc (-1)) with (Z2Qc (- (1))); rewrite ?Z2Qc_opp, ?Z2Qc_1;
    try (rewrite (proj2 (Z.eqb_neq l i)) by lia); try (rewrite (proj2 (Z.eqb_neq h i)) by lia);
    repeat match goal with |- context [(?a =? i)%Z] => destruct (a =? i)%Z end; unfold bit; ring.
  - apply combine_seq_NoDup.
  - apply combine_seq_nth. exact Hj.
  - intros [j' f'] I N. apply combine_seq_nth in I. assert (NK : (num_cut_faces m + Z.of_nat j' =? num_cut_faces m + Z.of_nat j)%Z = false). { apply Z.eqb_neq. intros E. apply N. assert (j' = j) by lia. subst. congruence. }
    destruct (af_dual f') as [l h]. destruct (dom || _); [|reflexivity]. unfold coeff. destruct (0 <=? l)%Z, (0 <=? h)%Z; cbn [app map lsum t_row t_col t_val fst snd]; rewrite ?NK; cbn [andb]; ring.
Qed.
Lemma adaptive_range m cubes0 dom r c v : generated m cubes0 -> In (r, c, v) (adaptive_part m dom) -> (num_cut_faces m <= r < face_size m)%Z /\ (num_cut_cells m <= c < cell_size m)%Z.
Proof.
  intros OK I. unfold adaptive_part in I. apply in_map_iff in I as ([[a b] w] & E & I). assert (E1 := f_equal (fun t => fst (fst t)) E). assert (E2 := f_equal (fun t => snd (fst t)) E). cbn in E1, E2. subst a b. clear E.
  assert (W := g_wf m cubes0 OK). assert (D := g_disj m cubes0 OK). assert (NC : (0 <= num_cut_cells m)%Z) by (unfold num_cut_cells; lia).
  rewrite (g_cubes m cubes0 OK), (g_faces m cubes0 OK) in I. apply c56_generated_boundary_triplets in I; auto; [|apply (g_pos m cubes0 OK)|apply (g_ids m cubes0 OK)].
  destruct I as (k & f & Hk & -> & _ & V). assert (L : (k < length (m_afaces m))%nat) by (rewrite (g_faces m cubes0 OK); apply nth_error_Some; congruence).
  split; [unfold face_size; lia|]. assert (R : exists b, In (c, b) (renumber (num_cut_cells m) cubes0)) by (destruct V as [(_ & b & _ & H)|(_ & b & _ & H)]; eauto). destruct R as [b H].
  apply renumber_In in H as (k' & i & H & ->). assert (L' : (k' < length cubes0)%nat) by (apply nth_error_Some; congruence). unfold cell_size. rewrite (g_cubes m cubes0 OK). unfold renumber. rewrite map_length, combine_length, seq_length. lia.
Qed.
Lemma cell_range3 m cubes0 dom r c v : generated m cubes0 -> In (r, c, v) (cell_part m dom) -> (0 <= r < num_cut_faces m)%Z /\ (0 <= c < num_cut_cells m)%Z.
Proof.
  intros OK I. apply cell_part_In in I as (s & (x & [C1 C2] & HI) & _). destruct (g_cells m cubes0 OK _ _ C2) as (_ & _ & R). split; [eapply R; eauto|]. split; auto.
  assert (Z.to_nat c < length (m_cells m))%nat by (apply nth_error_Some; congruence). unfold num_cut_cells. lia.
Qed.
Lemma external_range m cubes0 r c v : generated m cubes0 -> In (r, c, v) (external_triplets m) -> (0 <= r < num_cut_faces m)%Z /\ (num_cut_cells m <= c < cell_size m)%Z.
Proof.
  intros OK I. unfold external_triplets in I. apply in_flat_map in I as ([f fc] & I & H). apply enum_In in I. destruct (cf_ext fc) as [[o s]|] eqn:E; [|destruct H]. destruct (Z.leb_spec 0 o); [|destruct H].
  destruct H as [H|[]]. assert (E1 := f_equal (fun t => fst (fst t)) H). assert (E2 := f_equal (fun t => snd (fst t)) H). cbn in E1, E2. subst r c. split; [apply (is_cut_face_range m f fc I)|].
  destruct (g_ext m cubes0 OK fc o s) as (p & j & -> & OW); auto; [destruct I; eapply nth_error_In; eauto|]. destruct (owns_nth _ _ _ OW) as (k' & b' & Hk' & HB').
  assert (NC : (0 <= num_cut_cells m)%Z) by (unfold num_cut_cells; lia). unfold cell_size. rewrite (g_cubes m cubes0 OK). rewrite (own_get_spec (cshape m) (num_cut_cells m) cubes0 j p NC (g_wf m cubes0 OK) (g_disj m cubes0 OK) OW k' b' Hk').
  assert (L' : (k' < length cubes0)%nat) by (apply nth_error_Some; congruence). unfold renumber. rewrite map_length, combine_length, seq_length. lia.
Qed.
(** every coefficient of boundary(ccm, include_domain_boundary): rows = cut faces then exterior faces, columns = cut cells then exterior cells *)
Theorem c73_coefficients m cubes0 dom : generated m cubes0 -> exists B, boundary3 m dom = Some B /\
  (forall r c v, In (r, c, v) B -> (0 <= r < face_size m)%Z /\ (0 <= c < cell_size m)%Z) /\
  (forall f fc i, is_cut_face m f fc -> (0 <= i < num_cut_cells m)%Z ->
     (forall s, bounds3 m i f s -> coeff B f i = if dom || negb (is_domain_face fc) then sign s else 0) /\ ((forall s, ~ bounds3 m i f s) -> coeff B f i = 0)) /\
  (forall f fc k i b, is_cut_face m f fc -> nth_error cubes0 k = Some (i, b) ->
     (forall p s, cf_ext fc = Some (index3 (cshape m) p, s) -> in_box b p -> coeff B f (num_cut_cells m + Z.of_nat k)%Z = sign s) /\
     ((forall p s, cf_ext fc = Some (index3 (cshape m) p, s) -> ~ in_box b p) -> coeff B f (num_cut_cells m + Z.of_nat k)%Z = 0)) /\
  (forall j f k i b, nth_error (m_afaces m) j = Some f -> nth_error cubes0 k = Some (i, b) ->
     coeff B (num_cut_faces m + Z.of_nat j)%Z (num_cut_cells m + Z.of_nat k)%Z = if dom || negb (is_domain_aface f) then bit (snd (af_dual f) =? i)%Z - bit (fst (af_dual f) =? i)%Z else 0) /\
  (forall j i, (0 <= j)%Z -> (0 <= i < num_cut_cells m)%Z -> coeff B (num_cut_faces m + j)%Z i = 0).
Proof.
  intros OK. unfold boundary3. rewrite cell_triplets_eq by (intros i c H; destruct (g_cells m cubes0 OK i c H) as (A & _ & B); auto). cbn [option_map]. eexists. split; [reflexivity|].
  assert (Z1 : forall r c, (r < num_cut_faces m)%Z \/ (c < num_cut_cells m)%Z -> coeff (adaptive_part m dom) r c = 0) by (intros r c H; apply coeff_0; intros v I; apply (adaptive_range m cubes0) in I; auto; lia).
  assert (Z2 : forall r c, (num_cut_faces m <= r)%Z \/ (num_cut_cells m <= c)%Z -> coeff (cell_part m dom) r c = 0) by (intros r c H; apply coeff_0; intros v I; apply (cell_range3 m cubes0) in I; auto; lia).
  assert (Z3 : forall r c, (num_cut_faces m <= r)%Z \/ (c < num_cut_cells m)%Z -> coeff (external_triplets m) r c = 0) by (intros r c H; apply coeff_0; intros v I; apply (external_range m cubes0) in I; auto; lia).
  assert (NF : (0 <= num_cut_faces m)%Z) by (unfold num_cut_faces; lia). assert (NC : (0 <= num_cut_cells m)%Z) by (unfold num_cut_cells; lia).
  split; [|split; [|split; [|split]]].
  - intros r c v I. rewrite !in_app_iff in I. destruct I as [I|[I|I]]; [apply (adaptive_range m cubes0) in I|apply (cell_range3 m cubes0) in I|apply (external_range m cubes0) in I]; auto; unfold face_size, cell_size in *; lia.
  - intros f fc i HF Hi. assert (R := is_cut_face_range m f fc HF). rewrite !coeff_app, Z1, Z3 by lia.
    assert (KE : keep3 m dom f = dom || negb (is_domain_face fc)). { unfold keep3. destruct HF as [_ ->]. auto. }
    destruct (cell_coeff m cubes0 dom f i OK) as [F1 F2]. rewrite KE in F1. split; [intros s Hs; rewrite (F1 s Hs)|intros H; rewrite F2 by auto]; ring.
  - intros f fc k i b HF Hk. assert (R := is_cut_face_range m f fc HF). rewrite !coeff_app, Z1, Z2 by lia. destruct (external_coeff m cubes0 f fc k i b OK HF Hk) as [E1 E2].
    split; [intros p s EX HB; rewrite (E1 p s EX HB)|intros H; rewrite E2 by auto]; ring.
  - intros j f k i b Hj Hk. rewrite !coeff_app, Z2, Z3 by lia. rewrite (adaptive_coeff m cubes0 dom j f k i b OK Hj Hk). destruct (dom || _); ring.
  - intros j i Hj Hi. rewrite !coeff_app, Z1, Z2, Z3 by lia. ring.
Qed.
(** signed count of the cells on the two sides of cut face f *)
Definition face_total (m : mesh3) (f : Z) (fc : cut_face) : Qc :=
  lsum (fun c => lsum (fun '(f', s) => if (f' =? f)%Z then sign s else 0) (ce_faces c)) (m_cells m) + match cf_ext fc with Some (o, s) => if (0 <=? o)%Z then sign s else 0 | None => 0 end.
(** every cut face inside the domain has oppositely oriented cells on its two sides *)
Definition balanced3 (m : mesh3) : Prop := forall f fc, is_cut_face m f fc -> is_domain_face fc = false -> face_total m f fc = 0.
Lemma lsum_enum (A : Type) (g : A -> Qc) l : lsum (fun '(i, x) => g x) (enum l) = lsum g l.
Proof. induction l as [|a l IH]; [reflexivity|]. rewrite enum_cons. cbn [lsum]. rewrite lsum_map. f_equal. rewrite <- IH. apply lsum_ext. intros [i x] _. auto. Qed.
(** row r of the operator applied to the constant 1 *)
Lemma row_values m cubes0 B : generated m cubes0 -> boundary3 m false = Some B ->
  (forall r fc, is_cut_face m r fc -> mulv B (fun _ => 1) r = if is_domain_face fc then 0 else face_total m r fc) /\
  (forall r, (forall fc, ~ is_cut_face m r fc) -> mulv B (fun _ => 1) r = 0).
Proof.
  intros OK. unfold boundary3. rewrite cell_triplets_eq by (intros i c H; destruct (g_cells m cubes0 OK i c H) as (X & _ & Y); auto). cbn [option_map]. intros HB. apply Some_inj in HB. subst B. assert (EV : forall r, (exists fc, is_cut_face m r fc /\ mulv (adaptive_part m false ++ cell_part m false ++ external_triplets m) (fun _ => 1) r = if is_domain_face fc then 0 else face_total m r fc) \/ ((forall fc, ~ is_cut_face m r fc) /\ mulv (adaptive_part m false ++ cell_part m false ++ external_triplets m) (fun _ => 1) r = 0)).
  2:{ split; [intros r fc HF; destruct (EV r) as [(fc' & [A1 A2] & E)|[N _]]; [destruct HF; replace fc with fc' by congruence; auto|destruct (N fc HF)]|intros r N; destruct (EV r) as [(fc & HF & _)|[_ E]]; [destruct (N fc HF)|auto]]. }
  intros r. rewrite !mulv_app.
  assert (S0 : mulv (adaptive_part m false) (fun _ => 1) r = 0).
  { unfold adaptive_part. rewrite ag_get_own, map_flat_map, mulv_flat. apply lsum_0. intros [j f] I. apply combine_seq_nth, nth_error_In in I. rewrite (g_faces m cubes0 OK) in I.
    assert (M : meet (cshape m) cubes0 (af_axis f) (fst (af_dual f)) (snd (af_dual f))).
    { apply (faces_exist (cshape m) cubes0 (g_pos m cubes0 OK) (g_wf m cubes0 OK) (g_disj m cubes0 OK)); [apply faces_In in I; apply I|]. exists f. split; auto. split; auto. apply surjective_pairing. }
    destruct (af_dual f) as [l h]. cbn [fst snd orb] in *. destruct (negb _) eqn:E; [|reflexivity]. apply negb_true_iff, orb_false_iff in E as [E1 E2]. apply Z.eqb_neq in E1, E2.
    destruct M as [(N & x & O1 & O2)|[(X & _)|(X & _)]]; try contradiction. apply (own_nn (cshape m) cubes0 (g_wf m cubes0 OK)) in O1, O2. rewrite !(proj2 (Z.leb_le _ _)) by auto.
    cbn [app map]. unfold mulv. cbn [lsum t_row t_col t_val fst snd]. change (Z2Qc (-1)) with (Z2Qc (- (1))). rewrite Z2Qc_opp, Z2Qc_1. destruct (_ =? r)%Z; ring. }
  rewrite S0. assert (RX : forall t, (forall r c v, In (r, c, v) t -> (0 <= r < num_cut_faces m)%Z) -> ~ (0 <= r < num_cut_faces m)%Z -> mulv t (fun _ => 1) r = 0).
  { intros t H NR. apply lsum_0. intros [[a b] v] I. cbn. apply H in I. destruct (Z.eqb_spec a r); auto. lia. }
  destruct (nth_error (m_faces m) (Z.to_nat r)) as [fc|] eqn:N; [destruct (Z_lt_le_dec r 0) as [L|L]|].
  - right. split; [intros ? [? _]; lia|]. rewrite !RX; [ring| |lia| |lia]; [intros ? ? ? I; apply (external_range m cubes0) in I; auto; tauto|intros ? ? ? I; apply (cell_range3 m cubes0) in I; auto; tauto].
  - left. exists fc. assert (HF : is_cut_face m r fc) by (split; auto). split; [exact HF|]. assert (KE : keep3 m false r = negb (is_domain_face fc)). { unfold keep3. rewrite N. auto. }
    assert (F : mulv (cell_part m false) (fun _ => 1) r = if is_domain_face fc then 0 else lsum (fun c => lsum (fun '(f', s) => if (f' =? r)%Z then sign s else 0) (ce_faces c)) (m_cells m)).
    { unfold cell_part. rewrite mulv_flat. destruct (is_domain_face fc) eqn:DE.
      - apply lsum_0. intros [i c] _. rewrite mulv_flat. apply lsum_0. intros [e s] _. destruct (keep3 m false e) eqn:K; [|reflexivity]. unfold mulv. cbn [lsum t_row t_col t_val fst snd]. destruct (Z.eqb_spec e r); [subst; rewrite KE in K; discriminate|ring].
      - rewrite <- (lsum_enum _ _ (m_cells m)). apply lsum_ext. intros [i c] _. rewrite mulv_flat. apply lsum_ext. intros [e s] _. destruct (keep3 m false e) eqn:K; unfold mulv; cbn [lsum t_row t_col t_val fst snd]; destruct (Z.eqb_spec e r); rewrite ?sgn_sign; try ring. subst. rewrite KE in K. discriminate. }
    assert (X : mulv (external_triplets m) (fun _ => 1) r = match cf_ext fc with Some (o, s) => if (0 <=? o)%Z then sign s else 0 | None => 0 end).
    { unfold external_triplets. rewrite mulv_flat. rewrite (@lsum_single _ _ _ (r, fc)).
      - cbv beta iota. destruct (cf_ext fc) as [[o s]|]; [|reflexivity]. destruct (0 <=? o)%Z; [|reflexivity]. unfold mulv. cbn [lsum t_row t_col t_val fst snd]. rewrite Z.eqb_refl, sgn_sign. ring.
      - apply enum_NoDup.
      - apply enum_In. auto.
      - intros [e' ed'] I NE. apply enum_In in I. destruct (cf_ext ed') as [[o s]|]; [|reflexivity]. destruct (0 <=? o)%Z; [|reflexivity]. unfold mulv. cbn [lsum t_row t_col t_val fst snd]. destruct (Z.eqb_spec e' r); [|ring]. subst. destruct NE. destruct I. congruence. }
    rewrite F, X. destruct (is_domain_face fc) eqn:DE.
    + unfold is_domain_face in DE. destruct (cf_ext fc) as [[o s]|]; [|discriminate]. apply Z.eqb_eq in DE. subst. cbn. ring.
    + unfold face_total. ring.
  - right. split; [intros ? [_ ?]; congruence|]. apply nth_error_None in N. rewrite !RX; [ring| |unfold num_cut_faces; lia| |unfold num_cut_faces; lia]; [intros ? ? ? I; apply (external_range m cubes0) in I; auto; tauto|intros ? ? ? I; apply (cell_range3 m cubes0) in I; auto; tauto].
Qed.
Theorem c73_row_sums m cubes0 B : generated m cubes0 -> balanced3 m -> boundary3 m false = Some B -> forall r, mulv B (fun _ => 1) r = 0.
Proof.
  intros OK BA HB r. destruct (row_values m cubes0 B OK HB) as [R1 R2]. destruct (nth_error (m_faces m) (Z.to_nat r)) as [fc|] eqn:N; [destruct (Z_lt_le_dec r 0) as [L|L]|].
  - apply R2. intros ? [? _]. lia.
  - assert (HF : is_cut_face m r fc) by (split; auto). rewrite (R1 r fc HF). destruct (is_domain_face fc) eqn:D; auto.
  - apply R2. intros ? [_ ?]. congruence.
Qed.
(** for any diagonal h: B^T diag(h) B is symmetric, nonnegative when h is, and has the constants in its kernel *)
Theorem c73_laplacian m cubes0 B h : generated m cubes0 -> boundary3 m false = Some B ->
  (forall x z, lsum (fun c => z c * lap B h x c) (zseq (cell_size m)) = lsum (fun c => x c * lap B h z c) (zseq (cell_size m))) /\
  ((forall r, (0 <= r < face_size m)%Z -> 0 <= h r) -> forall x, 0 <= lsum (fun c => x c * lap B h x c) (zseq (cell_size m))) /\
  (balanced3 m -> forall k c, lap B h (fun _ => k) c = 0).
Proof.
  intros OK HB. destruct (c73_coefficients m cubes0 false OK) as (B' & HB' & R & _). rewrite HB in HB'. apply Some_inj in HB'. subst B'.
  assert (RR : Forall (fun t => 0 <= t_row t < face_size m)%Z B) by (apply Forall_forall; intros [[a b] v] I; apply (R _ _ _ I)).
  assert (RC : Forall (fun t => 0 <= t_col t < cell_size m)%Z B) by (apply Forall_forall; intros [[a b] v] I; apply (R _ _ _ I)). split; [|split].
  - intros x z. rewrite !(lap_form h _ _ RR RC). apply form_sym.
  - intros H x. rewrite (lap_form h _ _ RR RC). apply form_psd. auto.
  - intros BA k c. unfold lap, mulTv. apply lsum_0. intros t _. assert (E : mulv B (fun _ => k) (t_row t) = 0). { assert (S := c73_row_sums m cubes0 B OK BA HB (t_row t)). unfold mulv in *.
      rewrite (@lsum_ext _ _ (fun t0 => k * (if (t_row t0 =? t_row t)%Z then t_val t0 * 1 else 0))); [rewrite lsum_scale, S; ring|]. intros a _. destruct (_ =? _)%Z; ring. }
    rewrite E. destruct (_ =? c)%Z; ring.
Qed.
(** a face whose two cells are oppositely oriented: two cut cells, or one cut cell and an exterior cell *)
Theorem c73_two_sided m cubes0 f fc : generated m cubes0 -> is_cut_face m f fc ->
  (exists i j s, i <> j /\ bounds3 m i f s /\ bounds3 m j f (negb s) /\ (forall k s', bounds3 m k f s' -> k = i \/ k = j) /\ (forall o s', cf_ext fc = Some (o, s') -> (o < 0)%Z)) \/
  (exists i s o, bounds3 m i f s /\ (forall k s', bounds3 m k f s' -> k = i) /\ cf_ext fc = Some (o, negb s) /\ (0 <= o)%Z) ->
  face_total m f fc = 0.
Proof.
  intros OK HF H. unfold face_total. rewrite <- (lsum_enum _ _ (m_cells m)).
  assert (ONE : forall i c, In (i, c) (enum (m_cells m)) -> (forall s, bounds3 m i f s -> lsum (fun '(f', s) => if (f' =? f)%Z then sign s else 0) (ce_faces c) = sign s) /\ ((forall s, ~ bounds3 m i f s) -> lsum (fun '(f', s) => if (f' =? f)%Z then sign s else 0) (ce_faces c) = 0)).
  { intros i c I. apply enum_In in I. destruct (g_cells m cubes0 OK _ _ (proj2 I)) as (_ & ND & _). split.
    - intros s (c' & I' & HS). assert (c' = c) by (destruct I, I'; congruence). subst. rewrite (@lsum_single _ _ _ (f, s)); auto; [rewrite Z.eqb_refl; auto|eapply NoDup_map_inv; eauto|].
      intros [f' s'] H' N. destruct (Z.eqb_spec f' f); auto. subst. destruct N. f_equal. eapply NoDup_fst_inj; eauto.
    - intros NB. apply lsum_0. intros [f' s'] H'. destruct (Z.eqb_spec f' f); auto. subst. destruct (NB s'). exists c. split; auto. }
  destruct H as [(i & j & s & NE & B1 & B2 & U & X)|(i & s & o & B1 & U & EX & O)].
  - assert (XE : match cf_ext fc with Some (o, s0) => if (0 <=? o)%Z then sign s0 else 0 | None => 0 end = 0). { destruct (cf_ext fc) as [[o s']|]; auto. rewrite (proj2 (Z.leb_gt _ _)); auto. eapply X; eauto. } rewrite XE.
    destruct B1 as (ci & I1 & S1), B2 as (cj & I2 & S2). assert (E1 : In (i, ci) (enum (m_cells m))) by (apply enum_In; auto). assert (E2 : In (j, cj) (enum (m_cells m))) by (apply enum_In; auto).
    rewrite (@lsum_ext _ _ (fun ic : Z * cut_cell => (if (fst ic =? i)%Z then sign s else 0) + (if (fst ic =? j)%Z then sign (negb s) else 0))).
    + rewrite lsum_add. rewrite (@lsum_single _ _ _ (i, ci)), (@lsum_single _ _ _ (j, cj)); auto using enum_NoDup.
      * cbn [fst]. rewrite !Z.eqb_refl. destruct s; unfold sign; cbn [negb]; ring.
      * intros [k c] I N. cbn [fst]. destruct (Z.eqb_spec k j); auto. subst. apply enum_In in I. destruct N. destruct I, I2. congruence.
      * intros [k c] I N. cbn [fst]. destruct (Z.eqb_spec k i); auto. subst. apply enum_In in I. destruct N. destruct I, I1. congruence.
    + intros [k c] I. cbn [fst]. destruct (ONE k c I) as [P1 P2]. destruct (Z.eqb_spec k i) as [->|N1]; [|destruct (Z.eqb_spec k j) as [->|N2]].
      * rewrite (P1 s) by (exists ci; auto). rewrite (proj2 (Z.eqb_neq i j)) by auto. ring.
      * rewrite (P1 (negb s)) by (exists cj; auto). ring.
      * rewrite P2; [ring|]. intros s' HB. destruct (U k s' HB); contradiction.
  - rewrite EX, (proj2 (Z.leb_le 0 o)) by auto. destruct B1 as (ci & I1 & S1). assert (E1 : In (i, ci) (enum (m_cells m))) by (apply enum_In; auto).
    rewrite (@lsum_single _ _ _ (i, ci)); auto using enum_NoDup.
    + rewrite (proj1 (ONE i ci E1) s) by (exists ci; auto). destruct s; unfold sign; cbn [negb]; ring.
    + intros [k c] I N. apply (proj2 (ONE k c I)). intros s' HB. assert (k = i) by eauto. subst. apply enum_In in I. destruct N. destruct I, I1. congruence.
Qed.
(** *** a 2x2x2 grid whose corner cell is the only cut cell *)
Definition axial (a v : Z) (ext : option (Z * bool)) : cut_face := mkCutFace (match a with 0 => [Some v; None; None] | 1 => [None; Some v; None] | _ => [None; None; Some v] end)%Z [] (AxialFace a v) (0, 0, 0) ext None None.
Definition sample3 : mesh3 := mkMesh (0, 0, 0) (1, 1, 1) (3, 3, 3)%Z [] [] (fun p => c3_eqb p (0, 0, 0)%Z) [] []
  [axial 0 0 (Some (-2, false)); axial 0 1 (Some (4, true)); axial 1 0 (Some (-2, false)); axial 1 1 (Some (2, true)); axial 2 0 (Some (-2, false)); axial 2 1 (Some (1, true))]%Z
  [mkCutCell [(0, true); (1, false); (2, true); (3, false); (4, true); (5, false)]%Z 0 0 (0, 0, 0)%Z] [] []
  (renumber 1 seven) (make_faces (2, 2, 2)%Z seven) [].
Example c73_nonvacuous : generated sample3 seven /\ balanced3 sample3 /\ exists B, boundary3 sample3 false = Some B /\ map this [coeff B 1 0; coeff B 1 4; coeff B 0 0; coeff B 1 5] = map this [1; - (1); 0; 0].
Proof.
  assert (OK : generated sample3 seven).
  { destruct seven_ok as (W & D & I). split; auto.
    - intros [|[|i]] c H; try discriminate. injection H as <-. split; [reflexivity|]. split.
      + cbn. repeat (apply NoDup_cons; [cbn; intuition lia|]). apply NoDup_nil.
      + intros f s. cbn. intros H. repeat (destruct H as [[= <- <-]|H]; [lia|]). destruct H.
    - intros [|[|[|d]]] Hd; cbn; lia.
    - intros f o s HI. cbn in HI. assert (V : forall i b, In (i, b) seven -> snd b = 1%Z).
      { assert (F : forallb (fun ib => Z.eqb (snd (snd ib)) 1) seven = true) by reflexivity. rewrite forallb_forall in F. intros i b H. apply F in H. apply Z.eqb_eq in H. auto. }
      assert (OW : forall p, In (index3 (2, 2, 2)%Z p, (p, 1%Z)) seven -> exists i, owns seven i p). { intros p H. eexists. eexists. split; [exact H|]. intros d Hd. cbn [fst snd]. lia. }
      repeat (destruct HI as [<-|HI]; [intros E O; cbn in E; injection E as <- <-; first [lia|
        first [destruct (OW (1, 0, 0)%Z) as [j Hj]; [vm_compute; tauto|]; exists (1, 0, 0)%Z, j; split; [reflexivity|exact Hj]
              |destruct (OW (0, 1, 0)%Z) as [j Hj]; [vm_compute; tauto|]; exists (0, 1, 0)%Z, j; split; [reflexivity|exact Hj]
              |destruct (OW (0, 0, 1)%Z) as [j Hj]; [vm_compute; tauto|]; exists (0, 0, 1)%Z, j; split; [reflexivity|exact Hj]]]|]). destruct HI. }
  split; auto. split.
  - intros f fc HF D. apply (c73_two_sided sample3 seven f fc OK HF). right. destruct HF as [F1 F2].
    assert (U : forall k s, bounds3 sample3 k f s -> k = 0%Z). { intros k s (c & [K1 K2] & _). destruct (Z.to_nat k) as [|[|n]] eqn:E; try discriminate. lia. }
    assert (BB : forall s, In (f, s) [(0, true); (1, false); (2, true); (3, false); (4, true); (5, false)]%Z -> bounds3 sample3 0 f s). { intros s H. eexists. split; [split; [lia|reflexivity]|exact H]. }
    destruct (Z.to_nat f) as [|[|[|[|[|[|n]]]]]] eqn:E; cbn in F2; try (apply Some_inj in F2; subst fc); try discriminate; [| | |destruct n; discriminate].
    + exists 0%Z, false, 4%Z. assert (f = 1)%Z by lia. subst f. split; [apply BB; cbn; tauto|]. split; [intros; eapply U; eauto|]. split; [reflexivity|lia].
    + exists 0%Z, false, 2%Z. assert (f = 3)%Z by lia. subst f. split; [apply BB; cbn; tauto|]. split; [intros; eapply U; eauto|]. split; [reflexivity|lia].
    + exists 0%Z, false, 1%Z. assert (f = 5)%Z by lia. subst f. split; [apply BB; cbn; tauto|]. split; [intros; eapply U; eauto|]. split; [reflexivity|lia].
  - eexists. split; [reflexivity|]. vm_compute. reflexivity.
Qed.
Local Close Scope Qc_scope.
Example c51_example : firstn 10 (grid_boundary_mask sample3) = [0; 1; 0; 1; 0; 1; 0; 0; 0; 1] /\ firstn 6 (grid_boundary_faces3 sample3) = [0; 2; 4; 6; 7; 8] /\ length (grid_boundary_faces3 sample3) = 24%nat.
Proof. vm_compute. auto. Qed.
(** the same mesh with the cut cell at the far corner: its three domain faces are not masked *)
Example c51_last_plane_example : let m := mkMesh (0, 0, 0)%Qc (1, 1, 1)%Qc (3, 3, 3) [] [] (fun p => c3_eqb p (1, 1, 1)) [] [] [axial 0 2 (Some (-2, true))] [] [] [] [] [] [] in
  grid_boundary_mask m = [1] /\ grid_boundary_faces3 m = [0].
Proof. vm_compute. auto. Qed.
