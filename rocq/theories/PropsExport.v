(** C138: exporting cells as a surface (tools/cutmesh_to_obj.cpp). *)
From Verif Require Import Base Num CoordMask CoordMaskProofs Vertex VertexProofs Grid SmallestEdge AdaptiveGrid AdaptiveSpec AdaptiveProofs AdaptiveFaces AdaptiveFactory AdaptiveFactoryProofs PropsAdaptive PropsAdaptive2 Mesh Sparse Mesh2 ExteriorGrid PropsExterior PropsMesh2 Boundary3 PropsBoundary3 Interp Volume Queries3 PropsQueries3 Triangulate PropsTriang ExportObj.
From Verif Require FaceCollapserProofs.
Local Open Scope Z_scope.

(** ** row sums of the full boundary operator *)
Lemma row_cut m cubes0 B r fc : generated m cubes0 -> boundary3 m true = Some B -> is_cut_face m r fc -> mulv B (fun _ => 1%Qc) r = face_total m r fc.
Proof.
  intros OK. unfold boundary3. rewrite cell_triplets_eq by (intros i c H; destruct (g_cells m cubes0 OK i c H) as (X & _ & Y); auto). cbn [option_map]. intros HB HF. apply Some_inj in HB. subst B. rewrite !mulv_app. assert (R := is_cut_face_range m r fc HF).
  assert (S0 : mulv (adaptive_part m true) (fun _ => 1%Qc) r = 0%Qc). { apply lsum_0. intros [[a b] v] I. cbn. apply (adaptive_range m cubes0) in I; auto. destruct (Z.eqb_spec a r); auto. lia. }
  rewrite S0. unfold face_total. rewrite Qcplus_0_l. f_equal.
  - unfold PropsBoundary3.cell_part. rewrite mulv_flat. rewrite <- (lsum_enum _ _ (m_cells m)). apply lsum_ext. intros [i c] _. rewrite mulv_flat. apply lsum_ext. intros [e s] _. unfold keep3. cbn [orb].
    unfold mulv; cbn [lsum t_row t_col t_val fst snd]; destruct (Z.eqb_spec e r); rewrite ?sgn_sign; try ring.
  - unfold external_triplets. rewrite mulv_flat. rewrite (@lsum_single _ _ _ (r, fc)).
    + cbv beta iota. destruct (cf_ext fc) as [[o s]|]; [|reflexivity]. destruct (0 <=? o)%Z; [|reflexivity]. unfold mulv. cbn [lsum t_row t_col t_val fst snd]. rewrite Z.eqb_refl, sgn_sign. ring.
    + apply enum_NoDup.
    + apply enum_In. auto.
    + intros [e' ed'] I NE. apply enum_In in I. destruct (cf_ext ed') as [[o s]|]; [|reflexivity]. destruct (0 <=? o)%Z; [|reflexivity]. unfold mulv. cbn [lsum t_row t_col t_val fst snd]. destruct (Z.eqb_spec e' r); [|ring]. subst. destruct NE. destruct I, HF. congruence.
Qed.
Lemma ext_meet m cubes0 j f : generated m cubes0 -> nth_error (m_afaces m) j = Some f -> (af_axis f < 3)%nat /\ meet (cshape m) cubes0 (af_axis f) (fst (af_dual f)) (snd (af_dual f)) /\ bdry_geom cubes0 (af_axis f) (fst (af_dual f)) (snd (af_dual f)) = Some (af_corner f, af_width f).
Proof.
  intros OK N. apply nth_error_In in N. rewrite (g_faces m cubes0 OK) in N. assert (I := N). apply faces_In in I as (A & _ & G). split; auto. split; [|exact G].
  apply (faces_exist (cshape m) cubes0 (g_pos m cubes0 OK) (g_wf m cubes0 OK) (g_disj m cubes0 OK)); auto. exists f. split; auto. split; auto. apply surjective_pairing.
Qed.
Lemma row_ext m cubes0 B j f : generated m cubes0 -> boundary3 m true = Some B -> nth_error (m_afaces m) j = Some f ->
  mulv B (fun _ => 1%Qc) (num_cut_faces m + Z.of_nat j) = (if snd (af_dual f) =? -2 then - (1) else if fst (af_dual f) =? -2 then 1 else 0)%Qc.
Proof.
  intros OK. unfold boundary3. rewrite cell_triplets_eq by (intros i c H; destruct (g_cells m cubes0 OK i c H) as (X & _ & Y); auto). cbn [option_map]. intros HB N. apply Some_inj in HB. subst B. rewrite !mulv_app.
  assert (RX : forall t, (forall r c v, In (r, c, v) t -> (0 <= r < num_cut_faces m)%Z) -> mulv t (fun _ => 1%Qc) (num_cut_faces m + Z.of_nat j) = 0%Qc).
  { intros t H. apply lsum_0. intros [[a b] v] I. cbn. apply H in I. destruct (Z.eqb_spec a (num_cut_faces m + Z.of_nat j)); auto. lia. }
  rewrite (RX (PropsBoundary3.cell_part m true)), (RX (external_triplets m)); [|intros ? ? ? I; apply (external_range m cubes0) in I; auto; tauto|intros ? ? ? I; apply (cell_range3 m cubes0) in I; auto; tauto].
  rewrite !Qcplus_0_r. unfold adaptive_part. rewrite ag_get_own, map_flat_map, mulv_flat. rewrite (@lsum_single _ _ _ (j, f)).
  - destruct (ext_meet _ _ _ _ OK N) as (_ & M & _). destruct (af_dual f) as [l h]. cbn [fst snd orb] in *.
    destruct M as [(D & x & O1 & O2)|[(-> & x & O & _)|(-> & x & O & _)]].
    + apply (own_nn (cshape m) cubes0 (g_wf m cubes0 OK)) in O1, O2. rewrite !(proj2 (Z.leb_le _ _)), !(proj2 (Z.eqb_neq _ _)) by lia. unfold mulv. cbn [app map lsum t_row t_col t_val fst snd]. rewrite Z.eqb_refl. change (Z2Qc (-1)) with (Z2Qc (- (1))). rewrite Z2Qc_opp, Z2Qc_1. ring.
    + apply (own_nn (cshape m) cubes0 (g_wf m cubes0 OK)) in O. rewrite (proj2 (Z.eqb_neq h (-2))), (proj2 (Z.leb_le 0 h)) by lia. unfold mulv. cbn [app map lsum t_row t_col t_val fst snd Z.leb Z.compare Z.eqb Pos.eqb]. rewrite Z.eqb_refl, Z2Qc_1. ring.
    + apply (own_nn (cshape m) cubes0 (g_wf m cubes0 OK)) in O. rewrite (proj2 (Z.leb_le 0 l)) by lia. unfold mulv. cbn [app map lsum t_row t_col t_val fst snd Z.leb Z.compare Z.eqb Pos.eqb]. rewrite Z.eqb_refl. change (Z2Qc (-1)) with (Z2Qc (- (1))). rewrite Z2Qc_opp, Z2Qc_1. ring.
  - apply (NoDup_map_inv fst). rewrite FaceCollapserProofs.combine_fst by (rewrite seq_length; auto). apply seq_NoDup.
  - apply combine_seq_nth. auto.
  - intros [j' f'] I NE. apply combine_seq_nth in I. destruct (af_dual f') as [l h]. cbn [orb].
    assert (ND : num_cut_faces m + Z.of_nat j' <> num_cut_faces m + Z.of_nat j). { intros E. assert (j' = j) by lia. subst j'. rewrite N in I. apply Some_inj in I. subst. apply NE; auto. }
    unfold mulv. destruct (0 <=? l), (0 <=? h); cbn [app map lsum t_row t_col t_val fst snd]; rewrite ?(proj2 (Z.eqb_neq _ _) ND); ring.
Qed.

(** ** specification *)
(** a face of the domain's border: nothing on its other side *)
Definition border_face (fc : cut_face) : Prop := exists s, cf_ext fc = Some (-2, s).
Definition border_square (f : aface) : Prop := fst (af_dual f) = -2 \/ snd (af_dual f) = -2.
Definition ext_face (m : mesh3) (i : Z) (f : aface) : Prop := exists j, i = num_cut_faces m + Z.of_nat j /\ nth_error (m_afaces m) j = Some f.
(** a cut face of the border has exactly one cell, and has it once *)
Definition border_once (m : mesh3) : Prop := forall k fc, is_cut_face m k fc -> border_face fc -> exists i s, bounds3 m i k s /\ forall j s', bounds3 m j k s' -> j = i /\ s' = s.
Definition valid_cells (m : mesh3) (ix : list Z) : Prop := forall i, In i ix -> 0 <= i < num_cut_cells m + Z.of_nat (length (m_cubes m)).
Definition reversed (t : c3) : c3 := let '(a, b, c) := t in (b, a, c).
(** the triangulation of a cut face: the stored one, or a new one without added points *)
Definition own_triangles (X : externals) (m : mesh3) (fc : cut_face) : option (list c3) := match cf_tri fc with Some F => Some F | None => option_map snd (triangulate X (vertices3 m) fc false) end.

Lemma border_domain fc : is_domain_face fc = true <-> border_face fc.
Proof.
  unfold is_domain_face, border_face. destruct (cf_ext fc) as [[o s]|]; [|split; [discriminate|intros [? ?]; discriminate]]. split; [intros E; apply Z.eqb_eq in E; subst; eauto|intros [s' [= -> ->]]; reflexivity].
Qed.
Lemma one_total m cubes0 f fc i sg : generated m cubes0 -> is_cut_face m f fc -> border_face fc -> bounds3 m i f sg -> (forall l sg', bounds3 m l f sg' -> l = i /\ sg' = sg) -> face_total m f fc = sign sg.
Proof.
  intros OK HF [s EX] (ci & I1 & S1) U. unfold face_total. rewrite EX, <- (lsum_enum _ _ (m_cells m)). assert (E1 : In (i, ci) (enum (m_cells m))) by (apply enum_In; auto).
  rewrite (@lsum_single _ _ _ (i, ci)); auto using enum_NoDup.
  - destruct (PropsBoundary3.g_cells m cubes0 OK _ _ (proj2 I1)) as (_ & ND & _). rewrite (@lsum_single _ _ _ (f, sg)); auto; [rewrite Z.eqb_refl; cbn [Z.leb Z.compare]; ring|eapply NoDup_map_inv; eauto|].
    intros [f' s'] H' N. destruct (Z.eqb_spec f' f); auto. subst. destruct N. f_equal. eapply NoDup_fst_inj; eauto.
  - intros [k c] I N. apply lsum_0. intros [f' s'] H'. destruct (Z.eqb_spec f' f); auto. subst. exfalso. apply N. apply enum_In in I. destruct (U k s') as [-> _]; [exists c; split; auto|]. f_equal. destruct I, I1. congruence.
Qed.
Lemma used_const ix : used_cells ix = fun _ => 1%Qc. Proof. reflexivity. Qed.
Lemma sequence_in (A B : Type) (g : A -> option B) : forall l r, sequence (map g l) = Some r -> forall b, In b r <-> exists a, In a l /\ g a = Some b.
Proof.
  intros l r H. apply sequence_forall2 in H. induction H as [|a b l r H1 H2 IH]; [firstorder|]. intros b'. cbn [In]. rewrite IH. split; [intros [<-|(x & X & Y)]; eauto|intros (x & [<-|X] & Y); [left; congruence|eauto]].
Qed.
Lemma used_inv m cubes0 ix U : generated m cubes0 -> balanced3 m -> border_once m -> used_faces m ix = Some U ->
  NoDup (map fst U) /\ forall i b, In (i, b) U <->
    (exists fc c s, is_cut_face m i fc /\ border_face fc /\ bounds3 m c i s /\ b = negb s) \/
    (exists f, ext_face m i f /\ ((snd (af_dual f) = -2 /\ b = false) \/ (fst (af_dual f) = -2 /\ b = true))).
Proof.
  intros OK BA BO H. unfold used_faces in H. destruct (forallb _ ix); [|discriminate]. destruct (boundary3 m true) as [B|] eqn:HB; [|discriminate]. cbn [option_map] in H. rewrite used_const in H. apply Some_inj in H. subst U. split.
  - assert (NZ : NoDup (zseq (face_size m))) by (unfold zseq; apply FinFun.Injective_map_NoDup; [intros x y; lia|apply seq_NoDup]). clear - NZ. set (g := fun i => _). induction (zseq (face_size m)) as [|a l IH]; [constructor|]. inversion NZ; subst. cbn [flat_map]. rewrite map_app.
    assert (S : forall k, In k (map fst (flat_map g l)) -> In k l). { intros k I. apply in_map_iff in I as ([k' b] & <- & I). apply in_flat_map in I as (x & J & I). unfold g in I. destruct (qeqb _ _); [destruct I|]. destruct I as [[= -> _]|[]]. auto. }
    unfold g at 1. destruct (qeqb _ _); [auto|]. cbn [map app fst]. constructor; auto.
  - intros i b. split.
    + intros I. apply in_flat_map in I as (x & IX & I). cbv zeta in I. destruct (qeqb _ _) eqn:Q; [destruct I|]. destruct I as [E|[]]. apply pair_equal_spec in E as [-> <-]. apply qeqb_neq in Q. apply zseq_in in IX.
      destruct (Z_lt_le_dec i (num_cut_faces m)) as [L|L].
      * destruct (nth_error (m_faces m) (Z.to_nat i)) as [fc|] eqn:N; [|apply nth_error_None in N; unfold num_cut_faces in L; lia]. assert (HF : is_cut_face m i fc) by (split; [lia|auto]). rewrite (row_cut _ _ _ _ _ OK HB HF) in *.
        destruct (is_domain_face fc) eqn:D; [|destruct Q; apply BA; auto]. apply border_domain in D. destruct (BO _ _ HF D) as (c & s & BS & U). rewrite (one_total _ _ _ _ _ _ OK HF D BS U). left. exists fc, c, s. repeat (split; [auto|]). destruct s; reflexivity.
      * destruct (nth_error (m_afaces m) (Z.to_nat (i - num_cut_faces m))) as [f|] eqn:N; [|apply nth_error_None in N; unfold face_size in IX; lia]. right. exists f. assert (EI : i = num_cut_faces m + Z.of_nat (Z.to_nat (i - num_cut_faces m))) by lia. split; [exists (Z.to_nat (i - num_cut_faces m)); auto|].
        assert (R := row_ext _ _ _ _ _ OK HB N). rewrite <- EI in R. rewrite R in *. destruct (Z.eqb_spec (snd (af_dual f)) (-2)); [left; split; [auto|reflexivity]|]. destruct (Z.eqb_spec (fst (af_dual f)) (-2)); [right; split; [auto|reflexivity]|congruence].
    + intros [(fc & c & s & HF & D & BS & ->)|(f & (j & -> & N) & C)].
      * apply in_flat_map. exists i. assert (R := is_cut_face_range _ _ _ HF). split; [apply zseq_in; unfold face_size; lia|]. cbv zeta. destruct (BO _ _ HF D) as (c' & s' & BS' & U). destruct (U _ _ BS) as [-> ->]. rewrite (row_cut _ _ _ _ _ OK HB HF), (one_total _ _ _ _ _ _ OK HF D BS' U). destruct s'; left; reflexivity.
      * assert (R := row_ext _ _ _ _ _ OK HB N). assert (L := nth_error_Some_lt _ _ _ _ N). assert (IZ : In (num_cut_faces m + Z.of_nat j) (zseq (face_size m))) by (apply zseq_in; unfold face_size, num_cut_faces; lia).
        destruct (ext_meet _ _ _ _ OK N) as (_ & M & _). apply in_flat_map. eexists. split; [exact IZ|]. cbv zeta. rewrite R. destruct C as [[E ->]|[E ->]]; rewrite E.
        -- left; reflexivity.
        -- assert (NS : snd (af_dual f) <> -2).
           { destruct M as [(_ & x & O & _)|[(_ & x & O & _)|(S & x & O & _)]]; apply (own_nn (cshape m) cubes0 (g_wf m cubes0 OK)) in O; lia. }
           rewrite (proj2 (Z.eqb_neq _ _) NS). left; reflexivity.
Qed.
Lemma parts_used X m ix parts : obj_parts X m ix = Some parts -> exists U, used_faces m ix = Some U /\ map fst parts = map fst U /\ forall i T, In (i, T) parts <-> exists b, In (i, b) U /\ face_triangles X m i b = Some T.
Proof.
  unfold obj_parts. destruct (used_faces m ix) as [U|]; [|discriminate]. intros H. exists U. split; auto. split.
  - apply sequence_forall2 in H. induction H as [|[i b] [j T] l r E F IH]; [reflexivity|]. cbn [map fst]. destruct (face_triangles X m i b); [|discriminate]. cbn [option_map] in E. apply Some_inj, pair_equal_spec in E as [-> _]. f_equal. auto.
  - intros i T. rewrite (sequence_in _ _ _ _ _ H). split.
    + intros ([k b] & I & E). destruct (face_triangles X m k b) as [T'|] eqn:FT; [|discriminate]. apply Some_inj, pair_equal_spec in E as [-> ->]. eauto.
    + intros (b & I & E). exists (i, b). rewrite E. auto.
Qed.
Lemma cut_triangles X m i fc b : is_cut_face m i fc -> face_triangles X m i b = option_map (fun F => if b then map reversed F else F) (own_triangles X m fc).
Proof.
  intros HF. assert (R := is_cut_face_range _ _ _ HF). unfold face_triangles. rewrite (proj2 (Z.ltb_lt _ _)) by lia. unfold col. rewrite (proj2 (Z.ltb_ge _ _)) by lia. rewrite (proj2 HF). unfold own_triangles. destruct (match cf_tri fc with Some F => Some F | None => _ end) as [F|]; auto. destruct b; reflexivity.
Qed.
Lemma valid_spec m ix : forallb (fun i => (0 <=? i) && (i <? cell_size m)) ix = true <-> valid_cells m ix.
Proof.
  rewrite forallb_forall. unfold valid_cells, cell_size. split; intros H i I; specialize (H i I); [apply andb_true_iff in H as [A B]; apply Z.leb_le in A; apply Z.ltb_lt in B; lia|apply andb_true_iff; split; [apply Z.leb_le|apply Z.ltb_lt]; lia].
Qed.

(** C138. What is written, for whatever cells: the border of the domain, every face of it once; a cut face in the triangulation and orientation it has in its cell. *)
Theorem c138_surface X m cubes0 ix parts : generated m cubes0 -> balanced3 m -> border_once m -> obj_parts X m ix = Some parts ->
  NoDup (map fst parts) /\
  (forall i, In i (map fst parts) <-> (exists fc, is_cut_face m i fc /\ border_face fc) \/ (exists f, ext_face m i f /\ border_square f)) /\
  (forall i T fc, In (i, T) parts -> is_cut_face m i fc -> exists c s F, bounds3 m c i s /\ own_triangles X m fc = Some F /\ T = if s then F else map reversed F).
Proof.
  intros OK BA BO H. destruct (parts_used _ _ _ _ H) as (U & HU & EF & HP). destruct (used_inv _ _ _ _ OK BA BO HU) as [ND IU]. rewrite EF. split; auto. split.
  - intros i. rewrite in_map_iff. split.
    + intros ([k b] & <- & I). apply IU in I as [(fc & c & s & A1 & A2 & _)|(f & A1 & A2)]; [left; eauto|right]. exists f. split; auto. unfold border_square. tauto.
    + intros [(fc & HF & D)|(f & EX & [E|E])].
      * destruct (BO _ _ HF D) as (c & s & BS & _). exists (i, negb s). split; auto. apply IU. left. exists fc, c, s. auto.
      * exists (i, true). split; auto. apply IU. right. exists f. auto.
      * exists (i, false). split; auto. apply IU. right. exists f. auto.
  - intros i T fc I HF. apply HP in I as (b & I & FT). apply IU in I as [(fc' & c & s & HF' & D & BS & ->)|(f & (j & -> & N) & _)].
    + rewrite (cut_triangles _ _ _ _ _ HF) in FT. destruct (own_triangles X m fc) as [F|]; [|discriminate]. apply Some_inj in FT. exists c, s, F. split; auto. split; auto. subst T. destruct s; auto.
    + exfalso. apply is_cut_face_range in HF. lia.
Qed.
(** C138. It is written if the cells exist and the border's faces can be triangulated. *)
Theorem c138_defined X m cubes0 ix : generated m cubes0 -> balanced3 m -> border_once m ->
  (exists parts, obj_parts X m ix = Some parts) <-> valid_cells m ix /\ forall i fc, is_cut_face m i fc -> border_face fc -> own_triangles X m fc <> None.
Proof.
  intros OK BA BO. split.
  - intros [parts H]. split.
    + unfold obj_parts, used_faces in H. destruct (forallb _ ix) eqn:E; [|discriminate]. apply valid_spec; auto.
    + intros i fc HF D. destruct (c138_surface _ _ _ _ _ OK BA BO H) as (_ & S & C). assert (I : In i (map fst parts)) by (apply S; eauto). apply in_map_iff in I as ([k T] & <- & I). destruct (C _ _ _ I HF) as (? & ? & F & _ & E & _). congruence.
  - intros [VC TR]. destruct (c73_coefficients m cubes0 true OK) as (B & HB & _). assert (HU : exists U, used_faces m ix = Some U). { unfold used_faces. rewrite (proj2 (valid_spec m ix) VC), HB. cbn [option_map]. eauto. } destruct HU as [U HU]. destruct (used_inv _ _ _ _ OK BA BO HU) as [_ IU].
    unfold obj_parts. rewrite HU. destruct (sequence_map (fun '(i, flip) => option_map (pair i) (face_triangles X m i flip)) U) as (r & -> & _); [|eauto]. intros [i b] I. apply IU in I as [(fc & c & s & HF & D & BS & ->)|(f & (j & -> & N) & _)].
    + rewrite (cut_triangles _ _ _ _ _ HF). specialize (TR _ _ HF D). destruct (own_triangles X m fc); [discriminate|congruence].
    + unfold face_triangles. rewrite (proj2 (Z.ltb_ge _ _)) by lia. unfold col. rewrite (proj2 (Z.ltb_ge _ _)) by lia. replace (Z.to_nat _) with j by lia. rewrite N. discriminate.
Qed.
(** C138. REFUTED: that the file shows the cells asked for.  Any two sets of cells give the same file. *)
Theorem c138_selection_refuted X m ix ix' : valid_cells m ix -> valid_cells m ix' -> write_obj X m ix = write_obj X m ix'.
Proof.
  intros V V'. unfold write_obj, obj_parts, used_faces. rewrite (proj2 (valid_spec _ _) V), (proj2 (valid_spec _ _) V'). reflexivity.
Qed.
(** the cells of each label *)
Lemma regions_fold : forall R a M, ssorted Z.compare (map fst M) -> (forall r s, In (r, s) M -> ssorted Z.compare s /\ s <> []) ->
  let M' := fold_left (fun M '(i, r) => map_set Z.compare r (set_insert Z.compare i (match map_find Z.compare r M with Some s => s | None => [] end)) M) (combine (zrange a (length R)) R) M in
  ssorted Z.compare (map fst M') /\ (forall r s, In (r, s) M' -> s <> []) /\
  forall i r, (exists s, In (r, s) M' /\ In i s) <-> (exists s, In (r, s) M /\ In i s) \/ (a <= i /\ nth_error R (Z.to_nat (i - a)) = Some r).
Proof.
  induction R as [|x R IH]; intros a M S SS M'.
  - subst M'. cbn. split; auto. split; [intros r s I; apply (SS r s I)|]. intros i r. split; auto. intros [H|[_ H]]; auto. destruct (Z.to_nat (i - a)); discriminate.
  - subst M'. assert (ZR : zrange a (length (x :: R)) = a :: zrange (a + 1) (length R)) by (unfold zrange; cbn [length seq map]; rewrite <- seq_shift, map_map; f_equal; [lia|apply map_ext; intros; lia]). rewrite ZR. cbn [combine fold_left].
    set (s0 := match map_find Z.compare x M with Some s => s | None => [] end). set (M1 := map_set Z.compare x (set_insert Z.compare a s0) M).
    assert (S1 : ssorted Z.compare (map fst M1)) by (apply (map_set_sorted Zcompare_total); auto).
    assert (F1 : forall r s, In (r, s) M1 <-> if Z.eq_dec r x then s = set_insert Z.compare a s0 else In (r, s) M).
    { intros r s. split.
      - intros I. apply (map_find_Some Zcompare_total) in I; [|exact S1]. unfold M1 in I. rewrite (map_find_set Zcompare_total) in I by exact S. destruct (Z.eq_dec r x) as [->|N].
        + rewrite Z.compare_refl in I. congruence.
        + destruct (Z.compare r x) eqn:C; [apply Z.compare_eq in C; contradiction| |]; apply (map_find_Some Zcompare_total); auto.
      - intros I. apply (map_find_Some Zcompare_total); [exact S1|]. unfold M1. rewrite (map_find_set Zcompare_total) by exact S. destruct (Z.eq_dec r x) as [->|N].
        + rewrite Z.compare_refl. congruence.
        + destruct (Z.compare r x) eqn:C; [apply Z.compare_eq in C; contradiction| |]; apply (map_find_Some Zcompare_total); auto. }
    assert (S0 : ssorted Z.compare s0). { unfold s0. destruct (map_find _ _ _) as [s|] eqn:E; [|constructor]. apply (map_find_Some Zcompare_total) in E; [|exact S]. apply (SS _ _ E). }
    destruct (IH (a + 1) M1 S1) as (A & A' & B).
    { intros r s I. apply F1 in I. destruct (Z.eq_dec r x); [|eapply SS; eauto]. subst s. split; [apply (set_insert_sorted Zcompare_total); auto|]. intros E. assert (Z : In a []) by (rewrite <- E; apply (set_insert_In Zcompare_total); auto). destruct Z. }
    split; auto. split; auto. intros i r. rewrite B. assert (G : (exists s, In (r, s) M1 /\ In i s) <-> (exists s, In (r, s) M /\ In i s) \/ (i = a /\ r = x)).
    { split.
      - intros (s & I & J). apply F1 in I. destruct (Z.eq_dec r x) as [->|N]; [|eauto]. subst s. apply (set_insert_In Zcompare_total) in J as [->|J]; auto. unfold s0 in J. destruct (map_find _ _ _) as [s|] eqn:E; [|destruct J]. apply (map_find_Some Zcompare_total) in E; [|exact S]. eauto.
      - intros [(s & I & J)|[-> ->]].
        + destruct (Z.eq_dec r x) as [->|N].
          * exists (set_insert Z.compare a s0). split; [apply F1; destruct (Z.eq_dec x x); tauto|]. apply (set_insert_In Zcompare_total). right. unfold s0. apply (map_find_Some Zcompare_total) in I; [|exact S]. rewrite I. auto.
          * exists s. split; auto. apply F1. destruct (Z.eq_dec r x); tauto.
        + exists (set_insert Z.compare a s0). split; [apply F1; destruct (Z.eq_dec x x); tauto|]. apply (set_insert_In Zcompare_total). auto. }
    rewrite G. split.
    + intros [[H|[-> ->]]|[H H']]; auto.
      * right. split; [lia|]. rewrite Z.sub_diag. auto.
      * right. split; [lia|]. replace (Z.to_nat (i - a)) with (Datatypes.S (Z.to_nat (i - (a + 1)))) by lia. auto.
    + intros [H|[H H']]; auto. destruct (Z.eq_dec i a) as [->|N]; [rewrite Z.sub_diag in H'; cbn in H'; left; right; split; congruence|]. right. split; [lia|]. replace (Z.to_nat (i - a)) with (Datatypes.S (Z.to_nat (i - (a + 1)))) in H' by lia. auto.
Qed.
(** C138. The code after the early return: the regions' files are one per label, for the cells with the label; the separate ones one per cell. *)
Theorem c138_files X m R : 0 <= cell_size m ->
  NoDup (map fst (write_obj_regions X m R)) /\ (forall r, In r (map fst (write_obj_regions X m R)) <-> In r R) /\
  (forall i r, (exists s, In (r, s) (region_indices R) /\ In i s /\ In (r, write_obj X m s) (write_obj_regions X m R)) <-> 0 <= i /\ nth_error R (Z.to_nat i) = Some r) /\
  (forall i f, In (i, f) (write_obj_separate X m) <-> 0 <= i < cell_size m /\ f = write_obj X m [i]).
Proof.
  intros P. destruct (regions_fold R 0 []) as (S & NE & F); [constructor|intros ? ? []|]. cbn [In] in F. replace (zrange 0 (length R)) with (zseq (Z.of_nat (length R))) in S, NE, F by (unfold zseq, zrange; rewrite Nat2Z.id; apply map_ext; auto). fold (region_indices R) in S, NE, F.
  assert (K : map fst (write_obj_regions X m R) = map fst (region_indices R)) by (unfold write_obj_regions; rewrite map_map; apply map_ext; intros []; auto).
  assert (F' : forall i r, (exists s, In (r, s) (region_indices R) /\ In i s) <-> 0 <= i /\ nth_error R (Z.to_nat i) = Some r).
  { intros i r. rewrite F, Z.sub_0_r. split; [intros [(s & [] & _)|H]; auto|auto]. }
  split; [rewrite K; apply (ssorted_NoDup Zcompare_total S)|]. split; [|split].
  - intros r. rewrite K, in_map_iff. split.
    + intros ([r' s] & <- & I). assert (N := NE _ _ I). destruct s as [|i s]; [destruct (N eq_refl)|]. destruct (proj1 (F' i r')) as [_ H]; [exists (i :: s); cbn; auto|]. eapply nth_error_In; eauto.
    + intros I. apply In_nth_error in I as [n I]. destruct (proj2 (F' (Z.of_nat n) r)) as (s & J & _); [rewrite Nat2Z.id; split; [lia|auto]|]. exists (r, s). auto.
  - intros i r. rewrite <- F'. split; [intros (s & I & J & _); eauto|]. intros (s & I & J). exists s. split; auto. split; auto. unfold write_obj_regions. apply in_map_iff. exists (r, s). auto.
  - intros i f. unfold write_obj_separate, all_cells. rewrite in_map_iff. split.
    + intros (j & E & I). apply zseq_in in I. apply pair_equal_spec in E as [-> <-]. auto.
    + intros [I ->]. exists i. split; auto. apply zseq_in. auto.
Qed.
(** ... but every one of those files holds the same surface *)
Corollary c138_files_refuted X m R r f : Z.of_nat (length R) = cell_size m -> In (r, f) (write_obj_regions X m R) \/ In (r, f) (write_obj_separate X m) -> f = write_obj_all X m.
Proof.
  intros L H. assert (VA : valid_cells m (all_cells m)) by (intros j I; apply zseq_in in I; unfold cell_size in I; lia). assert (P : 0 <= cell_size m) by lia. destruct (c138_files X m R P) as (_ & _ & _ & Sep). destruct H as [H|H].
  - unfold write_obj_regions in H. apply in_map_iff in H as ([r' s] & E & H). apply pair_equal_spec in E as [-> <-]. apply c138_selection_refuted; auto. intros i I.
    destruct (regions_fold R 0 []) as (_ & _ & F); [constructor|intros ? ? []|]. cbn [In] in F. replace (zrange 0 (length R)) with (zseq (Z.of_nat (length R))) in F by (unfold zseq, zrange; rewrite Nat2Z.id; apply map_ext; auto). fold (region_indices R) in F.
    destruct (proj1 (F i r)) as [(s' & [] & _)|[A B]]; [exists s; auto|]. rewrite Z.sub_0_r in B. apply nth_error_Some_lt in B. unfold cell_size in L. lia.
  - apply Sep in H as [I ->]. apply c138_selection_refuted; auto. intros j [<-|[]]. unfold cell_size in I. lia.
Qed.
(** C138. REFUTED: that the options choose what is written.  It is one file, for the uncut cells, whatever the options. *)
Theorem c138_options_refuted X ord opts m fs : obj_main X ord opts m = Some fs -> map fst fs = [Exterior] /\ forall opts', obj_main X ord opts' m = Some fs.
Proof. unfold obj_main. destruct (triangulate_faces X ord false m); [|discriminate]. cbn [option_map]. intros H. apply Some_inj in H. subst fs. auto. Qed.

(** ** orientation of the uncut part *)
Lemma pos_mul a b : (0 < a)%Qc -> (0 < b)%Qc -> (0 < a * b)%Qc.
Proof. intros H G. apply (Qcmult_lt_compat_r 0 a b G) in H. rewrite Qcmult_0_l in H. exact H. Qed.
(** component d of (q - p) x (r - p) *)
Definition normal_at (p q r : q3) (d : nat) : Qc :=
  let u := ((d + 1) mod 3)%nat in let v := ((d + 2) mod 3)%nat in
  ((q3_at q u - q3_at p u) * (q3_at r v - q3_at p v) - (q3_at q v - q3_at p v) * (q3_at r u - q3_at p u))%Qc.
Definition grid_point (m : mesh3) (p : c3) : q3 := to_world m (let '(x, y, z) := p in (Z2Qc x, Z2Qc y, Z2Qc z)).
Definition positive3 (p : q3) : Prop := forall d, (d < 3)%nat -> (0 < q3_at p d)%Qc.
Lemma grid_corner m p : (forall d, (d < 3)%nat -> 0 <= get3 p d < get3 (m_vshape m) d) -> corner_at (vertices3 m) (index3 (m_vshape m) p) = Some (grid_point m p).
Proof.
  intros H. assert (I : in_shape (list3 (m_vshape m)) (list3 p) = true).
  { assert (H0 := H 0%nat ltac:(lia)). assert (H1 := H 1%nat ltac:(lia)). assert (H2 := H 2%nat ltac:(lia)). destruct (m_vshape m) as [[a b] c], p as [[x y] z]. cbn in *. repeat (rewrite (proj2 (Z.leb_le _ _)) by lia; rewrite (proj2 (Z.ltb_lt _ _)) by lia). reflexivity. }
  assert (PS : pos_shape (list3 (m_vshape m))).
  { assert (H0 := H 0%nat ltac:(lia)). assert (H1 := H 1%nat ltac:(lia)). assert (H2 := H 2%nat ltac:(lia)). destruct (m_vshape m) as [[a b] c]. cbn in *. repeat constructor; lia. }
  destruct p as [[x y] z]. assert (R := ravel_range _ _ I). assert (E : index3 (m_vshape m) (x, y, z) = ravel (list3 (m_vshape m)) [x; y; z]) by (destruct (m_vshape m) as [[a b] c]; reflexivity). rewrite E. unfold corner_at. cbn [list3] in R. rewrite (proj2 (Z.ltb_ge _ _)) by lia. rewrite c83_vertices by (auto; lia). apply c83_grid_vertex. exact I.
Qed.
Lemma cshape_get m d : (d < 3)%nat -> get3 (cshape m) d = get3 (m_vshape m) d - 1.
Proof. unfold cshape. destruct (m_vshape m) as [[a b] c]. destruct d as [|[|[|]]]; intros; try lia; reflexivity. Qed.
(** a border square: its plane is the first or the last, its corners are grid vertices *)
Lemma border_geom m cubes0 j f : generated m cubes0 -> nth_error (m_afaces m) j = Some f -> border_square f ->
  (af_axis f < 3)%nat /\ 0 < af_width f /\ (fst (af_dual f) = -2 -> get3 (af_corner f) (af_axis f) = 0) /\ (snd (af_dual f) = -2 -> get3 (af_corner f) (af_axis f) = get3 (cshape m) (af_axis f)) /\
  (forall d, (d < 3)%nat -> 0 <= get3 (af_corner f) d /\ get3 (af_corner f) d + (if Nat.eqb d (af_axis f) then 0 else af_width f) <= get3 (cshape m) d).
Proof.
  intros OK N BS. destruct (ext_meet _ _ _ _ OK N) as (A & M & G). assert (W := g_wf m cubes0 OK). assert (D := g_disj m cubes0 OK). set (d := af_axis f) in *.
  assert (BOX : forall i q, In (i, q) cubes0 -> 0 < snd q /\ forall k, (k < 3)%nat -> 0 <= get3 (fst q) k /\ get3 (fst q) k + snd q <= get3 (cshape m) k).
  { intros i q I. destruct (proj2 W _ _ I) as (_ & P & GR). split; auto. intros k Hk. assert (B1 : in_box q (fst q)) by (intros l Hl; lia). assert (X := GR _ B1 k Hk).
    assert (B2 : in_box q (add3 (fst q) k (snd q - 1))) by (intros l Hl; rewrite add3_get by auto; destruct (Nat.eqb_spec l k); lia). assert (Y := GR _ B2 k Hk). rewrite add3_get, Nat.eqb_refl in Y by auto. lia. }
  destruct M as [(NE & x & O1 & O2)|[(E & x & O & X)|(E & x & O & X)]].
  - apply (own_nn _ _ W) in O1, O2. destruct BS; lia.
  - rewrite E in *. destruct (low_geom _ _ W d _ _ O) as (cb & Cb & G'). rewrite G' in G. apply Some_inj, pair_equal_spec in G as [<- <-]. assert (I := proj1 (own_box _ _ W _ _ _ Cb) O). apply (cellsi _ _ W) in Cb. destruct (BOX _ _ Cb) as [P B]. split; auto. split; auto.
    assert (ND : snd (af_dual f) <> -2) by (apply (own_nn _ _ W) in O; lia). split; [intros _; assert (Y := I d A); assert (Z := B d A); lia|]. split; [intros; contradiction|]. intros k Hk. assert (Z := B k Hk). destruct (Nat.eqb_spec k d); lia.
  - rewrite E in *. destruct (high_geom _ _ W d _ _ O) as (cb & Cb & G'). rewrite G' in G. apply Some_inj, pair_equal_spec in G as [<- <-]. assert (I := proj1 (own_box _ _ W _ _ _ Cb) O). apply (cellsi _ _ W) in Cb. destruct (BOX _ _ Cb) as [P B]. split; auto. split; auto.
    assert (ND : fst (af_dual f) <> -2) by (apply (own_nn _ _ W) in O; lia). assert (EQ : get3 (fst cb) d + snd cb = get3 (cshape m) d) by (assert (Y := I d A); assert (Z := B d A); lia). split; [intros; contradiction|]. split; [intros _; rewrite add3_get, Nat.eqb_refl by auto; lia|].
    intros k Hk. assert (Z := B k Hk). rewrite add3_get by auto. destruct (Nat.eqb_spec k d); [subst; lia|lia].
Qed.
Definition square_corner (f : aface) (a b : Z) : c3 := add3 (add3 (af_corner f) ((af_axis f + 1) mod 3) (af_width f * a)) ((af_axis f + 2) mod 3) (af_width f * b).
Definition corner_of (f : aface) (p : c3) : Prop := exists a b, (a = 0 \/ a = 1) /\ (b = 0 \/ b = 1) /\ p = square_corner f a b.
(** C138. REFUTED: that the surface is oriented consistently.  The squares of uncut cells are written facing inwards: as two triangles with the square's corners, lying in the first
    (or last) grid plane of their axis, whose normals point along the axis (against it) - although cut faces are written as their cells have them. *)
Theorem c138_inward_refuted X m cubes0 ix parts i f T t : generated m cubes0 -> balanced3 m -> border_once m -> positive3 (m_dx m) -> obj_parts X m ix = Some parts ->
  In (i, T) parts -> ext_face m i f -> In t T ->
  let d := af_axis f in exists p q r, corners_at (vertices3 m) t = (Some (grid_point m p), Some (grid_point m q), Some (grid_point m r)) /\ corner_of f p /\ corner_of f q /\ corner_of f r /\
    (forall e, (e < 3)%nat -> e <> d -> normal_at (grid_point m p) (grid_point m q) (grid_point m r) e = 0%Qc) /\
    ((get3 p d = 0%Z /\ get3 q d = 0%Z /\ get3 r d = 0%Z /\ 0 < normal_at (grid_point m p) (grid_point m q) (grid_point m r) d) \/
     (get3 p d = get3 (cshape m) d /\ get3 q d = get3 (cshape m) d /\ get3 r d = get3 (cshape m) d /\ normal_at (grid_point m p) (grid_point m q) (grid_point m r) d < 0))%Qc.
Proof.
  intros OK BA BO PD H I (j & -> & N) IT d. destruct (parts_used _ _ _ _ H) as (U & HU & EF & HP). destruct (used_inv _ _ _ _ OK BA BO HU) as [ND IU]. apply HP in I as (b & I & FT). apply IU in I as [(fc & c & s & HF & _)|(f' & (j' & E & N') & C)]; [apply is_cut_face_range in HF; lia|].
  assert (j' = j) by lia. subst j'. rewrite N in N'. apply Some_inj in N'. subst f'. assert (BS : border_square f) by (unfold border_square; tauto). destruct (border_geom _ _ _ _ OK N BS) as (A & PW & G0 & G1 & GB).
  unfold face_triangles in FT. rewrite (proj2 (Z.ltb_ge _ _)) in FT by lia. unfold col in FT. rewrite (proj2 (Z.ltb_ge _ _)) in FT by lia. replace (Z.to_nat _) with j in FT by lia. rewrite N in FT. cbn [option_map] in FT. apply Some_inj in FT. subst T. apply in_map_iff in IT as ([[p q] r] & <- & IT).
  assert (CI : forall x, corner_of f x -> corner_at (vertices3 m) (index3 (m_vshape m) x) = Some (grid_point m x) /\ get3 x d = get3 (af_corner f) d).
  { intros x (a & b' & Ha & Hb & ->). unfold square_corner. fold d in A |- *. assert (E1 : ((d + 1) mod 3 <> d)%nat /\ ((d + 2) mod 3 <> d)%nat /\ ((d + 1) mod 3 <> (d + 2) mod 3)%nat) by (destruct d as [|[|[|]]]; cbn; lia). destruct E1 as (E1 & E2 & E3). split.
    - apply grid_corner. intros k Hk. assert (B := GB k Hk). fold d in B. rewrite cshape_get in B by auto. assert (L1 : ((d + 1) mod 3 < 3)%nat) by (apply Nat.mod_upper_bound; lia). assert (L2 : ((d + 2) mod 3 < 3)%nat) by (apply Nat.mod_upper_bound; lia). rewrite !add3_get by auto.
      destruct (Nat.eqb_spec k d), (Nat.eqb_spec k ((d + 2) mod 3)), (Nat.eqb_spec k ((d + 1) mod 3)); try lia; destruct Ha, Hb; subst; nia.
    - rewrite !add3_get by (auto; apply Nat.mod_upper_bound; lia). rewrite !(proj2 (Nat.eqb_neq _ _)) by congruence. lia. }
  assert (CO : corner_of f p /\ corner_of f q /\ corner_of f r).
  { unfold triangulated_face in IT. assert (SC : forall a b', square_vertex (af_corner f) (af_axis f) (af_width f) a b' = square_corner f a b') by reflexivity. rewrite !SC in IT. unfold corner_of. destruct b; destruct IT as [E1|[E1|[]]]; apply pair_equal_spec in E1 as [E1 <-]; apply pair_equal_spec in E1 as [<- <-]; repeat split; eauto 8. }
  destruct CO as (Cp & Cq & Cr). exists p, q, r. unfold corners_at. rewrite (proj1 (CI _ Cp)), (proj1 (CI _ Cq)), (proj1 (CI _ Cr)). split; auto. do 3 (split; [auto|]). rewrite (proj2 (CI _ Cp)), (proj2 (CI _ Cq)), (proj2 (CI _ Cr)).
  assert (NC : (forall e, (e < 3)%nat -> e <> d -> normal_at (grid_point m p) (grid_point m q) (grid_point m r) e = 0%Qc) /\
    normal_at (grid_point m p) (grid_point m q) (grid_point m r) d = ((if b then 1 else - (1)) * (q3_at (m_dx m) ((d + 1) mod 3) * Z2Qc (af_width f)) * (q3_at (m_dx m) ((d + 2) mod 3) * Z2Qc (af_width f)))%Qc).
  { clear - IT A. subst d. destruct f as [[[x y] z] k w dual]. cbn [af_axis af_width af_corner] in *. unfold triangulated_face in IT. cbn [af_axis af_width af_corner] in IT. unfold grid_point, to_world. destruct (m_origin m) as [[ox oy] oz], (m_dx m) as [[dx dy] dz].
    destruct k as [|[|[|]]]; [| | |lia]; cbn in IT; destruct b; destruct IT as [E1|[E1|[]]]; apply pair_equal_spec in E1 as [E1 <-]; apply pair_equal_spec in E1 as [<- <-]; (split; [intros e He Hn; destruct e as [|[|[|]]]; try lia|]);
      unfold normal_at, vadd, vmul; cbn [q3_at Nat.add Nat.modulo Nat.divmod fst snd Nat.sub]; rewrite ?Z.mul_0_r, ?Z.mul_1_r, ?Z.add_0_r, ?Z2Qc_plus; ring. }
  destruct NC as [NC1 NC2]. split; auto. rewrite NC2.
  assert (P1 : (0 < q3_at (m_dx m) ((d + 1) mod 3) * Z2Qc (af_width f))%Qc) by (apply pos_mul; [apply PD, Nat.mod_upper_bound; lia|rewrite <- (Z2Qc_0); apply Z2Qc_lt; auto]).
  assert (P2 : (0 < q3_at (m_dx m) ((d + 2) mod 3) * Z2Qc (af_width f))%Qc) by (apply pos_mul; [apply PD, Nat.mod_upper_bound; lia|rewrite <- (Z2Qc_0); apply Z2Qc_lt; auto]).
  set (u := (q3_at (m_dx m) ((d + 1) mod 3) * _)%Qc) in *. set (v := (q3_at (m_dx m) ((d + 2) mod 3) * _)%Qc) in *. assert (P3 : (0 < u * v)%Qc) by (apply pos_mul; auto).
  destruct C as [[E' ->]|[E' ->]].
  - right. specialize (G1 E'). fold d in G1. do 3 (split; [exact G1|]). replace (- (1) * u * v)%Qc with (- (u * v))%Qc by ring. clearbody u v. clear - P3. apply Qclt_minus_iff. rewrite Qcopp_involutive, Qcplus_0_l. auto.
  - left. specialize (G0 E'). fold d in G0. do 3 (split; [exact G0|]). rewrite Qcmult_1_l. auto.
Qed.

(** ** meshes that meet the hypotheses *)
Lemma with_cut m fs k fc : map cf_ext fs = map cf_ext (m_faces m) -> is_cut_face (with_faces m fs) k fc -> exists fc', is_cut_face m k fc' /\ cf_ext fc = cf_ext fc'.
Proof.
  intros E [H1 H2]. cbn [with_faces m_faces] in H2. assert (X := map_nth_error cf_ext _ _ H2). rewrite E, nth_error_map in X. destruct (nth_error (m_faces m) (Z.to_nat k)) as [fc'|] eqn:N; [|discriminate]. cbn in X. apply Some_inj in X. exists fc'. split; [split|]; auto.
Qed.
(** C138. Triangulating the faces first, as the tool does, does not disturb what c138_surface and c138_inward_refuted ask of the mesh. *)
Theorem c138_after_triangulation m cubes0 fs : map cf_ext fs = map cf_ext (m_faces m) -> generated m cubes0 -> balanced3 m -> border_once m ->
  generated (with_faces m fs) cubes0 /\ balanced3 (with_faces m fs) /\ border_once (with_faces m fs).
Proof.
  intros E OK BA BO. assert (L : num_cut_faces (with_faces m fs) = num_cut_faces m). { unfold num_cut_faces. cbn [with_faces m_faces]. rewrite <- (map_length cf_ext), E, map_length. auto. }
  split; [|split].
  - destruct OK as [C P W D I CU AF EX]. split; auto; [rewrite L; exact C|]. intros f o s J HX O. cbn [with_faces m_faces] in J. apply (in_map cf_ext) in J. rewrite E in J. apply in_map_iff in J as (f' & E' & J). apply (EX f' o s J); auto. congruence.
  - intros k fc HF D. destruct (with_cut _ _ _ _ E HF) as (fc' & HF' & EX). assert (X := BA k fc' HF'). unfold is_domain_face, face_total in *. rewrite EX in *. cbn [with_faces m_cells]. auto.
  - intros k fc HF [s D]. destruct (with_cut _ _ _ _ E HF) as (fc' & HF' & EX). rewrite EX in D. apply (BO k fc' HF'). exists s; auto.
Qed.
Lemma triangulated_ext X ord add m m' : triangulate_faces X ord add m = Some m' -> exists fs, m' = with_faces m fs /\ map cf_ext fs = map cf_ext (m_faces m).
Proof.
  unfold triangulate_faces. destruct (fold_left _ ord (Some (m_faces m))) as [fs|] eqn:F; [|discriminate]. cbn [option_map]. intros H. apply Some_inj in H. subst m'. exists fs. split; auto.
  revert F. generalize (m_faces m) as gs. induction ord as [|i ord IH]; intros gs F; [cbn in F; apply Some_inj in F; subst; auto|]. cbn [fold_left] in F.
  assert (NN : forall o, fold_left (cache_step X (vertices3 m) add) o None = None) by (induction o; auto).
  unfold cache_step at 2 in F. destruct (nth_error gs i) as [f|] eqn:N; [|rewrite NN in F; discriminate]. unfold cache_triangulation in F. destruct (triangulate X (vertices3 m) f add) as [VF|]; cbn [option_map] in F; [|rewrite NN in F; discriminate]. rewrite (IH _ F). clear - N.
  apply nth_error_ext. intros k. rewrite !nth_error_map. unfold zput. revert i N k. induction gs as [|g gs IH]; intros [|i] N k; try discriminate; cbn in *.
  - apply Some_inj in N. subst g. destruct k; reflexivity.
  - destruct k; [reflexivity|]. cbn. apply IH; auto.
Qed.
Theorem c138_tool X ord opts m cubes0 fs : generated m cubes0 -> balanced3 m -> border_once m -> obj_main X ord opts m = Some fs ->
  exists m' r, triangulate_faces X ord false m = Some m' /\ fs = [(Exterior, r)] /\ generated m' cubes0 /\ balanced3 m' /\ border_once m' /\
    forall V F, r = Some (V, F) -> exists parts, V = vertices3 m' /\ F = flat_map snd parts /\ obj_parts X m' (all_cells m') = Some parts.
Proof.
  intros OK BA BO H. unfold obj_main in H. destruct (triangulate_faces X ord false m) as [m'|] eqn:T; [|discriminate]. cbn [option_map] in H. apply Some_inj in H. destruct (triangulated_ext _ _ _ _ _ T) as (gs & -> & E). destruct (c138_after_triangulation _ _ _ E OK BA BO) as (O1 & O2 & O3).
  eexists. eexists. split; [reflexivity|]. split; [symmetry; exact H|]. do 3 (split; [auto|]). intros V F W. assert (VA : valid_cells (with_faces m gs) (all_cells (with_faces m gs))). { intros i I. apply zseq_in in I. unfold cell_size in I. lia. }
  assert (VF : valid_cells (with_faces m gs) (filter (fun i => num_cut_cells (with_faces m gs) <=? i) (all_cells (with_faces m gs)))) by (intros i I; apply filter_In in I; apply VA; tauto).
  rewrite (c138_selection_refuted X _ _ _ VF VA) in W. unfold write_obj in W. destruct (obj_parts X (with_faces m gs) (all_cells (with_faces m gs))) as [parts|]; [|discriminate]. cbn [option_map] in W. apply Some_inj, pair_equal_spec in W as [<- <-]. eauto.
Qed.

(** the grid of 2x2x2 cells of C73, with the six faces of its cut cell triangulated so that the cell's own surface faces outwards *)
Definition with_tri (F : list c3) (f : cut_face) : cut_face := mkCutFace (cf_mask f) (cf_loops f) (cf_id f) (cf_N f) (cf_ext f) (Some F) (cf_triV f).
Definition sample_faces : list cut_face := zipwith with_tri
  [[(0, 4, 3); (0, 1, 4)]; [(9, 13, 12); (9, 10, 13)]; [(0, 10, 1); (0, 9, 10)]; [(3, 13, 4); (3, 12, 13)]; [(0, 12, 9); (0, 3, 12)]; [(1, 13, 10); (1, 4, 13)]] (m_faces sample3).
Definition sample4 : mesh3 := with_faces sample3 sample_faces.
Definition no_ext : externals := mkExt (fun _ _ => ([], [])) (fun _ _ => []) (fun _ _ _ => 0%Qc).
Lemma sample4_ok : generated sample4 seven /\ balanced3 sample4 /\ border_once sample4 /\ positive3 (m_dx sample4).
Proof.
  destruct c73_nonvacuous as (OK & BA & _). assert (BO : border_once sample3).
  { intros k fc HF D. assert (U : forall i s, bounds3 sample3 i k s -> i = 0%Z /\ In (k, s) [(0, true); (1, false); (2, true); (3, false); (4, true); (5, false)]). { intros i s (c & [K1 K2] & I). destruct (Z.to_nat i) as [|[|n]] eqn:E; try discriminate. cbn in K2. apply Some_inj in K2. subst c. split; [lia|exact I]. }
    assert (BB : forall s, In (k, s) [(0, true); (1, false); (2, true); (3, false); (4, true); (5, false)]%Z -> bounds3 sample3 0 k s). { intros s H. eexists. split; [split; [lia|reflexivity]|exact H]. }
    destruct HF as [F1 F2]. apply border_domain in D.
    assert (SG : exists s, In (k, s) [(0, true); (1, false); (2, true); (3, false); (4, true); (5, false)]). { assert (K : (Z.to_nat k < 6)%nat) by (apply nth_error_Some_lt in F2; exact F2). assert (KK : k = 0 \/ k = 1 \/ k = 2 \/ k = 3 \/ k = 4 \/ k = 5) by lia. destruct KK as [->|[->|[->|[->|[->| ->]]]]]; eexists; cbn; eauto 10. }
    destruct SG as [s S]. exists 0, s. split; auto. intros i s' B. destruct (U _ _ B) as [-> S']. split; auto. cbn in S, S'. repeat (destruct S as [S|S]; [injection S as <- <-; repeat (destruct S' as [S'|S']; [injection S'; intros; subst; try lia; auto|]); destruct S'|]). destruct S. }
  assert (E : map cf_ext sample_faces = map cf_ext (m_faces sample3)) by reflexivity. destruct (c138_after_triangulation _ _ _ E OK BA BO) as (A & B & C). do 3 (split; [auto|]). intros [|[|[|d]]] Hd; try lia; reflexivity.
Qed.
(** C138. REFUTED, on this mesh: the file for the cut cell alone has squares of all eight cells, and it is not an oriented surface: the edge from vertex 1 to vertex 4 is used in the same direction by
    the triangle (0, 1, 4) of the cut cell and by the triangle (1, 4, 5) of its neighbour, which lie in one plane and face opposite ways. *)
Theorem c138_mixed_refuted : exists parts, obj_parts no_ext sample4 [0] = Some parts /\ length parts = 24%nat /\ In (0, 1, 4) (flat_map snd parts) /\ In (1, 4, 5) (flat_map snd parts) /\
  corners_at (vertices3 sample4) (0, 1, 4) = (Some (grid_point sample4 (0, 0, 0)), Some (grid_point sample4 (0, 0, 1)), Some (grid_point sample4 (0, 1, 1))) /\ normal_at (grid_point sample4 (0, 0, 0)) (grid_point sample4 (0, 0, 1)) (grid_point sample4 (0, 1, 1)) 0 = (- (1))%Qc /\
  corners_at (vertices3 sample4) (1, 4, 5) = (Some (grid_point sample4 (0, 0, 1)), Some (grid_point sample4 (0, 1, 1)), Some (grid_point sample4 (0, 1, 2))) /\ normal_at (grid_point sample4 (0, 0, 1)) (grid_point sample4 (0, 1, 1)) (grid_point sample4 (0, 1, 2)) 0 = 1%Qc.
Proof.
  assert (X : match obj_parts no_ext sample4 [0] with Some parts => length parts = 24%nat /\ In (0, 1, 4) (flat_map snd parts) /\ In (1, 4, 5) (flat_map snd parts) | None => False end) by (vm_compute; tauto).
  destruct (obj_parts no_ext sample4 [0]) as [parts|]; [|destruct X]. exists parts. split; auto. do 3 (split; [apply X|]).
  assert (G : forall p, (forall d, (d < 3)%nat -> 0 <= get3 p d < get3 (m_vshape sample4) d) -> corner_at (vertices3 sample4) (index3 (m_vshape sample4) p) = Some (grid_point sample4 p)) by (intros; apply grid_corner; auto).
  assert (C : forall x y z, 0 <= x < 3 -> 0 <= y < 3 -> 0 <= z < 3 -> corner_at (vertices3 sample4) (x * 9 + y * 3 + z) = Some (grid_point sample4 (x, y, z))).
  { intros x y z A1 A2 A3. rewrite <- G by (intros [|[|[|d]]] Hd; cbn; lia). f_equal. cbn. lia. }
  assert (C0 := C 0 0 0 ltac:(lia) ltac:(lia) ltac:(lia)). assert (C1 := C 0 0 1 ltac:(lia) ltac:(lia) ltac:(lia)). assert (C4 := C 0 1 1 ltac:(lia) ltac:(lia) ltac:(lia)). assert (C5 := C 0 1 2 ltac:(lia) ltac:(lia) ltac:(lia)). change (corner_at (vertices3 sample4) 0 = Some (grid_point sample4 (0, 0, 0))) in C0. change (corner_at (vertices3 sample4) 1 = Some (grid_point sample4 (0, 0, 1))) in C1. change (corner_at (vertices3 sample4) 4 = Some (grid_point sample4 (0, 1, 1))) in C4. change (corner_at (vertices3 sample4) 5 = Some (grid_point sample4 (0, 1, 2))) in C5.
  unfold corners_at. rewrite C0, C1, C4, C5. repeat split.
Qed.
