(** C135: incidence accessors of a 3D mesh. *)
From Verif Require Import Base Num CoordMask Vertex VertexProofs Grid SmallestEdge AdaptiveGrid AdaptiveSpec AdaptiveProofs AdaptiveFaces Mesh Sparse Mesh2 Interp Boundary3 Volume Queries3
  PropsVolume PropsTriang PropsAdaptive2 PropsMesh2 PropsQueries3 DisjointSet CellCollapser BakeCells Hem Gen3 PropsGen3 Gen3Whole PropsGen3Whole PropsBoundary3 Incidence3.
Set Implicit Arguments.
Local Open Scope Z_scope.

(** ** C135 *)
Lemma faces_of_cell_In c f : In f (faces_of_cell c) <-> exists s, In (f, s) (ce_faces c).
Proof.
  unfold faces_of_cell. assert (G : forall l S, In f (fold_left (fun S '(f, _) => set_insert Z.compare f S) l S) <-> In f S \/ exists s : bool, In (f, s) l).
  { induction l as [|[g t] l IH]; intros S; cbn [fold_left In]; [split; [auto|intros [H|[s []]]; auto]|]. rewrite IH, (set_insert_In Zcompare_total). split.
    - intros [[ -> | H]|[s H]]; [right; exists t; auto|auto|right; exists s; auto].
    - intros [H|[s [[= -> ->]|H]]]; auto. right; eauto. }
  rewrite G. cbn. split; [intros [[]|H]; auto|auto].
Qed.
Lemma faces_of_cell_sorted c : ssorted Z.compare (faces_of_cell c).
Proof.
  unfold faces_of_cell. assert (G : forall (l : list (Z * bool)) S, ssorted Z.compare S -> ssorted Z.compare (fold_left (fun S '(f, _) => set_insert Z.compare f S) l S)).
  { induction l as [|[g t] l IH]; intros S H; cbn [fold_left]; auto. apply IH, (set_insert_sorted Zcompare_total); auto. }
  apply G. constructor.
Qed.
(** cell_faces() has one entry per cut cell: its faces, each once; cell_faces(i) is that entry for the cut cells and fails for every other index *)
Theorem c135_cell_faces m i : (0 <= i < num_cut_cells m -> exists c S, is_cut_cell m i c /\ cell_faces_at m i = Some S /\ nth_error (cell_faces m) (Z.to_nat i) = Some S /\
    NoDup S /\ forall f, In f S <-> exists s, bounds3 m i f s) /\
  (~ 0 <= i < num_cut_cells m -> cell_faces_at m i = None) /\ length (cell_faces m) = length (m_cells m).
Proof.
  unfold cell_faces_at, cell_faces, num_cut_cells. split; [|split].
  - intros H. destruct (nth_error (m_cells m) (Z.to_nat i)) as [c|] eqn:E; [|apply nth_error_None in E; lia]. exists c, (faces_of_cell c). rewrite (proj2 (Z.ltb_ge _ _)), nth_error_map, E by lia.
    split; [split; [lia|auto]|]. do 2 (split; [reflexivity|]). split; [apply (ssorted_NoDup Zcompare_total), faces_of_cell_sorted|]. intros f. rewrite faces_of_cell_In. unfold bounds3. split.
    + intros [s I]. exists s, c. split; [split; [lia|auto]|auto].
    + intros (s & c' & [_ E'] & I). exists s. congruence.
  - intros H. destruct (Z.ltb_spec i 0); auto. destruct (nth_error (m_cells m) (Z.to_nat i)) eqn:E; auto. apply nth_error_Some_lt in E. lia.
  - apply map_length.
Qed.

Lemma zput_length (A : Type) (l : list A) i x : length (zput l i x) = length l.
Proof. revert i. induction l; intros [|i]; cbn; auto. Qed.
Lemma zput_nth (A : Type) (l : list A) i x k : (i < length l)%nat -> nth_error (zput l i x) k = if Nat.eqb k i then Some x else nth_error l k.
Proof. revert i k. induction l as [|a l IH]; intros [|i] [|k] L; cbn in *; try lia; auto. apply IH. lia. Qed.
(** boundary_faces() is defined exactly if every barycentric face is a face of the mesh, and marks exactly those *)
Theorem c135_boundary_faces m : (boundary_faces m <> None <-> forall k b, In (k, b) (m_bary m) -> 0 <= k < num_cut_faces m) /\
  forall l, boundary_faces m = Some l -> length l = length (m_faces m) /\ forall k, 0 <= k < num_cut_faces m -> exists v, nth_error l (Z.to_nat k) = Some v /\ (v = true <-> exists b, In (k, b) (m_bary m)).
Proof.
  unfold boundary_faces, num_cut_faces. set (n := length (m_faces m)).
  set (step := fun acc '(k, _) => match acc with Some l => if (0 <=? k) && (k <? Z.of_nat (length l)) then Some (zput l (Z.to_nat k) true) else None | None => None end : option (list bool)).
  change (fold_left _ (m_bary m) (Some (repeat false n))) with (fold_left step (m_bary m) (Some (repeat false n))).
  assert (NN : forall l : list (Z * bary_face), fold_left step l None = None) by (induction l as [|[k b] l IH]; auto).
  assert (G : forall (l : list (Z * bary_face)) B, length B = n ->
    (fold_left step l (Some B) <> None <-> forall k b, In (k, b) l -> 0 <= k < Z.of_nat n) /\
    forall B', fold_left step l (Some B) = Some B' -> length B' = n /\ forall k v, nth_error B k = Some v -> exists v', nth_error B' k = Some v' /\ (v' = true <-> v = true \/ exists b, In (Z.of_nat k, b) l)).
  { induction l as [|[j b0] l IH]; intros B LB; cbn [fold_left].
    - split; [split; [intros _ k b []|discriminate]|]. intros B' [= <-]. split; auto. intros k v E. exists v. split; auto. split; auto. intros [H|[b []]]; auto.
    - unfold step at 2 4. rewrite LB. destruct (Z.leb_spec 0 j) as [L0|L0]; cbn [andb].
      + destruct (Z.ltb_spec j (Z.of_nat n)) as [L1|L1].
        * destruct (IH (zput B (Z.to_nat j) true)) as [I1 I2]; [rewrite zput_length; auto|]. split.
          -- rewrite I1. split; [intros H k b [[= <- <-]|I]; [lia|eauto]|intros H k b I; eapply H; right; eauto].
          -- intros B' E. destruct (I2 B' E) as [J1 J2]. split; auto. intros k v Ek.
             assert (Z' := zput_nth B (i := Z.to_nat j) true k ltac:(lia)). destruct (Nat.eqb_spec k (Z.to_nat j)) as [->|Nk].
             ++ destruct (J2 _ _ Z') as (v' & V1 & V2). exists v'. split; auto. rewrite V2. split; auto. intros _. right. exists b0. left. rewrite Z2Nat.id by lia. auto.
             ++ rewrite Ek in Z'. destruct (J2 _ _ Z') as (v' & V1 & V2). exists v'. split; auto. rewrite V2. split; [intros [H|[b H]]; auto; right; exists b; right; auto|].
                intros [H|[b [[= H _]|H]]]; auto; [lia|right; eauto].
        * rewrite NN. split; [split; [congruence|intros H; specialize (H j b0 (or_introl eq_refl)); lia]|discriminate].
      + rewrite NN. split; [split; [congruence|intros H; specialize (H j b0 (or_introl eq_refl)); lia]|discriminate]. }
  destruct (G (m_bary m) (repeat false n)) as [G1 G2]; [apply repeat_length|]. split; [exact G1|]. intros l E. destruct (G2 l E) as [A B]. split; auto. intros k Hk.
  assert (R : nth_error (repeat false n) (Z.to_nat k) = Some false) by (rewrite nth_error_repeat, (proj2 (Nat.ltb_lt _ _)) by lia; auto). destruct (B _ _ R) as (v & V1 & V2). exists v. split; auto. rewrite V2, Z2Nat.id by lia. split; [intros [H|H]; [discriminate|auto]|auto].
Qed.

(** boundary_triplets() of a cut cell lists exactly its faces, +1 where the cell stores "true" *)
Theorem c135_cell_triplets c r col v : In (r, col, v) (cutcell_triplets c) <-> col = ce_index c /\ exists s, In (r, s) (ce_faces c) /\ v = (- sign s)%Qc.
Proof.
  unfold cutcell_triplets. rewrite in_map_iff. assert (E : forall s : bool, (if s then 1 else (- (1)))%Qc = (- sign s)%Qc) by (intros [|]; unfold sign; apply Qc_is_canon; reflexivity). split.
  - intros ([f s] & E1 & I). assert (A := f_equal (fun t => fst (fst t)) E1). assert (B := f_equal (fun t => snd (fst t)) E1). assert (C := f_equal (fun t => snd t) E1). cbn in A, B, C. subst. split; auto. exists s. rewrite E. auto.
  - intros ( -> & s & I & -> ). exists (r, s). rewrite E. auto.
Qed.
Definition all_cell_triplets (m : mesh3) : list triplet := flat_map cutcell_triplets (m_cells m).
Local Open Scope Qc_scope.
Lemma all_cells_coeff m cubes0 f i : generated m cubes0 -> (0 <= i < num_cut_cells m)%Z ->
  (forall s, bounds3 m i f s -> coeff (all_cell_triplets m) f i = - sign s) /\ ((forall s, ~ bounds3 m i f s) -> coeff (all_cell_triplets m) f i = 0).
Proof.
  intros OK Hi.
  assert (CP : coeff (all_cell_triplets m) f i = - coeff (cell_part m true) f i).
  { unfold all_cell_triplets, cell_part. assert (KT : forall g, keep3 m true g = true) by reflexivity.
    assert (IX : forall n c, nth_error (m_cells m) n = Some c -> ce_index c = (0 + Z.of_nat n)%Z) by (intros n c H; destruct (g_cells m cubes0 OK n c H) as [-> _]; lia).
    assert (EQ : flat_map (fun '(i0, c) => flat_map (fun '(f0, s) => if keep3 m true f0 then [(f0, i0, sgnQ s)] else []) (ce_faces c)) (enum (m_cells m)) = flat_map (fun '(i0, c) => map (fun '(f0, s) => (f0, (0 + i0)%Z, sgnQ s)) (ce_faces c)) (enum (m_cells m))).
    { apply flat_map_ext. intros [i0 c]. induction (ce_faces c) as [|[g s] l IH]; auto. cbn [flat_map map]. rewrite KT. cbn [app]. f_equal. exact IH. }
    rewrite EQ. clear EQ. revert IX. generalize 0%Z. induction (m_cells m) as [|c l IH]; intros k IX; [unfold coeff; cbn; ring|]. rewrite enum_cons. cbn [flat_map]. rewrite !coeff_app, flat_map_concat_map.
    rewrite (flat_map_concat_map _ (map _ (enum l))), map_map. rewrite <- (flat_map_concat_map cutcell_triplets l).
    rewrite (IH (k + 1)%Z) by (intros n c' H; rewrite (IX (S n) c' H); lia).
    assert (E1 : coeff (cutcell_triplets c) f i = - coeff (map (fun '(f0, s) => (f0, (k + 0)%Z, sgnQ s)) (ce_faces c)) f i).
    { unfold cutcell_triplets. rewrite (IX 0%nat c eq_refl). change (Z.of_nat 0) with 0%Z. induction (ce_faces c) as [|[g s] t IH2]; [unfold coeff; cbn; ring|]. cbn [map]. unfold coeff in *. cbn [lsum t_row t_col t_val fst snd]. rewrite IH2.
      destruct (_ && _); [|ring]. destruct s; unfold sgnQ; ring. }
    rewrite E1. rewrite (flat_map_concat_map _ (enum l)). replace (map (fun '(i0, c0) => map (fun '(f0, s) => (f0, (k + 1 + i0)%Z, sgnQ s)) (ce_faces c0)) (enum l)) with (map (fun x => let '(i0, c0) := let '(i1, x0) := x in ((i1 + 1)%Z, x0) in map (fun '(f0, s) => (f0, (k + i0)%Z, sgnQ s)) (ce_faces c0)) (enum l)).
    - ring.
    - apply map_ext. intros [i1 x]. replace (k + (i1 + 1))%Z with (k + 1 + i1)%Z by lia. auto. }
  rewrite CP. destruct (cell_coeff m cubes0 true f i OK) as [C1 C2]. split.
  - intros s H. rewrite (C1 s H). reflexivity.
  - intros H. rewrite (C2 H). ring.
Qed.
Lemma bounds_dec m i f : (exists s, bounds3 m i f s) \/ ~ exists s, bounds3 m i f s.
Proof.
  destruct (Z_le_gt_dec 0 i) as [L|L]; [|right; intros (s & c & [H _] & _); lia]. destruct (nth_error (m_cells m) (Z.to_nat i)) as [c|] eqn:E; [|right; intros (s & c & [_ H] & _); congruence].
  destruct (in_dec Z.eq_dec f (map fst (ce_faces c))) as [I|I].
  - left. apply in_map_iff in I as ([g s] & Eg & I). cbn in Eg. subst g. exists s, c. split; [split; auto|auto].
  - right. intros (s & c' & [_ H] & J). apply I. apply in_map_iff. exists (f, s). split; auto. congruence.
Qed.
(** The triplets of all cut cells are the boundary operator's cut block with every sign turned round. *)
Theorem c135_triplets_refuted m cubes0 B f fc i : generated m cubes0 -> boundary3 m true = Some B -> is_cut_face m f fc -> (0 <= i < num_cut_cells m)%Z ->
  coeff (all_cell_triplets m) f i = - coeff B f i /\ ((exists s, bounds3 m i f s) -> coeff (all_cell_triplets m) f i <> coeff B f i).
Proof.
  intros OK HB HF Hi. destruct (@c73_coefficients m cubes0 true OK) as (B' & EB & _ & CC & _). rewrite HB in EB. apply Some_inj in EB. subst B'.
  destruct (CC f fc i HF Hi) as [C1 C2]. destruct (all_cells_coeff f OK Hi) as [A1 A2]. cbn [orb] in C1. split.
  - destruct (bounds_dec m i f) as [[s H]|H].
    + rewrite (A1 s H), (C1 s H). ring.
    + rewrite A2, C2 by (intros s Hs; apply H; eauto). ring.
  - intros [s H]. rewrite (A1 s H), (C1 s H). destruct s; unfold sign; intros E; apply (f_equal (fun q => Qccompare q 0)) in E; vm_compute in E; discriminate.
Qed.
(** face_boundary() is the zero matrix, although faces have edges; the grid cell of a point is never given. *)
Theorem c135_face_boundary_refuted : exists m e f l ix, nth_error (m_cut_edges m) e = Some ix /\ nth_error (m_faces m) f = Some l /\ In [fst ix; snd ix; 3%Z] (cf_loops l) /\
  forall r c, coeff (face_boundary m) r c = 0.
Proof.
  exists (mkMesh (0, 0, 0) (1, 1, 1) (2, 2, 2)%Z [] [(0, 1)%Z] (fun _ => true) [] [] [mkCutFace [Some 0%Z; None; None] [[0; 1; 3]%Z] (AxialFace 0 0) (1, 0, 0) None None None] [] [] [] [] [] []), 0%nat, 0%nat. cbn.
  do 2 eexists. split; [reflexivity|]. split; [reflexivity|]. split; [cbn; auto|]. intros. reflexivity.
Qed.
Theorem c135_grid_cell_refuted m p : local_grid_cell_index m p = (-1)%Z /\ world_grid_cell_index m p = (-1)%Z.
Proof. unfold world_grid_cell_index, local_grid_cell_index. split; destruct (negb _); auto. Qed.

Local Open Scope Z_scope.
(** In a generated mesh boundary_faces() is defined and marks exactly the faces that came with barycentric coordinates (the pieces of the input surface). *)
Theorem c135_generated lnk1 lnk2 ord level base fs mesh axial m : stage_ok base fs mesh axial -> generate3 lnk1 lnk2 ord level base fs mesh axial = Some m ->
  exists l, boundary_faces m = Some l /\ length l = length fs /\ forall k, 0 <= k < Z.of_nat (length fs) -> exists v f, nth_error l (Z.to_nat k) = Some v /\ id_of fs k f /\ (v = true <-> In f (map fst mesh)).
Proof.
  intros SO GE. destruct (gen_inv _ _ _ _ SO GE) as (b & C & B & BK & EC & EM). destruct (c134_faces _ _ _ _ SO GE) as (LF & _).
  destruct (c103_bary (PropsGen3Whole.g_wf _ _ _ _ SO BK)) as (r & EB & SR & HB).
  assert (EQ : m_bary m = r).
  { unfold generate3 in GE. rewrite BK in GE. cbv zeta in GE. rewrite EC, EB in GE. destruct (out_faces _) as [F|]; [|discriminate]. destruct (out_axial _) as [A|]; [|discriminate]. destruct (sequence F) as [F'|]; [|discriminate].
    cbn [option_map] in GE. apply Some_inj in GE. rewrite <- GE. reflexivity. }
  assert (KEY : keys (Gen3.g_faces (after_bake b fs mesh axial)) = map fst fs) by (apply (g_faces_keys _ _ _ _ SO BK)).
  assert (PL : forall id k, place (after_bake b fs mesh axial) id k <-> id_of fs k id).
  { intros id k. unfold place, id_of. rewrite KEY. split; [intros (n & -> & H); rewrite Nat2Z.id; split; [lia|auto]|intros [H1 H2]; exists (Z.to_nat k); split; [lia|auto]]. }
  destruct (c135_boundary_faces m) as [D V]. unfold num_cut_faces in *. rewrite LF in *. rewrite EQ in *.
  assert (DEF : boundary_faces m <> None).
  { apply D. intros k x I. apply HB in I as (id & _ & P). apply PL in P as [P1 P2]. assert (Z.to_nat k < length (map fst fs))%nat by (apply nth_error_Some; congruence). rewrite map_length in *. lia. }
  destruct (boundary_faces m) as [l|] eqn:EL; [|congruence]. exists l. split; auto. destruct (V l eq_refl) as [V1 V2]. split; auto. intros k Hk. destruct (V2 k Hk) as (v & W1 & W2).
  destruct (nth_error (map fst fs) (Z.to_nat k)) as [f|] eqn:Ef; [|apply nth_error_None in Ef; rewrite map_length in Ef; lia]. exists v, f. split; auto. assert (ID : id_of fs k f) by (split; [lia|auto]). split; auto.
  rewrite W2. split.
  - intros [x I]. apply HB in I as (id & J & P). apply PL in P as [_ P]. rewrite Ef in P. apply Some_inj in P. subst id. apply in_map_iff. exists (f, x). auto.
  - intros I. apply in_map_iff in I as ([g x] & E & I). cbn in E. subst g. exists x. apply HB. exists f. split; auto. apply PL. auto.
Qed.
(** the hypotheses are met by the mesh of C73, whose triplets have the wrong sign at face 1 of cell 0 *)
Example c135_case : generated sample3 PropsAdaptive2.seven /\ (exists s, bounds3 sample3 0 1 s) /\ cell_faces_at sample3 0 = Some [0; 1; 2; 3; 4; 5] /\ cell_faces_at sample3 (-1) = None /\
  match boundary3 sample3 true with Some B => this (coeff B 1 0) = this 1%Qc /\ this (coeff (all_cell_triplets sample3) 1 0) = this (- (1))%Qc | None => False end.
Proof.
  split; [apply c73_nonvacuous|]. split; [|split; [reflexivity|split; [reflexivity|]]].
  - exists false, (nth 0 (m_cells sample3) (mkCutCell [] 0 0 (0, 0, 0))). split; [split; [lia|reflexivity]|]. vm_compute. tauto.
  - vm_compute. auto.
Qed.
