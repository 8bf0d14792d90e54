(** Properties C124-C126: exterior valences, winding numbers and utilised faces. *)
From Coq Require Import Permutation.
From Verif Require Import Base Num CoordMask Vertex VertexProofs ThresholdProofs Grid SmallestEdge AdaptiveGrid AdaptiveSpec AdaptiveProofs AdaptiveFaces PropsAdaptive PropsAdaptive2 Mesh Sparse Volume Mesh2 Boundary3 Interp PropsInterp Queries3 PropsQueries3 Validation.
Set Implicit Arguments.
Local Open Scope Z_scope.

(** ** C124 *)
(** Specification: the exterior cell entries of the mesh: one for every cut face with an external cell and one for every side of an exterior face *)
Definition ext_entries (m : mesh3) : list Z :=
  filter (fun i => 0 <=? i) (flat_map (fun f => match cf_ext f with Some (c, _) => [c] | None => [] end) (m_faces m) ++ map (fun f => fst (af_dual f)) (m_afaces m) ++ map (fun f => snd (af_dual f)) (m_afaces m)).
(** how many of them name a position inside exterior cell j *)
Definition valence (name : Z -> Z) (m : mesh3) (j : Z) : Z := Z.of_nat (length (filter (fun i => name i =? j) (ext_entries m))).

Lemma incr_fold l : forall M, ssorted Z.compare (keys M) -> (forall k n, map_find Z.compare k M = Some n -> 1 <= n) ->
  let M' := fold_left incr l M in ssorted Z.compare (keys M') /\
  forall k, map_find Z.compare k M' = let c := Z.of_nat (length (filter (fun i => i =? k) l)) + match map_find Z.compare k M with Some n => n | None => 0 end in if c =? 0 then None else Some c.
Proof.
  induction l as [|x l IH]; intros M S P; cbn [fold_left].
  - split; auto. intros k. cbn [filter length Z.of_nat]. destruct (map_find Z.compare k M) as [n|] eqn:E; cbv zeta; [|auto]. apply P in E. destruct (Z.eqb_spec (0 + n) 0); [lia|f_equal; lia].
  - assert (S1 : ssorted Z.compare (keys (incr M x))) by (unfold incr; destruct (map_find Z.compare x M); apply (map_set_sorted Zcompare_total); auto).
    assert (F : forall k, map_find Z.compare k (incr M x) = if x =? k then Some (1 + match map_find Z.compare k M with Some n => n | None => 0 end) else map_find Z.compare k M).
    { intros k. unfold incr. destruct (Z.eqb_spec x k) as [->|NE].
      - destruct (map_find Z.compare k M) as [n|]; rewrite (map_find_set Zcompare_total) by auto; rewrite (tc_refl Zcompare_total); f_equal; lia.
      - assert (Q : Z.compare k x <> Eq) by (rewrite Z.compare_eq_iff; auto). destruct (map_find Z.compare x M); rewrite (map_find_set Zcompare_total) by auto; destruct (Z.compare k x); congruence. }
    destruct (IH _ S1) as [A B].
    + intros k n. rewrite F. destruct (x =? k); [|apply P]. intros H. apply Some_inj in H. destruct (map_find Z.compare k M) as [w|] eqn:E; [apply P in E|]; lia.
    + split; auto. intros k. rewrite B, F. cbn [filter]. destruct (Z.eqb_spec x k) as [->|NE]; cbv zeta; auto. cbn [length]. rewrite Nat2Z.inj_succ.
      destruct (map_find Z.compare k M) as [w|] eqn:E; repeat match goal with |- context [?a =? 0] => destruct (Z.eqb_spec a 0) end; try lia; auto; f_equal; lia.
Qed.
Lemma seq_map_total (A B : Type) (f : A -> option B) (g : A -> B) l : (forall x, In x l -> f x = Some (g x)) -> sequence (map f l) = Some (map g l).
Proof. induction l as [|x l IH]; intros H; auto. cbn [map sequence]. rewrite H by (left; auto). rewrite IH; auto. intros; apply H; right; auto. Qed.
Lemma ext_perm m : Permutation (filter (fun i => 0 <=? i) (flat_map (fun f => match cf_ext f with Some (c, _) => [c] | None => [] end) (m_faces m) ++ flat_map (fun f => [fst (af_dual f); snd (af_dual f)]) (m_afaces m))) (ext_entries m).
Proof.
  unfold ext_entries. assert (P : Permutation (flat_map (fun f => [fst (af_dual f); snd (af_dual f)]) (m_afaces m)) (map (fun f => fst (af_dual f)) (m_afaces m) ++ map (fun f => snd (af_dual f)) (m_afaces m))).
  { induction (m_afaces m) as [|f l IH]; [constructor|]. cbn [flat_map map app]. apply perm_skip. rewrite IH. apply Permutation_middle. }
  rewrite !filter_app. apply Permutation_app_head. revert P. generalize (flat_map (fun f => [fst (af_dual f); snd (af_dual f)]) (m_afaces m)) (map (fun f => fst (af_dual f)) (m_afaces m)) (map (fun f => snd (af_dual f)) (m_afaces m)).
  intros a b c P. rewrite <- filter_app. clear -P. remember (b ++ c) as d. clear Heqd. induction P; cbn; auto.
  - destruct (0 <=? x); auto.
  - destruct (0 <=? x), (0 <=? y); auto. apply perm_swap.
  - etransitivity; eauto.
Qed.
Lemma filter_perm (A : Type) (p : A -> bool) l k : Permutation l k -> length (filter p l) = length (filter p k).
Proof. intros P. induction P; cbn; auto. - destruct (p x); cbn; auto. - destruct (p x), (p y); cbn; auto. - congruence. Qed.
(** Exactly: the entry of the map at k is the number of entries that the ownership grid, read at the entry as a linear index, sends to k *)
Theorem c124_valences_exactly m own name : (forall i, In i (ext_entries m) -> own i = Some (name i)) ->
  exists M, exterior_grid_valences m own = Some M /\ ssorted Z.compare (keys M) /\ forall k, map_find Z.compare k M = if valence name m k =? 0 then None else Some (valence name m k).
Proof.
  intros H. unfold exterior_grid_valences, valence_keys.
  assert (K : forall i, In i (filter (fun i => 0 <=? i) (flat_map (fun f => match cf_ext f with Some (c, _) => [c] | None => [] end) (m_faces m) ++ flat_map (fun f => [fst (af_dual f); snd (af_dual f)]) (m_afaces m))) -> own i = Some (name i)).
  { intros i I. apply H. apply (Permutation_in _ (ext_perm m) I). }
  rewrite (seq_map_total _ _ _ K). cbn [option_map]. eexists. split; [reflexivity|].
  destruct (@incr_fold (map name (filter (fun i => 0 <=? i) (flat_map (fun f => match cf_ext f with Some (c, _) => [c] | None => [] end) (m_faces m) ++ flat_map (fun f => [fst (af_dual f); snd (af_dual f)]) (m_afaces m)))) [] ltac:(constructor) ltac:(discriminate)) as [A B].
  split; auto. intros k. rewrite B. cbn [map_find]. cbv zeta. rewrite Z.add_0_r. unfold valence. rewrite <- (filter_perm (fun i => name i =? k) (ext_perm m)).
  assert (L : forall l, length (filter (fun i => i =? k) (map name l)) = length (filter (fun i => name i =? k) l)).
  { induction l as [|x l IH]; auto. cbn. destruct (name x =? k); cbn; auto. }
  rewrite L. reflexivity.
Qed.
(** The check, for any naming of the entries *)
Theorem c124_accepts_exactly m own name : (forall i, In i (ext_entries m) -> own i = Some (name i)) ->
  exists b, exterior_cell_valence_counts m own = Some b /\ (b = true <-> forall i, In i (ext_entries m) -> valence name m (name i) = 6).
Proof.
  intros H. destruct (c124_valences_exactly m own name H) as (M & E & S & F). unfold exterior_cell_valence_counts. rewrite E. cbn [option_map]. eexists. split; [reflexivity|].
  rewrite forallb_forall. split.
  - intros A i I. assert (V : valence name m (name i) <> 0).
    { unfold valence. intros Z0. assert (J : In i (filter (fun x => name x =? name i) (ext_entries m))) by (apply filter_In; split; auto; apply Z.eqb_refl). destruct (filter _ _); [contradiction|cbn in Z0; lia]. }
    assert (Q := F (name i)). rewrite (proj2 (Z.eqb_neq _ _) V) in Q. apply (map_find_Some Zcompare_total) in Q; auto. apply A in Q. apply Z.eqb_eq in Q. exact Q.
  - intros A [k n] I. cbn [snd]. apply (map_find_Some Zcompare_total) in I; auto. rewrite F in I. destruct (Z.eqb_spec (valence name m k) 0) as [|NE]; [discriminate|]. apply Some_inj in I. subst n. apply Z.eqb_eq.
    assert (X : exists i, In i (ext_entries m) /\ name i = k).
    { unfold valence in NE. destruct (filter _ (ext_entries m)) as [|i l] eqn:FE; [cbn in NE; lia|]. exists i. assert (J : In i (i :: l)) by (left; auto). rewrite <- FE in J. apply filter_In in J as [J1 J2]. apply Z.eqb_eq in J2. auto. }
    destruct X as (i & J & <-). auto.
Qed.
(** On a generated mesh in memory an entry is the linear index of a unit cell: read there, the ownership grid gives the exterior cell that contains it.  So the check accepts exactly when every
    exterior cell that has a face has six. *)
Definition names_positions (m : mesh3) : Prop := forall i, In i (ext_entries m) -> exists j p, i = index3 (cshape m) p /\ owns (m_cubes m) j p.
Definition faces_of (m : mesh3) (j : Z) : nat := length (filter (fun i => existsb (fun '(k, b) => (k =? j) && existsb (fun p => index3 (cshape m) p =? i) (box_coords b)) (m_cubes m)) (ext_entries m)).
Lemma own_at_index m p j : wf_cells (cshape m) (m_cubes m) -> disjoint_cells (m_cubes m) -> owns (m_cubes m) j p -> own_at m (index3 (cshape m) p) = Some j /\ 0 <= j.
Proof.
  intros W D O. assert (O' := O). destruct O as (b & I & B). destruct (proj2 W _ _ I) as (Hj & _ & G). specialize (G p B). apply in3_grid in G. unfold own_at, own_get. destruct (cshape m) as [[n k] l] eqn:E, p as [[x y] z]. cbn [in3] in G. cbn [index3 list3].
  assert (R := ravel_range [n; k; l] [x; y; z] G). rewrite (proj2 (Z.leb_le _ _)), (proj2 (Z.ltb_lt _ _)) by lia. cbn [andb]. rewrite unravel_ravel by auto. split; auto. f_equal. apply (gfc_owner (n, k, l)); auto.
Qed.
Theorem c124_positions_partial m : wf_cells (cshape m) (m_cubes m) -> disjoint_cells (m_cubes m) -> names_positions m ->
  exists b, exterior_cell_valence_counts m (own_at m) = Some b /\ (b = true <-> forall j, faces_of m j = 0%nat \/ faces_of m j = 6%nat).
Proof.
  intros W D N. destruct (@c124_accepts_exactly m (own_at m) (own_get (cshape m) (m_cubes m))) as (b & E & H).
  { intros i I. destruct (N i I) as (j & p & -> & O). destruct (own_at_index m W D O) as [A _]. rewrite A. f_equal. unfold own_at in A. destruct (_ && _); [apply Some_inj in A; auto|discriminate]. }
  exists b. split; auto. rewrite H. clear E H b.
  assert (V : forall j, Z.of_nat (faces_of m j) = valence (own_get (cshape m) (m_cubes m)) m j \/ j < 0).
  { intros j. destruct (Z.lt_ge_cases j 0) as [|Hj]; [auto|left]. unfold faces_of, valence. f_equal. f_equal. apply filter_ext_in. intros i I. destruct (N i I) as (k & p & -> & O). destruct (own_at_index m W D O) as [A _].
    assert (OG : own_get (cshape m) (m_cubes m) (index3 (cshape m) p) = k) by (unfold own_at in A; destruct (_ && _); [apply Some_inj in A; auto|discriminate]). rewrite OG.
    destruct (Z.eqb_spec k j) as [<-|NE].
    - apply existsb_exists. destruct O as (b & Ib & B). exists (k, b). split; auto. rewrite Z.eqb_refl. cbn [andb]. apply existsb_exists. exists p. split; [apply box_In; auto|apply Z.eqb_refl].
    - destruct (existsb _ _) eqn:X; auto. exfalso. apply existsb_exists in X as ((k' & b') & I' & X). apply andb_prop in X as [X1 X2]. apply Z.eqb_eq in X1. subst k'. apply existsb_exists in X2 as (p' & B' & X2). apply Z.eqb_eq in X2.
      apply box_In in B'. assert (O2 : owns (m_cubes m) j p') by (exists b'; auto). destruct (own_at_index m W D O2) as [A2 _]. rewrite X2, A in A2. apply Some_inj in A2. auto. }
  split.
  - intros A j. destruct (V j) as [V'|NEG].
    + destruct (ext_entries m) as [|i0 l0] eqn:EE; [left; unfold faces_of; rewrite EE; auto|]. rewrite <- EE in *. destruct (Nat.eq_dec (faces_of m j) 0) as [|NZ]; [auto|right].
      assert (X : exists i, In i (ext_entries m) /\ own_get (cshape m) (m_cubes m) i = j).
      { unfold valence in V'. destruct (filter (fun i => own_get (cshape m) (m_cubes m) i =? j) (ext_entries m)) as [|i l] eqn:FE; [cbn in V'; lia|]. exists i. assert (J : In i (i :: l)) by (left; auto). rewrite <- FE in J. apply filter_In in J as [J1 J2]. apply Z.eqb_eq in J2. auto. }
      destruct X as (i & I & Q). apply A in I. rewrite Q in I. lia.
    + left. unfold faces_of. replace (filter _ (ext_entries m)) with (@nil Z); auto. symmetry. destruct (filter _ (ext_entries m)) as [|i l] eqn:FE; auto. exfalso. assert (J : In i (i :: l)) by (left; auto). rewrite <- FE in J. apply filter_In in J as [_ J2].
      apply existsb_exists in J2 as ((k' & b') & I' & X). apply andb_prop in X as [X1 _]. apply Z.eqb_eq in X1. subst k'. apply (proj2 W) in I'. lia.
  - intros A i I. destruct (N i I) as (j & p & -> & O). destruct (own_at_index m W D O) as [AT Hj].
    assert (OG : own_get (cshape m) (m_cubes m) (index3 (cshape m) p) = j) by (unfold own_at in AT; destruct (_ && _); [apply Some_inj in AT; auto|discriminate]). rewrite OG.
    destruct (V j) as [V'|]; [|lia]. destruct (A j) as [A0|A6]; [|lia]. exfalso. rewrite A0 in V'. unfold valence in V'.
    assert (J : In (index3 (cshape m) p) (filter (fun i => own_get (cshape m) (m_cubes m) i =? j) (ext_entries m))) by (apply filter_In; split; auto; rewrite OG; apply Z.eqb_refl). destruct (filter _ _); [contradiction|cbn in V'; lia].
Qed.
(** A 6 x 1 x 1 grid whose cells 2 and 3 are cut: cut cells 0 and 1, the other four are exterior cells of width one.  Two cut faces lie against exterior cells 1 and 4. *)
Definition wall_cut (o : Z) (s : bool) : cut_face := mkCutFace [None; None; None] [] (AxialFace 0 0) (0, 0, 0)%Qc (Some (o, s)) None None.
Definition row_cells : acells := [(0, ((0, 0, 0), 1)); (1, ((1, 0, 0), 1)); (4, ((4, 0, 0), 1)); (5, ((5, 0, 0), 1))].
Definition row_mesh (cs : acells) (fs : list aface) : mesh3 :=
  mkMesh (0, 0, 0)%Qc (1, 1, 1)%Qc (7, 2, 2) [] [] (fun '(x, _, _) => (x =? 2) || (x =? 3)) [] [] [wall_cut 1 false; wall_cut 4 true] [mkCutCell [(0, true)] 0 0 (2, 0, 0); mkCutCell [(1, true)] 1 0 (3, 0, 0)] [] [] cs fs [].
Definition row_generated : mesh3 := row_mesh (renumber 2 row_cells) (make_faces (6, 1, 1) row_cells).
Definition row_loaded : mesh3 := row_mesh (renumber 2 row_cells) (make_faces (6, 1, 1) (renumber 2 row_cells)).
Lemma row_wf : wf_cells (6, 1, 1) (renumber 2 row_cells) /\ disjoint_cells (renumber 2 row_cells) /\ forall i b, In (i, b) (renumber 2 row_cells) -> dyadic b.
Proof.
  assert (IN : forall i b, In (i, b) (renumber 2 row_cells) -> (i = 2 /\ b = ((0, 0, 0), 1)) \/ (i = 3 /\ b = ((1, 0, 0), 1)) \/ (i = 4 /\ b = ((4, 0, 0), 1)) \/ (i = 5 /\ b = ((5, 0, 0), 1))).
  { intros i b I. vm_compute in I. repeat destruct I as [I|I]; try contradiction; injection I as <- <-; auto 10. }
  split; [split|split].
  - repeat constructor.
  - intros i b I. destruct (IN i b I) as [[-> ->]|[[-> ->]|[[-> ->]|[-> ->]]]]; (split; [lia|split; [cbn; lia|]]); intros [[x y] z]; unfold in_box, AdaptiveSpec.in_grid; rewrite !all3; cbn; lia.
  - intros i a j b p I J. destruct (IN _ _ I) as [[-> ->]|[[-> ->]|[[-> ->]|[-> ->]]]]; destruct (IN _ _ J) as [[-> ->]|[[-> ->]|[[-> ->]|[-> ->]]]]; auto; unfold in_box; rewrite !all3; destruct p as [[x y] z]; cbn; intros; exfalso; lia.
  - intros i b I. exists 0. split; [lia|]. destruct (IN _ _ I) as [[-> ->]|[[-> ->]|[[-> ->]|[-> ->]]]]; split; auto; intros; apply Z.divide_1_l.
Qed.
Example c124_generated : exterior_cell_valence_counts row_generated (own_at row_generated) = Some true /\ names_positions row_generated /\ map (faces_of row_generated) [2; 3; 4; 5] = [6; 6; 6; 6]%nat.
Proof.
  split; [vm_compute; reflexivity|]. split; [|vm_compute; reflexivity]. intros i I.
  assert (X : i = 0 \/ i = 1 \/ i = 4 \/ i = 5). { vm_compute in I. repeat destruct I as [<-|I]; auto. contradiction. }
  assert (O : forall j b p, In (j, b) (renumber 2 row_cells) -> in_box b p -> index3 (6, 1, 1) p = i -> exists j p, i = index3 (cshape row_generated) p /\ owns (m_cubes row_generated) j p).
  { intros j b p Ib B E. exists j, p. split; [symmetry; exact E|]. exists b. auto. }
  destruct X as [ -> | [ -> | [ -> | -> ]]].
  - apply (O 2 ((0, 0, 0), 1) (0, 0, 0)); [cbn; tauto|unfold in_box; rewrite all3; cbn; lia|reflexivity].
  - apply (O 3 ((1, 0, 0), 1) (1, 0, 0)); [cbn; tauto|unfold in_box; rewrite all3; cbn; lia|reflexivity].
  - apply (O 4 ((4, 0, 0), 1) (4, 0, 0)); [cbn; tauto|unfold in_box; rewrite all3; cbn; lia|reflexivity].
  - apply (O 5 ((5, 0, 0), 1) (5, 0, 0)); [cbn; tauto|unfold in_box; rewrite all3; cbn; lia|reflexivity].
Qed.
(** A loaded mesh rebuilds the faces from the renumbered cells, so the entries of a dual edge are cell ids (c57).  Its true valence of exterior cell j: *)
Definition true_valence (m : mesh3) (j : Z) : nat :=
  (length (filter (fun f => match cf_ext f with Some (c, _) => existsb (fun '(k, b) => (k =? j)%Z && existsb (fun p => (index3 (cshape m) p =? c)%Z) (box_coords b)) (m_cubes m) | None => false end) (m_faces m)) +
   length (filter (fun f => fst (af_dual f) =? j)%Z (m_afaces m)) + length (filter (fun f => snd (af_dual f) =? j)%Z (m_afaces m)))%nat.
(** REFUTED on a loaded mesh: the validation rejects a mesh all of whose exterior cells have six faces *)
Theorem c124_loaded_refuted : exists m, wf_cells (cshape m) (m_cubes m) /\ disjoint_cells (m_cubes m) /\ m_afaces m = make_faces (cshape m) (m_cubes m) /\
  (forall j b, In (j, b) (m_cubes m) -> true_valence m j = 6%nat) /\ exterior_cell_valence_counts m (own_at m) = Some false.
Proof.
  exists row_loaded. destruct row_wf as (W & D & _). split; [exact W|]. split; [exact D|]. split; [reflexivity|]. split; [|vm_compute; reflexivity].
  intros j b I. vm_compute in I. repeat destruct I as [I|I]; try contradiction; injection I as <- <-; vm_compute; reflexivity.
Qed.
(** ... and can read outside the ownership grid *)
Theorem c124_undefined_refuted : exists m, wf_cells (cshape m) (m_cubes m) /\ disjoint_cells (m_cubes m) /\ m_afaces m = make_faces (cshape m) (m_cubes m) /\ exterior_cell_valence_counts m (own_at m) = None.
Proof.
  exists (mkMesh (0, 0, 0)%Qc (1, 1, 1)%Qc (3, 2, 2) [] [] (fun '(x, _, _) => x =? 0) [] [] [] (map (fun i => mkCutCell [] i 0 (0, 0, 0)) [0; 1]) [] [] [(2, ((1, 0, 0), 1))] (make_faces (2, 1, 1) [(2, ((1, 0, 0), 1))]) []).
  cbn [m_cubes m_afaces m_vshape cshape cell_shape_of]. split; [split|split; [|split; [reflexivity|vm_compute; reflexivity]]].
  - repeat constructor.
  - intros i b [I|[]]. injection I as <- <-. split; [lia|split; [cbn; lia|]]. intros [[x y] z]; unfold in_box, AdaptiveSpec.in_grid; rewrite !all3; cbn; lia.
  - intros i a j b p [I|[]] [J|[]]. congruence.
Qed.

(** ** C125 *)
(** Specification: the check should hold when every cut cell's surface has piecewise constant winding number *)
(** Exactly: only cell 1 is looked at, once for every cut cell *)
Theorem c125_counts_exactly m tri wn T : tri 1 = Some T -> pcwn_count m tri wn = Some (if wn T then (Z.of_nat (length (m_cells m)), 0) else (0, Z.of_nat (length (m_cells m)))).
Proof.
  intros E. unfold pcwn_count. rewrite E. assert (G : forall l a b, fold_left (fun acc (_ : cut_cell) => match acc with Some (a, b) => Some (if wn T then (a + 1, b) else (a, b + 1)) | None => None end) l (Some (a, b)) =
    Some (if wn T then (a + Z.of_nat (length l), b) else (a, b + Z.of_nat (length l)))).
  { induction l as [|c l IH]; intros a b; cbn [fold_left length]; [destruct (wn T); rewrite Z.add_0_r; auto|]. rewrite Nat2Z.inj_succ. destruct (wn T); rewrite IH; do 2 f_equal; lia. }
  rewrite (G (m_cells m) 0 0). destruct (wn T); auto.
Qed.
Theorem c125_check_exactly m tri wn T : tri 1 = Some T -> m_cells m <> [] -> pcwn_check m tri wn = Some (wn T).
Proof.
  intros E N. unfold pcwn_check. rewrite (c125_counts_exactly m tri wn E). cbn [option_map]. destruct (wn T); auto. destruct (m_cells m); [congruence|]. cbn [length]. f_equal.
Qed.
(** When the surfaces of all cells (and of cell 1) agree, the answer is right *)
Theorem c125_uniform_partial m tri wn (b : bool) : m_cells m <> [] -> (forall i, 0 <= i <= Z.max 1 (Z.of_nat (length (m_cells m)) - 1) -> exists T, tri i = Some T /\ wn T = b) ->
  pcwn_check m tri wn = Some (forallb (fun i => match tri i with Some T => wn T | None => false end) (zrange 0 (length (m_cells m)))).
Proof.
  intros N H. destruct (H 1) as (T & E & B); [lia|]. rewrite (c125_check_exactly m tri wn E N), B. f_equal. symmetry. destruct b.
  - apply forallb_forall. intros i I. apply zrange_In in I. destruct (H i) as (T' & E' & B'); [lia|]. rewrite E'. auto.
  - destruct (m_cells m) as [|c l]; [congruence|]. destruct (H 0) as (T0 & E0 & B0); [lia|]. cbn [length]. unfold zrange. cbn [seq map forallb]. rewrite Z.add_0_r, E0, B0. auto.
Qed.
(** REFUTED: cell 0 fails and the check accepts, whatever the mesh; a mesh with one cell has no cell 1 *)
Theorem c125_refuted m tri wn T0 T1 : m_cells m <> [] -> tri 0 = Some T0 -> tri 1 = Some T1 -> wn T0 = false -> wn T1 = true -> pcwn_check m tri wn = Some true.
Proof. intros N _ E _ W. rewrite (c125_check_exactly m tri wn E N), W. auto. Qed.
Example c125_refuted_case : pcwn_check row_loaded (fun i => Some ([], map (fun x => (x, x, x)) (zrange 0 (Z.to_nat i)))) (fun T => negb (length (snd T) =? 0)%nat) = Some true.
Proof. reflexivity. Qed.
