(** C162: the two face masks of the adaptive grid, and the mesh of all region centroids. *)
From Verif Require Import Base Num CoordMask CoordMaskProofs Vertex VertexProofs Grid SmallestEdge AdaptiveGrid AdaptiveSpec AdaptiveProofs AdaptiveFaces AdaptiveFactory PropsAdaptive PropsAdaptive2 Mesh Sparse Mesh2 ExteriorGrid PropsExterior PropsMesh2 Boundary3 PropsBoundary3.
Local Open Scope Z_scope.

Lemma cell_at_In shape cells i b : wf_cells shape cells -> (cell_at cells i = Some b <-> In (i, b) cells).
Proof. intros [W _]. unfold cell_at. apply (map_find_Some Zcompare_total). exact W. Qed.
(** boundary_face_mask(): 1 at exactly the faces whose dual edge joins two distinct cells of the grid *)
Theorem c162_entry shape cells fs k f : wf_cells shape cells -> nth_error fs k = Some f ->
  nth_error (boundary_face_mask cells fs) k <> None /\
  (nth_error (boundary_face_mask cells fs) k = Some true <->
   fst (af_dual f) <> snd (af_dual f) /\ (exists a, In (fst (af_dual f), a) cells) /\ (exists b, In (snd (af_dual f), b) cells)).
Proof.
  intros W E. unfold boundary_face_mask. rewrite nth_error_map, E. cbn [option_map]. split; [discriminate|]. destruct (af_dual f) as [l h]. unfold is_valid_edge. cbn [fst snd].
  assert (A : forall i, (exists a, In (i, a) cells) <-> exists a, cell_at cells i = Some a) by (intros i; split; intros [a H]; exists a; apply (cell_at_In _ _ _ _ W); auto). rewrite !A. clear A.
  destruct (Z.eqb_spec l h) as [Q|Q]; cbn [negb andb]; [split; [discriminate|intros [N _]; contradiction]|].
  destruct (cell_at cells l) as [x|]; [|split; [discriminate|intros (_ & [a H] & _); discriminate]].
  destruct (cell_at cells h) as [y|]; [|split; [discriminate|intros (_ & _ & [a H]); discriminate]].
  split; [|reflexivity]. intros _. split; [auto|split; eexists; reflexivity].
Qed.
Theorem c162_length cells shape fs : length (boundary_face_mask cells fs) = length fs /\ length (grid_boundary_face_mask shape fs) = length fs.
Proof. split; apply map_length. Qed.
(** after the faces are made, the topological and the geometric mask are the same *)
Theorem c162_masks shape cells : pos3 shape -> wf_cells shape cells -> disjoint_cells cells ->
  boundary_face_mask cells (make_faces shape cells) = grid_boundary_face_mask shape (make_faces shape cells).
Proof.
  intros PS W D. unfold boundary_face_mask, grid_boundary_face_mask. apply map_ext_in. intros f Hf.
  assert (B := c51_adaptive_boundary shape cells f PS W D Hf). unfold adaptive_on_boundary in B.
  assert (X : (get3 (af_corner f) (af_axis f) =? 0) || (get3 (af_corner f) (af_axis f) =? get3 shape (af_axis f)) = true <-> fst (af_dual f) = -2 \/ snd (af_dual f) = -2).
  { rewrite <- B, orb_true_iff, !Z.eqb_eq. reflexivity. } clear B.
  assert (NB : cell_at cells (-2) = None).
  { destruct (cell_at cells (-2)) as [b|] eqn:E; auto. apply (cell_at_In _ _ _ _ W) in E. apply (proj2 W) in E. lia. }
  destruct (_ || _) eqn:E; cbn [negb].
  - unfold is_valid_edge. destruct (af_dual f) as [l h]. cbn [fst snd] in *. destruct (proj1 X eq_refl) as [Q|Q]; subst.
    + rewrite NB. apply andb_false_r.
    + destruct (cell_at cells l); rewrite ?NB; apply andb_false_r.
  - destruct (c57_dual_pairs_of_rebuilt_faces_partial shape cells f PS W D Hf) as (a & b & P & _).
    + intros Q. assert (false = true) by (apply X; auto). discriminate.
    + intros Q. assert (false = true) by (apply X; auto). discriminate.
    + unfold dual_edge_pair in P. destruct (is_valid_edge cells (af_dual f)); auto. discriminate.
Qed.
(** REFUTED for the cells bake_cells leaves behind: it renumbers the cells but not the dual edges of the faces, so boundary_face_mask() reports interior faces as boundary ones *)
Theorem c162_renumbered_refuted : exists shape cells k, wf_cells shape cells /\ disjoint_cells cells /\
  nth_error (grid_boundary_face_mask shape (make_faces shape cells)) k = Some true /\
  nth_error (boundary_face_mask (renumber 2 cells) (make_faces shape cells)) k = Some false.
Proof.
  destruct seven_ok as (W & D & _). exists (2, 2, 2), seven, 3%nat. split; [exact W|]. split; [exact D|]. split; vm_compute; reflexivity.
Qed.
Example c162_example : exists k, pos3 (2, 2, 2) /\ wf_cells (2, 2, 2) seven /\ disjoint_cells seven /\
  nth_error (boundary_face_mask seven (make_faces (2, 2, 2) seven)) k = Some true /\ nth_error (boundary_face_mask seven (make_faces (2, 2, 2) seven)) 0 = Some false.
Proof. destruct seven_ok as (W & D & _). exists 3%nat. split; [intros [|[|[|d] ] ] H; cbn; lia|]. split; [exact W|]. split; [exact D|]. split; vm_compute; reflexivity. Qed.
(** domain_boundary.cpp:15-31, boundary_face_mask() and interior_face_mask() of a DomainBoundary (the 2D exterior grid): None = std::out_of_range from the facet sets *)
Definition db_boundary_face_mask (ps : list edge) : option (list Z) :=
  option_map (fun s => map (fun i => if existsb (Z.eqb (Z.of_nat i)) s then 1 else 0) (seq 0 (length ps))) (boundary_facets ps).
Definition db_interior_face_mask (ps : list edge) : option (list Z) :=
  option_map (fun s => map (fun i => if existsb (Z.eqb (Z.of_nat i)) s then 0 else 1) (seq 0 (length ps))) (boundary_facets ps).
(** REFUTED: neither mask can be had of an exterior grid with an exterior cell on a high side of the domain; both throw *)
Theorem c162_refuted_domain_boundary_masks shape mask d c : Forall (fun n => 2 <= n) shape -> (d < length shape)%nat -> exterior shape mask c -> at0 c d = at0 shape d - 1 ->
  db_boundary_face_mask (facet_pairs shape mask) = None /\ db_interior_face_mask (facet_pairs shape mask) = None.
Proof.
  intros HS Hd HE E. destruct (c35_refuted_on_exterior_grids shape mask d c HS Hd HE E) as [B _]. unfold db_boundary_face_mask, db_interior_face_mask. rewrite B. auto.
Qed.
(** when they do not throw, the two masks have one entry per facet and are complementary *)
Theorem c162_domain_boundary_masks_complementary ps M N : db_boundary_face_mask ps = Some M -> db_interior_face_mask ps = Some N ->
  length M = length ps /\ length N = length ps /\ forall k a b, nth_error M k = Some a -> nth_error N k = Some b -> a + b = 1 /\ (a = 0 \/ a = 1).
Proof.
  unfold db_boundary_face_mask, db_interior_face_mask. destruct (boundary_facets ps) as [s|]; cbn [option_map]; [|discriminate]. intros A B. apply Some_inj in A, B. subst M N.
  rewrite !map_length, seq_length. split; auto. split; auto. intros k a b. rewrite !nth_error_map. destruct (nth_error _ k) as [i|]; cbn [option_map]; [|discriminate].
  intros A B. apply Some_inj in A, B. subst a b. destruct (existsb _ s); lia.
Qed.
