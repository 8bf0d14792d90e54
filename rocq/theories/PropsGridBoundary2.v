(** C161: grid_boundary_faces of a 2D mesh (Mesh2.v grid_boundary_edges). *)
From Verif Require Import Base Num CoordMask Vertex Grid SmallestEdge SmallestEdgeProofs ExteriorGrid ExteriorProofs PropsExterior Mesh Sparse Mesh2 PropsMesh2.
Set Implicit Arguments.
Local Open Scope Z_scope.

(** the edge lies on the first or the last grid line across one of the axes *)
Definition on_side (shape : list Z) (e : cut_edge2) : Prop := exists d v, nth_error (e2_mask e) d = Some (Some v) /\ (v = 0 \/ v = at0 shape d).
Lemma combine_map_seq (A : Type) (l : list A) s : combine (map Z.of_nat (seq s (length l))) l = map (fun p => (Z.of_nat (fst p), snd p)) (combine (seq s (length l)) l).
Proof. revert s. induction l as [|x l IH]; intros s; cbn [length seq map combine fst snd]; auto. rewrite IH. auto. Qed.
Lemma enum_nth (A : Type) (l : list A) i x : In (i, x) (enum l) <-> 0 <= i /\ nth_error l (Z.to_nat i) = Some x.
Proof.
  unfold enum, zseq. rewrite Nat2Z.id, combine_map_seq, in_map_iff. split.
  - intros ((k & y) & E & H). cbn [fst snd] in E. injection E as <- <-. apply combine_seq_nth in H. rewrite Nat2Z.id. split; [lia|auto].
  - intros [P H]. exists (Z.to_nat i, x). cbn [fst snd]. rewrite Z2Nat.id by auto. split; auto. apply combine_seq_nth. auto.
Qed.
(** the set is sorted without repetitions, and lists exactly the cut edges on the first or last grid line of an axis and the exterior edges with nothing on one side *)
Theorem c161_edges : forall m, (forall e, In e (m2_edges m) -> length (e2_mask e) = length (m2_cells m)) ->
  ssorted Z.compare (grid_boundary_edges m) /\
  forall i, In i (grid_boundary_edges m) <->
    (exists e, 0 <= i /\ nth_error (m2_edges m) (Z.to_nat i) = Some e /\ on_side (m2_cells m) e) \/
    (exists k d a b, i = num_cutedges m + Z.of_nat k /\ nth_error (facets (m2_cells m) (m2_mask m)) k = Some (d, (a, b)) /\ (a = -2 \/ b = -2)).
Proof.
  intros m LM. unfold grid_boundary_edges. split; [apply (set_of_list_sorted Zcompare_total)|]. intros i. rewrite (set_of_list_In Zcompare_total), in_app_iff, in_flat_map.
  assert (VS : forall d, (d < length (m2_cells m))%nat -> at0 (vshape2 m) d - 1 = at0 (m2_cells m) d).
  { intros d L. unfold at0, vshape2. rewrite (nth_indep _ 0 (0 + 1)) by (rewrite map_length; auto). rewrite (map_nth (fun n => n + 1)). lia. }
  split.
  - intros [((j & e) & H & HI)|H].
    + left. apply enum_nth in H as [P H]. apply in_flat_map in HI as ((d & [v|]) & H1 & H2); [|destruct H2]. apply combine_seq_nth in H1.
      assert (L : (d < length (m2_cells m))%nat) by (rewrite <- (LM e) by (eapply nth_error_In; eauto); apply nth_error_Some; congruence). rewrite VS in H2 by auto.
      destruct (_ || _) eqn:E; [|destruct H2]. destruct H2 as [<- | [] ]. exists e. split; auto. split; auto. exists d, v. split; auto. apply orb_true_iff in E as [E|E]; apply Z.eqb_eq in E; auto.
    + right. apply c35_grid_boundary_faces_partial in H as (k & p & F & -> & B). unfold facet_at, facet_pairs in F. rewrite nth_error_map in F.
      destruct (nth_error _ k) as [[d q]|] eqn:N; [|discriminate]. destruct q as [a b]. cbn [option_map snd] in F. assert (p = (a, b)) by congruence. subst p. exists k, d, a, b. split; [lia|]. auto.
  - intros [(e & P & H & d & v & M & B)|(k & d & a & b & -> & N & B)].
    + left. exists (i, e). split; [apply enum_nth; auto|]. apply in_flat_map. exists (d, Some v). split; [apply combine_seq_nth; auto|].
      assert (L : (d < length (m2_cells m))%nat) by (rewrite <- (LM e) by (eapply nth_error_In; eauto); apply nth_error_Some; congruence). rewrite VS by auto.
      destruct B as [-> | ->]; [cbn; auto|]. rewrite Z.eqb_refl, orb_true_r. simpl; auto.
    + right. apply c35_grid_boundary_faces_partial. exists k, (a, b). split; [|split; [lia|auto]]. unfold facet_at, facet_pairs. rewrite nth_error_map, N. auto.
Qed.
(** so every entry is the number of an edge *)
Theorem c161_range : forall m, (forall e, In e (m2_edges m) -> length (e2_mask e) = length (m2_cells m)) -> forall i, In i (grid_boundary_edges m) -> 0 <= i < num_edges2 m.
Proof.
  intros m LM i H. apply (proj2 (c161_edges m LM)) in H. unfold num_edges2, ext_facets, num_cutedges in *. destruct H as [(e & P & H & _)|(k & d & a & b & -> & H & _)].
  - assert (Z.to_nat i < length (m2_edges m))%nat by (apply nth_error_Some; congruence). lia.
  - assert (k < length (facets (m2_cells m) (m2_mask m)))%nat by (apply nth_error_Some; congruence). lia.
Qed.
(** the exterior part: every exterior cell on the first line of an axis has its edge there in the set, and on the last line if the axis has two cells at least *)
Theorem c161_exterior : forall m d c, (d < length (m2_cells m))%nat -> exterior (m2_cells m) (m2_mask m) c -> let x := ext_cell_index (m2_cells m) (m2_mask m) c in
  (at0 c d = 0 -> exists k, nth_error (facets (m2_cells m) (m2_mask m)) k = Some (d, (-2, x)) /\ In (num_cutedges m + Z.of_nat k) (grid_boundary_edges m)) /\
  (at0 c d = at0 (m2_cells m) d - 1 -> 2 <= at0 (m2_cells m) d -> exists k, nth_error (facets (m2_cells m) (m2_mask m)) k = Some (d, (x, -2)) /\ In (num_cutedges m + Z.of_nat k) (grid_boundary_edges m)).
Proof.
  intros m d c Hd HE x. assert (G : forall a b, In (d, (a, b)) (facets (m2_cells m) (m2_mask m)) -> a = -2 \/ b = -2 -> exists k, nth_error (facets (m2_cells m) (m2_mask m)) k = Some (d, (a, b)) /\ In (num_cutedges m + Z.of_nat k) (grid_boundary_edges m)).
  { intros a b H B. apply In_nth_error in H as [k H]. exists k. split; auto. unfold grid_boundary_edges. rewrite (set_of_list_In Zcompare_total), in_app_iff. right.
    apply c35_grid_boundary_faces_partial. exists k, (a, b). split; [|split; [lia|auto]]. unfold facet_at, facet_pairs. rewrite nth_error_map. transitivity (option_map (@snd nat edge) (Some (d, (a, b)))); [f_equal; exact H|reflexivity]. }
  split.
  - intros E. apply G; auto. apply c34_facets_exact. split; auto. right. left. split; auto. exists c. auto.
  - intros E L. apply G; auto. apply c34_facets_exact. split; auto. right. right. split; auto. split; auto. exists c. auto.
Qed.
(** an edge of the set is no edge between two exterior cells *)
Theorem c161_inside : forall m d c k, exterior (m2_cells m) (m2_mask m) c -> exterior (m2_cells m) (m2_mask m) (step c d) -> (forall e, In e (m2_edges m) -> length (e2_mask e) = length (m2_cells m)) ->
  nth_error (facets (m2_cells m) (m2_mask m)) k = Some (d, (ext_cell_index (m2_cells m) (m2_mask m) c, ext_cell_index (m2_cells m) (m2_mask m) (step c d))) -> ~ In (num_cutedges m + Z.of_nat k) (grid_boundary_edges m).
Proof.
  intros m d c k H1 H2 LM N H. destruct (c33_index_bijection (m2_cells m) (m2_mask m)) as (_ & B & _). apply B in H1, H2.
  apply (proj2 (c161_edges m LM)) in H as [(e & _ & H & _)|(k' & d' & a & b & E & H & AB)].
  - unfold num_cutedges in H. assert (Z.to_nat (Z.of_nat (length (m2_edges m)) + Z.of_nat k) < length (m2_edges m))%nat by (apply nth_error_Some; congruence). lia.
  - assert (k = k') by lia. subst k'. rewrite N in H. assert (X : (ext_cell_index (m2_cells m) (m2_mask m) c, ext_cell_index (m2_cells m) (m2_mask m) (step c d)) = (a, b)) by congruence. apply pair_equal_spec in X as [<- <-]. lia.
Qed.
(** with the boundary operator: an exterior edge is in the set exactly if its row of boundary(mesh, false) is zero *)
Theorem c161_zero_rows : forall m B k f, incidence_ok m -> (forall e, In e (m2_edges m) -> length (e2_mask e) = length (m2_cells m)) -> boundary2 m false = Some B -> nth_error (facets (m2_cells m) (m2_mask m)) k = Some f ->
  (In (num_cutedges m + Z.of_nat k) (grid_boundary_edges m) <-> forall c, 0 <= c < num_faces2 m -> coeff B (num_cutedges m + Z.of_nat k) c = 0%Qc).
Proof.
  intros m B k [d [a b]] OK LM EB N. destruct (c64_coefficients m false OK) as (B' & EB' & _ & _ & _ & C4 & C5). assert (B' = B) by congruence. subst B'.
  assert (L : In (num_cutedges m + Z.of_nat k) (grid_boundary_edges m) <-> is_boundary_facet (a, b) = true).
  { rewrite (proj2 (c161_edges m LM)). unfold is_boundary_facet. cbn [fst snd]. rewrite orb_true_iff, !Z.eqb_eq. split.
    - intros [(e & _ & H & _)|(k' & d' & a' & b' & E & H & AB)].
      + unfold num_cutedges in H. assert (Z.to_nat (Z.of_nat (length (m2_edges m)) + Z.of_nat k) < length (m2_edges m))%nat by (apply nth_error_Some; congruence). lia.
      + assert (k = k') by lia. subst k'. rewrite N in H. assert (X : (a, b) = (a', b')) by congruence. apply pair_equal_spec in X as [-> ->]. auto.
    - intros AB. right. exists k, d, a, b. auto. }
  rewrite L. split.
  - intros Hb c Hc. destruct (Z_lt_le_dec c (num_cutfaces m)); [apply C5; lia|]. replace c with (num_cutfaces m + (c - num_cutfaces m)) by lia. rewrite (C4 k d (a, b)) by (auto; lia). rewrite Hb. reflexivity.
  - intros H. destruct (is_boundary_facet (a, b)) eqn:E; auto. exfalso. assert (I := nth_error_In _ _ N). apply c34_facets_exact in I as [Hd [(c & H1 & H2 & -> & ->)|[(-> & _)|(_ & -> & _)]]]; [|discriminate E|unfold is_boundary_facet in E; cbn in E; rewrite orb_true_r in E; discriminate].
    assert (LC : (d < length c)%nat) by (destruct H1 as [H1 _]; apply in_shape_length in H1; lia).
    destruct (c33_index_bijection (m2_cells m) (m2_mask m)) as (_ & IB & _). destruct (IB c H1) as [R1 M1], (IB _ H2) as [R2 M2].
    assert (X : 0 <= num_cutfaces m) by (unfold num_cutfaces; lia). specialize (H (num_cutfaces m + ext_cell_index (m2_cells m) (m2_mask m) c)). rewrite (C4 _ _ _ _ N) in H by lia. rewrite E in H. cbn [orb negb fst snd] in H. rewrite Z.eqb_refl in H.
    destruct (Z.eqb_spec (ext_cell_index (m2_cells m) (m2_mask m) (step c d)) (ext_cell_index (m2_cells m) (m2_mask m) c)) as [EQ|_].
    + rewrite EQ, M1 in M2. assert (SC : c = step c d) by congruence. apply (f_equal (fun l => at0 l d)) in SC. unfold step in SC. rewrite at0_upd, Nat.eqb_refl in SC by (apply LC). lia.
    + assert (Y := H ltac:(unfold num_faces2, ext_cells; lia)). discriminate Y.
Qed.
(** REFUTED: the edges on the border of the domain are all in the set.  With a single layer of cells along an axis the exterior cells' edges on its last line are not *)
Theorem c161_single_layer_refuted : forall m d k a b, (d < length (m2_cells m))%nat -> at0 (m2_cells m) d = 1 -> nth_error (facets (m2_cells m) (m2_mask m)) k = Some (d, (a, b)) -> b <> -2.
Proof. intros m d k a b Hd E H. eapply c34_refuted_single_layer; eauto. eapply nth_error_In; eauto. Qed.
(** a mesh of one cut and one exterior cell in a row: the cut cell's left, lower and upper edge, and the exterior cell's right and lower edge; its upper edge is missing *)
Example c161_ex : (forall e, In e (m2_edges sample2) -> length (e2_mask e) = length (m2_cells sample2)) /\ facets (m2_cells sample2) (m2_mask sample2) = [(0%nat, (0, -2)); (1%nat, (-2, 0))] /\ grid_boundary_edges sample2 = [0; 2; 3; 4; 5].
Proof. split; [intros e [<-|[<-|[<-|[<-|[]]]]]; reflexivity|]. split; reflexivity. Qed.
