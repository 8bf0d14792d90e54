(** Properties C12-C16: slices, intersection order, crossing indices, grid edge subdivision, loop keys. *)
From Verif Require Import Base Num CoordMask Vertex VertexSpec VertexProofs ThresholdProofs Grid SubGrid SubGridProofs
  VertexTypes VertexTypesProofs Crossings CrossingsSpec CrossingsProofs GridEdges GridEdgesSpec GridEdgesProofs
  SmallestEdge SmallestEdgeSpec SmallestEdgeProofs.
Local Open Scope Z_scope.

(** C12: upgrade puts the slice value on the axis and downgrade forgets exactly it *)
Theorem c12_upgrade_then_downgrade : forall (A : Type) axis (c2 : list A) v, (axis < 3)%nat -> length c2 = 2%nat ->
  exists c3, upgrade axis c2 v = Some c3 /\ length c3 = 3%nat /\ nth_error c3 axis = Some v /\ downgrade axis c3 = Some c2.
Proof. exact upgrade_spec. Qed.
Theorem c12_downgrade_then_upgrade : forall (A : Type) axis (c3 : list A), (axis < 3)%nat -> length c3 = 3%nat ->
  exists c2 v, downgrade axis c3 = Some c2 /\ length c2 = 2%nat /\ nth_error c3 axis = Some v /\ upgrade axis c2 v = Some c3.
Proof. exact downgrade_upgrade. Qed.
Theorem c12_vertex_up_down : forall axis c v, (axis < 3)%nat -> v_wf 2 v ->
  exists w, upgrade_vertex axis c v = Some w /\ v_wf 3 w /\ downgrade_vertex axis w = Some v /\
    nth_error (pos w) axis = Some (Z2Qc c) /\ nth_error (v_clamped w) axis = Some true.
Proof. exact vertex_roundtrip_up. Qed.
Theorem c12_vertex_down_up : forall axis c w, (axis < 3)%nat -> v_wf 3 w ->
  nth_error (v_coord w) axis = Some c -> nth_error (v_quot w) axis = Some 0%Qc ->
  nth_error (v_clamped w) axis = Some true ->
  exists v, downgrade_vertex axis w = Some v /\ v_wf 2 v /\ upgrade_vertex axis c v = Some w.
Proof. exact vertex_roundtrip_down. Qed.
Theorem c12_index_up_down : forall axis s3 s2 n c i, (axis < 3)%nat -> length s3 = 3%nat -> pos_shape s3 ->
  downgrade axis s3 = Some s2 -> nth_error s3 axis = Some n -> 0 <= c < n -> 0 <= i < shape_size s2 ->
  exists j, upgrade_index s2 s3 axis c i = Some j /\ 0 <= j < shape_size s3 /\ downgrade_index s2 s3 axis j = Some i.
Proof. exact index_roundtrip. Qed.
Example c12_ex : upgrade_index [5; 3] [3; 4; 5] 1 2 7 = Some 32 /\ downgrade_index [5; 3] [3; 4; 5] 1 32 = Some 7.
Proof. vm_compute. auto. Qed.

(** C13 is refuted: the order is not transitive *)
Definition ei_a := mkEI (mkVertex [5] [0%Qc] [true]) (Q2Qc (1 # 10)) 0.
Definition ei_b := mkEI (mkVertex [3] [0%Qc] [true]) (Q2Qc (2 # 10)) 0.
Definition ei_c := mkEI (mkVertex [4] [0%Qc] [true]) (Q2Qc (3 # 10)) 1.
Theorem c13_transitivity_refuted : exists a b c, ei_ltb a b = true /\ ei_ltb b c = true /\ ei_ltb a c = false
  /\ ei_ltb c a = false.
Proof. exists ei_a, ei_b, ei_c. vm_compute. auto. Qed.
(** what does hold: strictness, and on one parent edge the order is the parameter order *)
Theorem c13_strict_partial : forall a, ei_ltb a a = false /\ forall b, ei_ltb a b = true -> ei_ltb b a = false.
Proof. intros a. split; [apply ei_irrefl|apply ei_asym]. Qed.
Theorem c13_same_edge_partial : forall a b, (0 <= ei_coord a)%Qc -> ei_index a = ei_index b ->
  (ei_ltb a b = true <-> (ei_coord a < ei_coord b)%Qc).
Proof. exact ei_same_edge. Qed.
(** hence a strict weak order on the intersections of one edge *)
Theorem c13_same_edge_weak_order_partial : forall a b c,
  (0 <= ei_coord a)%Qc -> (0 <= ei_coord b)%Qc -> (0 <= ei_coord c)%Qc -> ei_index a = ei_index b -> ei_index b = ei_index c ->
  (ei_ltb a b = true -> ei_ltb b c = true -> ei_ltb a c = true) /\
  (ei_ltb a b = false -> ei_ltb b c = false -> ei_ltb a c = false).
Proof. exact ei_same_edge_swo. Qed.
Example c13_ex : ei_ltb ei_a ei_b = true /\ ei_ltb ei_b ei_a = false.
Proof. vm_compute. auto. Qed.

(** C13, crossings of different kinds: vertices before edge intersections before triangle intersections *)
Theorem c13_crossing_kinds : forall v e t,
  (cr_ltb (CV v) (CE e) = true /\ cr_ltb (CE e) (CV v) = false) /\ (cr_ltb (CE e) (CT t) = true /\ cr_ltb (CT t) (CE e) = false) /\
  (cr_ltb (CV v) (CT t) = true /\ cr_ltb (CT t) (CV v) = false).
Proof. intros. repeat split. Qed.

(** C14 *)
Theorem c14_crossing_indices : forall D s vs r c, Forall (good_crossing D s) vs -> compute_crossings s vs = (r, c) ->
  length r = length vs /\
  (forall j k v w i i', nth_error vs j = Some v -> nth_error vs k = Some w ->
     nth_error r j = Some i -> nth_error r k = Some i' -> (i = i' <-> pos v = pos w)) /\
  (forall j v i, nth_error vs j = Some v -> nth_error r j = Some i ->
     (is_grid_vertex v = true -> i = ravel s (v_coord v) /\ 0 <= i < shape_size s) /\
     (is_grid_vertex v = false -> shape_size s <= i < c)) /\
  (forall i, shape_size s <= i < c -> exists j v, nth_error vs j = Some v /\ nth_error r j = Some i /\ is_grid_vertex v = false).
Proof. exact compute_crossings_spec. Qed.
Theorem c14_vertex_count : forall D s vs r c, Forall (good_crossing D s) vs -> compute_crossings s vs = (r, c) ->
  cut_vertex_size s r = c.
Proof. exact cut_vertex_size_spec. Qed.
(** the vertex table built from the indices: every crossing is found at its index with its own position, every slot is filled, and the
    first indices are the grid vertices *)
Lemma slot_set_nth l v : forall i j, nth_error (slot_set l i v) j = if (j =? i)%nat then (if (i <? length l)%nat then Some (Some v) else None) else nth_error l j.
Proof.
  induction l as [|a l IH]; intros [|i] [|j]; cbn [slot_set nth_error]; auto.
  - destruct (Nat.eqb_spec (S j) (S i)); auto.
  - rewrite IH. cbn. reflexivity.
Qed.
Lemma slot_set_length l v : forall i, length (slot_set l i v) = length l.
Proof. induction l; intros [|i]; cbn; auto. Qed.
Lemma bake_fold s cs : forall slots k,
  let R := fold_left (fun slots '(v, i) => if 0 <=? i - shape_size s then slot_set slots (Z.to_nat (i - shape_size s)) v else slots) cs slots in
  length R = length slots /\
  ((exists v, In (v, shape_size s + Z.of_nat k) cs) -> (k < length slots)%nat -> exists v, In (v, shape_size s + Z.of_nat k) cs /\ nth_error R k = Some (Some v)) /\
  ((forall v, ~ In (v, shape_size s + Z.of_nat k) cs) -> nth_error R k = nth_error slots k).
Proof.
  induction cs as [|[w i] cs IH]; intros slots k; cbn zeta; cbn [fold_left].
  - split; auto. split; [intros [v []]|auto].
  - set (st := if 0 <=? i - shape_size s then _ else _). destruct (IH st k) as (I1 & I2 & I3).
    assert (LS : length st = length slots) by (unfold st; destruct (0 <=? i - shape_size s); auto using slot_set_length).
    rewrite LS in *. split; auto.
    assert (DEC : (exists v, In (v, shape_size s + Z.of_nat k) cs) \/ (forall v, ~ In (v, shape_size s + Z.of_nat k) cs)).
    { clear. induction cs as [|[u j] cs IH]; [right; intros v []|]. destruct (Z.eq_dec j (shape_size s + Z.of_nat k)) as [->|N].
      - left. exists u. cbn; auto.
      - destruct IH as [[v H]|H]; [left; exists v; cbn; auto|right]. intros v [[= _ E]|E]; [lia|]. apply (H v E). }
    split.
    + intros [v Hv] Lk. destruct DEC as [D|D].
      * destruct (I2 D Lk) as (u & U1 & U2). exists u. split; cbn; auto.
      * destruct Hv as [[= -> ->]|Hv]; [|exfalso; eapply D; eauto]. exists v. split; [cbn; auto|]. rewrite I3 by auto. unfold st.
        destruct (Z.leb_spec 0 (shape_size s + Z.of_nat k - shape_size s)); [|lia].
        rewrite slot_set_nth. replace (Z.to_nat (shape_size s + Z.of_nat k - shape_size s)) with k by lia.
        rewrite Nat.eqb_refl. destruct (Nat.ltb_spec k (length slots)); [auto|lia].
    + intros H. rewrite I3 by (intros v Hv; apply (H v); cbn; auto). unfold st. destruct (Z.leb_spec 0 (i - shape_size s)); auto.
      rewrite slot_set_nth. destruct (Nat.eqb_spec k (Z.to_nat (i - shape_size s))); auto.
      exfalso. apply (H w). left. f_equal. lia.
Qed.
Lemma fold_max_spec (r : list Z) : forall m0, let R := fold_left (fun mx i => Z.max i mx) r m0 in m0 <= R /\ (forall i, In i r -> i <= R) /\ (R = m0 \/ In R r).
Proof.
  induction r as [|a r IH]; intros m0; cbn zeta; cbn [fold_left].
  - split; [lia|]. split; [intros i []|auto].
  - destruct (IH (Z.max a m0)) as (I1 & I2 & I3). split; [lia|]. split.
    + intros i [<-|Hi]; [lia|auto].
    + destruct I3 as [->|I3]; [|right; cbn; auto]. destruct (Z.max_spec a m0) as [[_ ->]|[_ ->]]; cbn; auto.
Qed.
Theorem c14_lookup : forall D s vs r c, Forall (good_crossing D s) vs -> pos_shape s -> length s = D -> compute_crossings s vs = (r, c) ->
  let slots := bake_vertices s (combine vs r) in
  Z.of_nat (length slots) = c - shape_size s /\
  (forall j v i, nth_error vs j = Some v -> nth_error r j = Some i -> exists w, grid_vertex s slots i = Some w /\ pos w = pos v) /\
  (forall i, 0 <= i < shape_size s -> exists p, in_shape s p = true /\ ravel s p = i /\ option_map pos (grid_vertex s slots i) = Some (map Z2Qc p)) /\
  (forall i, shape_size s <= i < c -> grid_vertex s slots i <> None) /\ (forall i, c <= i -> grid_vertex s slots i = None).
Proof.
  intros D s vs r c HG HP LsD HC. destruct (compute_crossings_spec D s vs r c HG HC) as (L & A1 & A2 & A3). cbn zeta.
  assert (SP := shape_size_pos HP). set (slots := bake_vertices s (combine vs r)).
  assert (HSND : map snd (combine vs r) = r) by (clear -L; revert vs L; induction r as [|x r IH]; intros [|v vs] L; cbn in *; try discriminate; auto; f_equal; auto).
  assert (INC : forall v i, In (v, i) (combine vs r) <-> exists j, nth_error vs j = Some v /\ nth_error r j = Some i).
  { clear -L. revert vs L. induction r as [|x r IH]; intros [|u vs] L v i; cbn in *; try discriminate.
    - split; [intros []|]. intros (j & H & _). destruct j; discriminate.
    - rewrite IH by lia. split.
      + intros [[= <- <-]|(j & H1 & H2)]; [exists 0%nat|exists (S j)]; auto.
      + intros ([|j] & H1 & H2); cbn in *; [left; congruence|right; eauto]. }
  assert (CB : shape_size s <= c).
  { rewrite <- (cut_vertex_size_spec D s vs r c HG HC). unfold cut_vertex_size. clear. generalize (shape_size s). induction r as [|a r IH]; intros z; cbn; [lia|]. specialize (IH (Z.max z (a + 1))). lia. }
  assert (LS : Z.of_nat (length slots) = c - shape_size s).
  { unfold slots, bake_vertices. destruct (bake_fold s (combine vs r) (repeat None (Z.to_nat (bake_vertices_size s (map snd (combine vs r))))) 0) as (B1 & _).
    rewrite B1, repeat_length, HSND. unfold bake_vertices_size. destruct (fold_max_spec r (-1)) as (F1 & F2 & F3). set (M := fold_left _ r (-1)) in *.
    assert (M < c).
    { destruct F3 as [->|F3]; [lia|]. apply In_nth_error in F3 as (j & Hj). destruct (nth_error_lt _ vs j) as [v Hv]; [rewrite <- L; apply nth_error_Some; congruence|].
      destruct (A2 j v M Hv Hj) as [G1 G2]. destruct (is_grid_vertex v); [destruct (G1 eq_refl); lia|destruct (G2 eq_refl); lia]. }
    destruct (Z.eq_dec c (shape_size s)); [lia|]. destruct (A3 (c - 1)) as (j & v & H1 & H2 & H3); [lia|]. apply nth_error_In in H2. apply F2 in H2. lia. }
  assert (SLOT : forall i, shape_size s <= i < c -> exists v, In (v, i) (combine vs r) /\ nth_error slots (Z.to_nat (i - shape_size s)) = Some (Some v)).
  { intros i Hi. destruct (A3 i Hi) as (j & v & H1 & H2 & H3).
    destruct (bake_fold s (combine vs r) (repeat None (Z.to_nat (bake_vertices_size s (map snd (combine vs r))))) (Z.to_nat (i - shape_size s))) as (B1 & B2 & _).
    replace (shape_size s + Z.of_nat (Z.to_nat (i - shape_size s))) with i in B2 by lia. fold (bake_vertices s (combine vs r)) in *. fold slots in B1, B2.
    destruct B2 as (u & U1 & U2); [exists v; apply INC; eauto|rewrite <- B1; lia|]. exists u. auto. }
  split; auto. split; [|split; [|split]].
  - intros j v i Hv Hi. destruct (A2 j v i Hv Hi) as [G1 G2]. unfold grid_vertex. destruct (is_grid_vertex v) eqn:EG.
    + destruct (G1 eq_refl) as [-> HR]. destruct (Z.ltb_spec (ravel s (v_coord v)) (shape_size s)); [|lia].
      assert (GC : good_crossing D s v) by (rewrite Forall_forall in HG; apply HG; eapply nth_error_In; eauto).
      destruct GC as (W & N & FE & IS). specialize (IS EG). rewrite unravel_ravel by auto. eexists; split; [reflexivity|].
      destruct W as (W1 & W2 & W3). unfold is_grid_vertex in EG. rewrite forallb_forall in EG. unfold pos, vertex_of_coord. cbn [v_coord v_quot].
      apply nth_error_ext. intros x. rewrite !nth_error_zipwith. destruct (nth_error (v_coord v) x) as [cx|] eqn:Ex; auto.
      assert (x < D)%nat by (rewrite <- W1; apply nth_error_Some; congruence).
      destruct (nth_error_lt _ (v_quot v) x) as [qx Hq]; [lia|]. destruct (nth_error_lt _ (v_clamped v) x) as [bx Hb]; [lia|]. rewrite Hq.
      rewrite nth_error_repeat. destruct (Nat.ltb_spec x (length (v_coord v))); [|lia]. unfold flags_exact in FE. apply Forall2_nth in FE as [_ FE]. rewrite (proj1 (FE x bx qx Hb Hq)); auto. apply EG. eapply nth_error_In; eauto.
    + assert (HR := G2 eq_refl). destruct (Z.ltb_spec i (shape_size s)); [lia|]. destruct (SLOT i HR) as (u & U1 & U2). rewrite U2. exists u. split; auto.
      apply INC in U1 as (k & K1 & K2). symmetry. apply (A1 j k v u i i); auto.
  - intros i Hi. destruct (unravel_in (s := s) HP Hi) as [B1 B2]. exists (unravel s i). split; auto. split; auto. unfold grid_vertex.
    destruct (Z.ltb_spec i (shape_size s)); [|lia]. cbn [option_map]. f_equal. generalize (unravel s i). clear. unfold pos, vertex_of_coord. cbn.
    induction l as [|x l IH]; auto. cbn. rewrite IH. f_equal. qc_lra.
  - intros i Hi. unfold grid_vertex. destruct (Z.ltb_spec i (shape_size s)); [lia|]. destruct (SLOT i Hi) as (u & _ & ->). discriminate.
  - intros i Hi. unfold grid_vertex. destruct (Z.ltb_spec i (shape_size s)); [lia|]. rewrite (proj2 (nth_error_None slots _)); auto. lia.
Qed.
(** exact flags are necessary: an on-grid position whose flag is unset and a flagged one get two indices *)
(** C14 (fuse = false): the crossings are numbered from 0 in order, so no two share an index; these numbers are not offset by the number of grid vertices, so the i-th crossing gets
    the index of grid vertex i whatever its position (for a grid shape with enough vertices).  The branch is never taken: bake() passes no argument on (C93) *)
Theorem c14_unfused : forall s vs, length (compute_crossings_nofuse vs) = length vs /\ (forall i v, nth_error vs i = Some v -> nth_error (compute_crossings_nofuse vs) i = Some (Z.of_nat i)) /\
  (forall i, (i < length vs)%nat -> Z.of_nat i < shape_size s -> exists k, nth_error (compute_crossings_nofuse vs) i = Some k /\ 0 <= k < shape_size s).
Proof.
  intros s vs. unfold compute_crossings_nofuse. assert (E : forall i, (i < length vs)%nat -> nth_error (map Z.of_nat (seq 0 (length vs))) i = Some (Z.of_nat i)).
  { intros i L. rewrite nth_error_map. rewrite (nth_error_nth' _ 0%nat) by (rewrite seq_length; auto). rewrite seq_nth by auto. reflexivity. }
  split; [rewrite map_length, seq_length; auto|]. split; [intros i v H; apply E; apply nth_error_Some; congruence|]. intros i L S. exists (Z.of_nat i). split; [auto|lia].
Qed.
Theorem c14_exact_flags_needed : exists s vs r c, compute_crossings s vs = (r, c) /\
  Forall (fun v => v_wf 1 v /\ normalised v) vs /\
  exists v w i j, vs = [v; w] /\ r = [i; j] /\ pos v = pos w /\ i <> j.
Proof.
  exists [4], [mkVertex [2] [0%Qc] [false]; mkVertex [2] [0%Qc] [true]], [4; 2], 5.
  split; [reflexivity|]. split.
  - repeat (constructor; [split; [repeat split; reflexivity|constructor; [split; [discriminate|reflexivity]|constructor]]|]). constructor.
  - do 4 eexists. repeat split; try reflexivity. discriminate.
Qed.
Definition c14_sample : list vertex :=
  [mkVertex [1; 2] [qhalf; 0%Qc] [false; true]; mkVertex [2; 2] [0%Qc; 0%Qc] [true; true]; mkVertex [1; 2] [qhalf; 0%Qc] [false; true];
   mkVertex [0; 0] [qhalf; qhalf] [false; false]].
Example c14_ex : Forall (good_crossing 2 [4; 4]) c14_sample /\ compute_crossings [4; 4] c14_sample = ([16; 10; 16; 17], 18).
Proof.
  split; [|reflexivity]. unfold c14_sample.
  repeat constructor; simpl; try reflexivity; try discriminate; auto.
Qed.

(** the grid edge (c, j) joins the grid vertex c to the next grid vertex on axis j *)
Theorem c15_grid_edge_ends : forall s c j, exists c', get_grid_edge s c j = (ravel s c, ravel s c') /\ length c' = length c /\
  forall k x, nth_error c k = Some x -> nth_error c' k = Some (if (k =? j)%nat then x + 1 else x).
Proof.
  intros s c j. exists (coord_inc j c). split; auto. split.
  - revert j; induction c as [|a c IH]; intros [|j]; cbn; auto.
  - revert j; induction c as [|a c IH]; intros [|j] [|k] x; cbn; try discriminate; auto.
    all: intros [= ->]; auto.
Qed.
(** C15: for every grid edge (c, j) and every crossing list *)
Theorem c15_grid_edge_chain : forall D s crs j c,
  (forall v i, In (v, i) crs -> v_wf D v /\ normalised v /\ flags_exact v) -> length c = D ->
  exists mid,
    ssorted qcmp (map fst ((0%Qc, ravel s c) :: mid ++ [(1%Qc, ravel s (coord_inc j c))])) /\
    (forall t, In t (map fst mid) <-> exists v i, In (v, i) crs /\ on_open_edge c j t (pos v)) /\
    (forall t i, In (t, i) mid -> exists v, In (v, i) crs /\ on_open_edge c j t (pos v)) /\
    walk (ravel s c) (grid_edge_pieces D s crs j c) (ravel s (coord_inc j c)) /\
    (forall a b, In (a, b) (grid_edge_pieces D s crs j c) <->
       a <> b /\ adjacent (ravel s c :: map snd mid ++ [ravel s (coord_inc j c)]) a b).
Proof.
  intros D s crs j c H L. destruct (grid_edge_pieces_spec D s crs j c H L) as (mid & H1 & H2 & H3 & H4 & H5).
  exists mid. split; auto. split; auto. split; auto. split; auto. intros a b. rewrite H5. apply chain_In.
Qed.
(** with the indices of C14 nothing is skipped: the pieces join consecutive points, all vertices distinct *)
Theorem c15_grid_edge_complete : forall D s crs j c,
  (forall v i, In (v, i) crs -> v_wf D v /\ normalised v /\ flags_exact v) -> length c = D -> (j < D)%nat ->
  (forall v i w k, In (v, i) crs -> In (w, k) crs -> (i = k <-> pos v = pos w)) ->
  (forall v i, In (v, i) crs -> is_grid_vertex v = false -> shape_size s <= i) ->
  in_shape s c = true -> in_shape s (coord_inc j c) = true ->
  exists mid, grid_edge_pieces D s crs j c = pairs (ravel s c :: map snd mid ++ [ravel s (coord_inc j c)]) /\
    NoDup (ravel s c :: map snd mid ++ [ravel s (coord_inc j c)]) /\
    (forall i, In i (map snd mid) <-> exists v t, In (v, i) crs /\ on_open_edge c j t (pos v)) /\
    ssorted qcmp (map fst mid).
Proof. exact grid_edge_pieces_distinct. Qed.
(** C15 (edge_coord): a crossing with exactly one axis off the grid planes lies on that axis's grid edge, and edge_coord() is its fraction along it; a grid vertex has none *)
Theorem c15_edge_coord : forall v D d q, length (v_clamped v) = D -> length (v_quot v) = D -> nth_error (v_clamped v) d = Some false ->
  (forall j, (j < d)%nat -> nth_error (v_clamped v) j = Some true) -> nth_error (v_quot v) d = Some q -> find_unbound v = Z.of_nat d /\ ec_coord v = Some q.
Proof.
  intros v D d q L1 L2 C B Q. assert (F : forall bs k, nth_error bs d = Some false -> (forall j, (j < d)%nat -> nth_error bs j = Some true) -> find_unbound_from k bs = (k + Z.of_nat d)%Z).
  { clear. induction d as [|d IH]; intros [|b bs] k H1 H2; try discriminate; cbn [nth_error] in H1.
    - injection H1 as ->. cbn. lia.
    - assert (X := H2 0%nat ltac:(lia)). injection X as ->. cbn [find_unbound_from]. rewrite IH; [lia|auto|]. intros j J. apply (H2 (S j)). lia. }
  assert (E : find_unbound v = Z.of_nat d) by (unfold find_unbound; rewrite (F _ 0%Z C B); lia). split; auto. unfold ec_coord. rewrite E. destruct (Z.ltb_spec (Z.of_nat d) 0); [lia|]. rewrite Nat2Z.id. auto.
Qed.
Theorem c15_edge_coord_none : forall v, Forall (fun b => b = true) (v_clamped v) -> ec_coord v = None.
Proof.
  intros v H. unfold ec_coord, find_unbound. assert (F : forall bs k, Forall (fun b => b = true) bs -> find_unbound_from k bs = (-1)%Z) by (induction bs as [|b bs IH]; intros k X; cbn; auto; inversion X; subst; auto). rewrite F by auto. auto.
Qed.
Definition c15_crs : list (vertex * Z) :=
  [(mkVertex [1; 2] [Q2Qc (3 # 4); 0%Qc] [false; true], 17); (mkVertex [2; 2] [0%Qc; 0%Qc] [true; true], 10);
   (mkVertex [1; 2] [Q2Qc (1 # 4); 0%Qc] [false; true], 16); (mkVertex [1; 2] [Q2Qc (3 # 4); 0%Qc] [false; true], 17)].
Example c15_ex : grid_edge_pieces 2 [4; 4] c15_crs 0 [1; 2] = [(6, 16); (16, 17); (17, 10)].
Proof. reflexivity. Qed.

(** C16: the key is the least directed edge of the loop and does not depend on the starting vertex *)
Theorem c16_smallest_edge : forall v, (2 <= length v)%nat ->
  loop_edge v (smallest_ordered_edge v) /\ forall e, loop_edge v e -> edge_le (smallest_ordered_edge v) e.
Proof. exact smallest_spec. Qed.
Theorem c16_rotation_invariant : forall k v, (2 <= length v)%nat -> (k <= length v)%nat ->
  smallest_ordered_edge (rotate k v) = smallest_ordered_edge v.
Proof. exact smallest_rotate. Qed.
Theorem c16_key_shares_edge : forall v w, (2 <= length v)%nat -> (2 <= length w)%nat ->
  smallest_ordered_edge v = smallest_ordered_edge w -> exists e, loop_edge v e /\ loop_edge w e.
Proof. exact smallest_key_shares_edge. Qed.
(** the reverse variant is the swapped key of the reversed loop ... *)
Theorem c16_reverse_is_swapped_partial : forall v, (2 <= length v)%nat ->
  smallest_ordered_edge_reverse v = (snd (smallest_ordered_edge (rev v)), fst (smallest_ordered_edge (rev v))).
Proof. exact reverse_is_swapped. Qed.
(** ... so as a lookup key for the reversed loop (generator3_make_faces.cpp:64 against :441) it never matches *)
Theorem c16_reverse_key_refuted : forall v, (2 <= length v)%nat -> NoDup v ->
  smallest_ordered_edge_reverse v <> smallest_ordered_edge (rev v).
Proof. exact reverse_key_never_matches. Qed.
Example c16_ex : smallest_ordered_edge [7; 3; 9; 5] = (3, 9) /\ smallest_ordered_edge_reverse [7; 3; 9; 5] = (7, 3)
  /\ smallest_ordered_edge (rev [7; 3; 9; 5]) = (3, 7).
Proof. vm_compute. auto. Qed.

Print Assumptions c12_index_up_down.
Print Assumptions c13_same_edge_weak_order_partial.
Print Assumptions c14_crossing_indices.
Print Assumptions c14_vertex_count.
Print Assumptions c15_grid_edge_chain.
Print Assumptions c15_grid_edge_complete.
Print Assumptions c16_rotation_invariant.
Print Assumptions c16_reverse_key_refuted.
