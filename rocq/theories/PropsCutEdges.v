(** C76: the cut edges of the input edges; C77: parameters of points on an edge *)
From Verif Require Import Base Num CoordMask CoordMaskSpec Vertex VertexSpec VertexTypes VertexProofs ThresholdProofs EdgeBake EdgeBakeProofs PropsEdgeBake CutEdges.
From Coq Require Import Sorting.Sorted Permutation Relations.
Set Implicit Arguments.
Local Open Scope Z_scope.

Lemma pair_cmp2_total : TotalCmp pair_cmp2.
Proof. apply pair_cmp_total; apply Zcompare_total. Qed.
Lemma edges_of_In ix gv x y : In (x, y) (edges_of ix gv) <->
  x < y /\ exists p q, In (p, q) (consecutive gv) /\ ((x = ix p /\ y = ix q) \/ (x = ix q /\ y = ix p)).
Proof.
  unfold edges_of.
  assert (G : forall l (s : list (Z * Z)), In (x, y) (fold_left (fun s '(p, q) => if ix p =? ix q then s else set_insert pair_cmp2 (sorted_pair (ix p) (ix q)) s) l s) <->
     In (x, y) s \/ (x < y /\ exists p q, In (p, q) l /\ ((x = ix p /\ y = ix q) \/ (x = ix q /\ y = ix p)))).
  { induction l as [|[p q] l IH]; intros s; cbn [fold_left]; [split; [auto|intros [H|(_ & p & q & [] & _)]; auto]|].
    rewrite IH. destruct (Z.eqb_spec (ix p) (ix q)) as [E|E].
    - split; (intros [H|(H & p' & q' & H1 & H2)]; [left; auto|right; split; auto]).
      + exists p', q'. split; [right; auto|auto].
      + destruct H1 as [H1|H1]; [apply pair_equal_spec in H1 as [<- <-]; destruct H2; lia|]. exists p', q'. auto.
    - rewrite (set_insert_In pair_cmp2_total). unfold sorted_pair. destruct (Z.ltb_spec (ix q) (ix p)) as [L|L]; rewrite pair_equal_spec.
      + split.
        * intros [[[-> ->]|H]|(H & p' & q' & H1 & H2)]; [right|left; auto|right].
          { split; [lia|]. exists p, q. split; [left; auto|]. right. auto. }
          { split; auto. exists p', q'. split; [right; auto|auto]. }
        * intros [H|(H & p' & q' & [H1|H1] & H2)]; [left; right; auto| |right; split; auto; exists p', q'; auto].
          apply pair_equal_spec in H1 as [<- <-]. left. left. destruct H2 as [[-> ->]|[-> ->]]; [lia|auto].
      + split.
        * intros [[[-> ->]|H]|(H & p' & q' & H1 & H2)]; [right|left; auto|right].
          { split; [lia|]. exists p, q. split; [left; auto|]. left. auto. }
          { split; auto. exists p', q'. split; [right; auto|auto]. }
        * intros [H|(H & p' & q' & [H1|H1] & H2)]; [left; right; auto| |right; split; auto; exists p', q'; auto].
          apply pair_equal_spec in H1 as [<- <-]. left. left. destruct H2 as [[-> ->]|[-> ->]]; [auto|lia]. }
  rewrite G. simpl. tauto.
Qed.

(** every cut edge of an input edge joins two consecutive points of it, carries the edge's index and its planes; the two ends lie in one closed cell *)
Theorem c76_sound D ix grid a b eidx m x y i : input_vertex D a -> input_vertex D b -> In (m, (x, y), i) (cut_edges_of ix grid a b eidx) ->
  i = eidx /\ (forall d z, nth_error m d = Some (Some z) <-> nth_error (v_mask a) d = Some (Some z) /\ nth_error (v_mask b) d = Some (Some z)) /\
  exists p q, In (p, q) (consecutive (gvertices a b (bake_edge grid a b eidx))) /\ ((x = ix p /\ y = ix q) \/ (x = ix q /\ y = ix p)) /\
  exists cell : nat -> Z, forall d, (d < D)%nat ->
    (Z2Qc (cell d) <= qat (pos (cr_vertex p)) d /\ qat (pos (cr_vertex p)) d <= Z2Qc (cell d) + 1 /\
     Z2Qc (cell d) <= qat (pos (cr_vertex q)) d /\ qat (pos (cr_vertex q)) d <= Z2Qc (cell d) + 1)%Qc.
Proof.
  intros Ia Ib H. unfold cut_edges_of in H.
  assert (MB : forall d z, nth_error (edge_mask a b) d = Some (Some z) <-> nth_error (v_mask a) d = Some (Some z) /\ nth_error (v_mask b) d = Some (Some z)).
  { intros d z. destruct Ia as [Wa Na], Ib as [Wb Nb]. apply (M_binds Wa Wb d z). }
  destruct (bake_edge grid a b eidx) as [|e0 R] eqn:ER.
  - destruct H as [E|[]]. apply pair_equal_spec in E as [E1 <-]. apply pair_equal_spec in E1 as [<- E2]. apply pair_equal_spec in E2 as [<- <-].
    split; auto. split; auto. exists (CV a), (CV b). split; [left; auto|]. split; [left; auto|].
    apply (@c75_one_cell D grid a b eidx); auto. rewrite ER. left. auto.
  - apply in_map_iff in H as ([x' y'] & E & H). apply pair_equal_spec in E as [E1 <-]. apply pair_equal_spec in E1 as [<- E2].
    apply pair_equal_spec in E2 as [<- <-]. split; auto. split; auto. apply edges_of_In in H as (_ & p & q & H & HE). rewrite <- ER in H.
    exists p, q. rewrite <- ER. split; auto. split; auto. apply (@c75_one_cell D grid a b eidx); auto.
Qed.
(** and every consecutive pair with different indices is a cut edge *)
Theorem c76_complete ix grid a b eidx p q : In (p, q) (consecutive (gvertices a b (bake_edge grid a b eidx))) -> ix p <> ix q ->
  exists x y, In (edge_mask a b, (x, y), eidx) (cut_edges_of ix grid a b eidx) /\ ((x = ix p /\ y = ix q) \/ (x = ix q /\ y = ix p)).
Proof.
  intros H N. unfold cut_edges_of. destruct (bake_edge grid a b eidx) as [|e0 R].
  - destruct H as [E|[]]. apply pair_equal_spec in E as [<- <-]. exists (ix (CV a)), (ix (CV b)). split; [left; auto|left; auto].
  - set (E := sorted_pair (ix p) (ix q)). exists (fst E), (snd E). unfold E, sorted_pair.
    destruct (Z.ltb_spec (ix q) (ix p)); cbn [fst snd]; (split; [|auto]); apply in_map_iff.
    + exists (ix q, ix p). split; auto. apply edges_of_In. split; [lia|]. exists p, q. auto.
    + exists (ix p, ix q). split; auto. apply edges_of_In. split; [lia|]. exists p, q. auto.
Qed.
(** they connect the index of the first end point to that of the last *)
Definition joined (es : list cut_edge) (x y : Z) : Prop := exists m i, In (m, (x, y), i) es \/ In (m, (y, x), i) es.
Lemma path_joined (ix : crossing -> Z) (es : list cut_edge) l z : forall c : crossing, (forall p q, In (p, q) (consecutive (c :: l ++ [z])) -> ix p <> ix q -> joined es (ix p) (ix q)) ->
  clos_refl_trans Z (joined es) (ix c) (ix z).
Proof.
  induction l as [|d l IH]; intros c H; cbn [app] in H.
  - destruct (Z.eq_dec (ix c) (ix z)) as [E|N]; [rewrite E; apply rt_refl|]. apply rt_step. apply H; [left; auto|auto].
  - apply rt_trans with (ix d).
    + destruct (Z.eq_dec (ix c) (ix d)) as [E|N]; [rewrite E; apply rt_refl|]. apply rt_step. apply H; [left; auto|auto].
    + apply IH. intros; apply H; auto. right. auto.
Qed.
Theorem c76_connected ix grid a b eidx : clos_refl_trans Z (joined (cut_edges_of ix grid a b eidx)) (ix (CV a)) (ix (CV b)).
Proof.
  eapply path_joined. intros p q H N.
  destruct (c76_complete ix grid a b eidx p q H N) as (x & y & Hin & [[-> ->]|[-> ->]]); exists (edge_mask a b), eidx; auto.
Qed.
(** no two cut edges of an edge that has crossings are equal, and none is degenerate *)
Theorem c76_nondegenerate ix grid a b eidx : bake_edge grid a b eidx <> [] -> let es := cut_edges_of ix grid a b eidx in
  NoDup es /\ forall m x y i, In (m, (x, y), i) es -> x < y.
Proof.
  intros N es. unfold es, cut_edges_of. destruct (bake_edge grid a b eidx) as [|e0 R]; [congruence|]. split.
  - apply FinFun.Injective_map_NoDup; [intros u v E; congruence|].
    assert (S : ssorted pair_cmp2 (edges_of ix (gvertices a b (e0 :: R)))); [|eapply (ssorted_NoDup pair_cmp2_total); eauto].
    unfold edges_of. generalize (consecutive (gvertices a b (e0 :: R))). intros l.
    assert (G : forall s : list (Z * Z), ssorted pair_cmp2 s -> ssorted pair_cmp2 (fold_left (fun s '(p, q) => if ix p =? ix q then s else set_insert pair_cmp2 (sorted_pair (ix p) (ix q)) s) l s)); [|apply G; constructor].
    induction l as [|[p q] l IH]; intros s Hs; auto. cbn [fold_left]. apply IH. destruct (_ =? _); auto. apply set_insert_sorted; auto. apply pair_cmp2_total.
  - intros m x y i H. apply in_map_iff in H as ([x' y'] & E & H). apply edges_of_In in H as [L _].
    apply pair_equal_spec in E as [E1 _]. apply pair_equal_spec in E1 as [_ E2]. apply pair_equal_spec in E2 as [<- <-]. auto.
Qed.
(** An edge without crossings is added unfiltered: an edge between two input vertices at the same place becomes a degenerate cut edge. *)
Theorem c76_degenerate_refuted D ix grid a eidx : input_vertex D a -> exists m x, In (m, (x, x), eidx) (cut_edges_of ix grid a a eidx).
Proof.
  intros Ia. unfold cut_edges_of. destruct (bake_edge grid a a eidx) as [|e R] eqn:ER.
  - eexists _, _. left. reflexivity.
  - assert (He : In e (bake_edge grid a a eidx)) by (rewrite ER; left; auto).
    destruct (@c74_points D grid a a eidx e Ia Ia He) as (_ & _ & _ & _ & _ & _ & _ & d & k & _ & [[B1 B2]|[B1 B2]] & _); qc_lra.
Qed.

(** ** schedules *)
Lemma interleaves_perm A (ls : list (list A)) out : interleaves ls out -> Permutation (concat ls) out.
Proof.
  induction 1 as [ls H|ls1 x l ls2 out H IH].
  - replace (concat ls) with (@nil A); auto. induction H as [|y ys Hy H IH]; auto. subst. simpl. auto.
  - rewrite concat_app in *. cbn [concat app] in *. etransitivity; [symmetry; apply Permutation_middle|]. constructor. auto.
Qed.
Lemma interleaves_concat A (ls : list (list A)) : interleaves ls (concat ls).
Proof.
  assert (H : forall l ls1 (ls2 : list (list A)), interleaves (ls1 ++ [] :: ls2) (concat ls2) -> interleaves (ls1 ++ l :: ls2) (l ++ concat ls2)).
  { induction l as [|x l IH]; intros ls1 ls2 H; auto. cbn [app]. constructor. auto. }
  assert (G : forall ls ls1 : list (list A), Forall (fun l => l = []) ls1 -> interleaves (ls1 ++ ls) (concat ls)).
  { clear ls. induction ls as [|l ls IH]; intros ls1 F; [constructor; rewrite app_nil_r; auto|]. cbn [concat]. apply H.
    replace (ls1 ++ [] :: ls) with ((ls1 ++ [[]]) ++ ls) by (rewrite <- app_assoc; auto). apply IH. apply Forall_app. split; auto. }
  apply (G ls []). constructor.
Qed.
(** whatever the schedule, the same cut edges with the same multiplicities *)
Theorem c76_schedule ix grid edges out : cut_edges ix grid edges out ->
  Permutation out (concat (map (fun '(i, (a, b)) => cut_edges_of ix grid a b i) (numbered edges))).
Proof. intros H. symmetry. apply interleaves_perm. exact H. Qed.

(** but their order, and with it the index of each cut edge, is up to the schedule *)
Definition sg : option (list Z) := Some [5;5].
Definition ix0 (c : crossing) : Z := 100 * nth 0 (v_coord (cr_vertex c)) 0 + nth 1 (v_coord (cr_vertex c)) 0.
Definition e1a : vertex := vertex_cq [0;0] [0%Qc; 0%Qc].
Definition e1b : vertex := vertex_cq [1;0] [0%Qc; 0%Qc].
Definition e2b : vertex := vertex_cq [0;1] [0%Qc; 0%Qc].
Theorem c76_order_refuted : exists ix grid edges out out', cut_edges ix grid edges out /\ cut_edges ix grid edges out' /\ out <> out'.
Proof.
  exists ix0, sg, [(e1a, e1b); (e1a, e2b)].
  set (A := ([None; Some 0], (0, 100), 0) : cut_edge). set (B := ([Some 0; None], (0, 1), 1) : cut_edge).
  assert (E : map (fun '(i, (a, b)) => cut_edges_of ix0 sg a b i) (numbered [(e1a, e1b); (e1a, e2b)]) = [[A]; [B]]) by (vm_compute; reflexivity).
  exists [A; B], [B; A]. unfold cut_edges. rewrite E. split; [|split].
  - apply (ilv_step [] A [] [[B]]). apply (ilv_step [[]] B [] []). constructor. repeat constructor.
  - apply (ilv_step [[A]] B [] []). apply (ilv_step [] A [] [[]]). constructor. repeat constructor.
  - discriminate.
Qed.
Example c76_ex : cut_edges_of (fun c => match c with CV v => if qltb (qat (pos v) 0) 1%Qc then 1 else 2 | CE e => 3 + qfloor (Z2Qc 8 * ei_coord e)%Qc | _ => 0 end)
   sg va vb 7 = map (fun E => ([None; None], E, 7)) [(1, 4); (2, 9); (4, 7); (7, 8); (8, 9)].
Proof. vm_compute. reflexivity. Qed.

(** ** C77: parameters along an edge *)
Local Open Scope Qc_scope.
Lemma qdot_scale (t : Qc) (x : list Qc) : forall y, qdot (map (Qcmult t) x) y = t * qdot x y.
Proof.
  unfold qdot. induction x as [|a x IH]; intros [|b y]; simpl; try (unfold qsum; simpl; ring).
  rewrite !qsum_cons, IH. ring.
Qed.
Lemma qdot_nonneg x : 0 <= qdot x x.
Proof.
  unfold qdot. induction x as [|a x IH]; [discriminate|]. simpl. rewrite qsum_cons.
  generalize dependent (qsum (zipwith Qcmult x x)). intros s H. unfold Qcle in *. q_push. nra.
Qed.
Lemma qdot_zero x : qdot x x = 0 -> Forall (fun a => a = 0) x.
Proof.
  unfold qdot. induction x as [|a x IH]; constructor; simpl in *; rewrite qsum_cons in H.
  - assert (N := qdot_nonneg x). unfold qdot in N. generalize dependent (qsum (zipwith Qcmult x x)). intros s _ H N.
    assert (X : a * a = 0) by (assert (0 <= a * a) by (unfold Qcle; q_push; nra); assert (a * a <= 0) by qc_lra; apply Qcle_antisym; auto).
    apply Qcmult_integral in X. tauto.
  - apply IH. assert (N := qdot_nonneg x). unfold qdot in N. assert (0 <= a * a) by (unfold Qcle; q_push; nra). apply Qcle_antisym; auto. qc_lra.
Qed.
(** get_coord inverts the parametrisation: the point a + t (b - a) of a non-degenerate edge has coordinate t *)
Theorem c77_get_coord D a b v t : v_wf D a -> v_wf D b -> v_wf D v -> pos a <> pos b ->
  (forall d, (d < D)%nat -> qat (pos v) d = on_segment a b t d) -> get_coord a b v = t.
Proof.
  intros Wa Wb Wv N H. unfold get_coord. set (ba := zipwith Qcminus (pos b) (pos a)).
  assert (La := pos_length _ _ Wa). assert (Lb := pos_length _ _ Wb). assert (Lv := pos_length _ _ Wv).
  assert (E : zipwith Qcminus (pos v) (pos a) = map (Qcmult t) ba).
  { apply nth_error_ext. intros i. unfold ba. rewrite nth_error_map, !nth_error_zipwith.
    destruct (Nat.lt_ge_cases i D) as [Hi|Hi].
    - destruct (nth_error_lt _ (pos a) i ltac:(lia)) as [x Hx]. destruct (nth_error_lt _ (pos b) i ltac:(lia)) as [y Hy].
      destruct (nth_error_lt _ (pos v) i ltac:(lia)) as [z Hz]. rewrite Hx, Hy, Hz. simpl. f_equal.
      assert (X := H i Hi). unfold on_segment, qat in X. rewrite (nth_error_nth _ _ _ Hx), (nth_error_nth _ _ _ Hy), (nth_error_nth _ _ _ Hz) in X.
      rewrite X. ring.
    - rewrite (proj2 (nth_error_None (pos v) i)) by lia. rewrite (proj2 (nth_error_None (pos b) i)) by lia. reflexivity. }
  rewrite E, qdot_scale. field. intros Z. apply N. apply qdot_zero in Z. rewrite Forall_forall in Z.
  apply nth_error_ext. intros i. destruct (Nat.lt_ge_cases i D) as [Hi|Hi].
  - destruct (nth_error_lt _ (pos a) i ltac:(lia)) as [x Hx]. destruct (nth_error_lt _ (pos b) i ltac:(lia)) as [y Hy].
    assert (X : y - x = 0). { apply Z. apply nth_error_In with i. unfold ba. rewrite nth_error_zipwith, Hx, Hy. reflexivity. }
    rewrite Hx, Hy. f_equal. qc_lra.
  - rewrite !(proj2 (nth_error_None _ _)) by lia. reflexivity.
Qed.
Theorem c77_from_coord D a b idx t d : input_vertex D a -> input_vertex D b -> (d < D)%nat -> let e := from_coord a b idx t in
  ei_coord e = t /\ ei_index e = idx /\ v_wf D (ei_v e) /\ qat (pos (ei_v e)) d = on_segment a b t d /\ (pos a <> pos b -> get_coord a b (ei_v e) = t).
Proof.
  intros [Wa Na] [Wb Nb] Hd e. split; [reflexivity|]. split; [reflexivity|].
  assert (W : v_wf D (v_lerp a b t)) by (apply v_lerp_wf; auto).
  assert (P : pos (v_lerp a b t) = pos (pt a b t)).
  { unfold pt. rewrite (v_lerp_pos a b t D Wa Wb), (v_add_pos _ _ D), !(v_scale_pos _ _ D) by (try apply v_scale_wf; auto). reflexivity. }
  assert (NL := v_lerp_normalised a b t).
  assert (C := clamp_keeps W (M_length Wa Wb)). destruct C as [C1 C2].
  { intros i z B. apply (v_mask_pos _ _ W NL). assert (X := M_on_pt Wa Wb Na Nb t B).
    apply (v_mask_pos _ _ (pt_wf Wa Wb t) (pt_normalised a b t)) in X. rewrite P. exact X. }
  destruct (same_cq_pos _ _ C1 C2) as [P2 _].
  assert (WE : v_wf D (ei_v e)) by (unfold e, from_coord; cbn [ei_v]; apply clamp_vertex_wf; auto; apply (M_length Wa Wb)).
  assert (PE : forall i, (i < D)%nat -> qat (pos (ei_v e)) i = on_segment a b t i).
  { intros i Hi. unfold e, from_coord. cbn [ei_v]. rewrite P2, P. apply (pt_pos Wa Wb); auto. }
  split; auto. split; auto. intros N. apply (@c77_get_coord D); auto.
Qed.
(** get_edge_coord of a crossing that is an input vertex or a crossing inside a triangle, and lies on the edge: its parameter there; [is_a], [is_b] say that the crossing is that end of the edge *)
Theorem c77_vertices D a b (is_a is_b : bool) c t : v_wf D a -> v_wf D b -> v_wf D (cr_vertex c) -> pos a <> pos b ->
  (forall e, c <> CE e) -> (is_a = true -> cr_vertex c = a) -> (is_b = true -> cr_vertex c = b) ->
  (forall d, (d < D)%nat -> qat (pos (cr_vertex c)) d = on_segment a b t d) -> get_edge_coord a b is_a is_b c = t.
Proof.
  intros Wa Wb Wc N NE Ha Hb H. assert (G := c77_get_coord Wa Wb Wc N H).
  assert (Ga : cr_vertex c = a -> t = 0).
  { intros E. rewrite <- G, E. apply (@c77_get_coord D); auto. intros d _. unfold on_segment. ring. }
  assert (Gb : cr_vertex c = b -> t = 1).
  { intros E. rewrite <- G, E. apply (@c77_get_coord D); auto. intros d _. unfold on_segment. ring. }
  destruct c as [v|e|tr]; [|destruct (NE e eq_refl)|exact G]. unfold get_edge_coord. destruct is_a; [symmetry; auto|]. destruct is_b; [symmetry; auto|]. exact G.
Qed.
(** get_edge_coord on the points of the edge's own list *)
Theorem c77_own D grid a b idx e d : input_vertex D a -> input_vertex D b -> In e (bake_edge grid a b idx) -> (d < D)%nat ->
  qabs (qat (pos (ei_v e)) d - on_segment a b (get_edge_coord a b false false (CE e)) d) < bake_threshold grid + bake_threshold grid.
Proof. intros Ia Ib H Hd. destruct (@c74_points _ _ _ _ _ _ Ia Ib H) as (_ & _ & _ & _ & _ & _ & X & _). exact (X d Hd). Qed.
(** For a crossing that belongs to another input edge it returns the parameter on that other edge, even if the point also lies on the queried
    one: the point (1, 0), found on the edge (0,0)-(2,0), is at parameter 1/3 of the queried edge (0,0)-(3,0), but 1/2 is returned. *)
Definition o_a : vertex := vertex_cq [0;0]%Z [0;0].
Definition o_b : vertex := vertex_cq [2;0]%Z [0;0].
Definition o_c : vertex := vertex_cq [3;0]%Z [0;0].
Theorem c77_other_edge_refuted : exists e, In e (bake_edge sg o_a o_b 0) /\ pos (ei_v e) = [Z2Qc 1; 0] /\
  get_coord o_a o_c (ei_v e) = Q2Qc (1#3) /\ get_edge_coord o_a o_c false false (CE e) = Q2Qc (1#2).
Proof.
  exists (hd (mkEI o_a 0 0%Z) (bake_edge sg o_a o_b 0)).
  assert (X : forall (l : list edge_isect) e, length l = 1%nat -> In (hd e l) l) by (intros [|x l] e H; [discriminate|left; auto]).
  split; [apply X; vm_compute; reflexivity|].
  split; [|split; apply Qc_is_canon; vm_compute; reflexivity].
  assert (Y : forall l l' : list Qc, map this l = map this l' -> l = l').
  { induction l as [|x l IH]; intros [|y l'] E; auto; try discriminate. simpl in E. f_equal; [|apply IH; congruence].
    apply Qc_is_canon. replace (this x) with (this y) by congruence. apply Qeq_refl. }
  apply Y. vm_compute. reflexivity.
Qed.
(** is_cut() says "no intersections" *)
Theorem c77_is_cut_refuted : (forall es, is_cut es = true <-> es = []) /\ is_cut (bake_edge sg va vb 7) = false /\ length (bake_edge sg va vb 7) = 5%nat /\
  is_cut (bake_edge sg e1a e1b 0) = true.
Proof. split; [intros [|e es]; split; auto; discriminate|]. vm_compute. auto. Qed.
Example c77_ex : get_coord va vb (vertex_cq [2;1]%Z [0; Q2Qc (1#4)]) = Q2Qc (1#2) /\ pos va <> pos vb.
Proof. split; [apply Qc_is_canon; vm_compute; reflexivity|]. intros F. apply (f_equal (map this)) in F. vm_compute in F. discriminate. Qed.
