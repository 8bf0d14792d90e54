(** Active grid cell mask (C49) *)
From Verif Require Import Base Num CoordMask Vertex VertexSpec VertexProofs VertexTypes Grid GridEdges GridEdgesSpec GridEdgesProofs ActiveMask.
From Coq Require Import Permutation.
Set Implicit Arguments.
Local Open Scope Z_scope.

(** Specification: a crossing touches the cell, i.e. lies in its closed unit cube. *)
Definition touched (crossings : list vertex) (c : coord) : Prop := exists v, In v crossings /\ in_closed_cell c (pos v).
(** The grid edge of direction i starting at a is one of the edges of the cell c. *)
Definition edge_of_cell (i : nat) (a c : coord) : Prop :=
  length a = length c /\
  forall j x y, nth_error a j = Some x -> nth_error c j = Some y -> if (j =? i)%nat then x = y else x = y \/ x = y + 1.
(** Some crossing lies on the open grid edge of direction i starting at a. *)
Definition crossing_on_edge (crossings : list vertex) (i : nat) (a : coord) : Prop :=
  exists v t, In v crossings /\ on_open_edge a i t (pos v).
Definition crossings_ok (D : nat) (crossings : list vertex) : Prop :=
  forall v, In v crossings -> v_wf D v /\ normalised v /\ flags_exact v.

(** ** Proofs *)
Lemma touched_cells_In D v x : v_wf D v -> normalised v ->
  (In x (touched_cells (v_coord v) (v_quot v)) <-> in_closed_cell x (pos v)).
Proof.
  intros (A1 & A2 & _) HN. unfold normalised in HN. unfold in_closed_cell, pos.
  revert A1 A2 HN. generalize (v_coord v) (v_quot v). clear v. intros c. revert D x.
  induction c as [|a c IH]; intros D x [|y q] A1 A2 HN; cbn [touched_cells zipwith length] in *; subst; try discriminate.
  - split; [intros [<-|[]]; constructor|]. intros H; inversion H; cbn; auto.
  - inversion HN as [|? ? Hy Hq']; subst. injection A2 as A2.
    assert (HI : forall x, In x (touched_cells c q) <-> Forall2 (fun ci pi => (Z2Qc ci <= pi /\ pi <= Z2Qc ci + 1)%Qc) x (zipwith (fun c q => (Z2Qc c + q)%Qc) c q)) by (intros; eapply IH; eauto).
    assert (HM : forall z, In x (map (cons z) (touched_cells c q)) <-> exists x', x = z :: x' /\ In x' (touched_cells c q)).
    { intros z. rewrite in_map_iff. split; intros (x' & E1 & E2); eauto. }
    split.
    + intros H. assert (E : exists z x', x = z :: x' /\ In x' (touched_cells c q) /\ (z = a \/ (y = 0%Qc /\ z = a - 1))).
      { destruct (qeqb y 0%Qc) eqn:E.
        - apply qeqb_eq in E. apply in_app_iff in H as [H|H]; apply HM in H as (x' & -> & H); do 2 eexists; eauto.
        - apply HM in H as (x' & -> & H); do 2 eexists; eauto. }
      destruct E as (z & x' & -> & H1 & H2). constructor; [|apply HI; auto]. apply cell_axis; auto.
    + intros H. inversion H as [|z p x' ps H1 H2]; subst. apply cell_axis in H1; auto. apply HI in H2.
      destruct (qeqb y 0%Qc) eqn:E.
      * apply in_app_iff. destruct H1 as [->|[_ ->]]; [left|right]; apply HM; eauto.
      * apply qeqb_neq in E. destruct H1 as [->|[? _]]; [|contradiction]. apply HM; eauto.
Qed.

Lemma own_cell D v : v_wf D v -> normalised v -> in_closed_cell (v_coord v) (pos v).
Proof.
  intros W N. apply (touched_cells_In (D := D)); auto. destruct W as (A1 & A2 & _). revert A1 A2.
  generalize (v_coord v) (v_quot v). clear. intros c. revert D. induction c as [|a c IH]; intros D [|y q]; cbn; intros; subst; try discriminate; auto.
  assert (H : In c (touched_cells c q)) by (eapply IH; [reflexivity|lia]).
  destruct (qeqb y 0%Qc); [apply in_app_iff; left|]; apply in_map; auto.
Qed.

Lemma active_cells_In D crs c : crossings_ok D crs -> (In c (active_cells crs) <-> touched crs c).
Proof.
  intros OK. unfold active_cells. rewrite (set_of_list_In zlex_total), in_flat_map. unfold touched, add_cells.
  split; intros (v & Hv & H); exists v; split; auto; destruct (OK v Hv) as (W & N & _).
  - destruct H as [<-|H]; [eapply own_cell; eauto|]. eapply touched_cells_In; eauto.
  - right. eapply touched_cells_In; eauto.
Qed.

Lemma all_bitsets_In D bs : In bs (all_bitsets D) <-> length bs = D.
Proof.
  revert bs; induction D as [|D IH]; intros bs; cbn.
  - split; [intros [<-|[]]; auto|]. destruct bs; [auto|discriminate].
  - rewrite in_app_iff, !in_map_iff. split.
    + intros [(x & <- & H)|(x & <- & H)]; cbn; f_equal; apply IH; auto.
    + destruct bs as [|[|] bs]; [discriminate| |]; intros [=]; [right|left]; exists bs; split; auto; apply IH; auto.
Qed.

Lemma nth_nth_error_bool (l : list bool) i b : nth_error l i = Some b -> nth i l false = b.
Proof. revert i; induction l; destruct i; cbn; intros; try discriminate; auto. congruence. Qed.

Lemma nth_error_combine_Some (A B : Type) (l : list A) : forall (m : list B) i x y, nth_error l i = Some x -> nth_error m i = Some y -> nth_error (combine l m) i = Some (x, y).
Proof. induction l as [|a l IH]; intros [|b m] [|i] x y; cbn; intros; try discriminate; [congruence|auto]. Qed.

Lemma cell_edge_bases_In i a c : In a (cell_edge_bases i c) <-> edge_of_cell i a c.
Proof.
  unfold cell_edge_bases, edge_of_cell. rewrite in_map_iff. split.
  - intros (bs & <- & H). apply filter_In in H as [H HN]. apply all_bitsets_In in H.
    rewrite zipwith_length by auto. split; auto. intros j x y Hx Hy.
    rewrite nth_error_zipwith, Hy in Hx. destruct (nth_error bs j) as [b|] eqn:Eb; [|discriminate]. injection Hx as <-.
    destruct (Nat.eqb_spec j i) as [->|_].
    + apply nth_nth_error_bool in Eb. rewrite Eb in HN. destruct b; [discriminate|auto].
    + destruct b; auto.
  - intros [HL H]. exists (map (fun '(x, y) => negb (x =? y)) (combine a c)). split.
    + apply nth_error_ext. intros j. rewrite nth_error_zipwith, nth_error_map.
      destruct (nth_error a j) as [x|] eqn:Ex, (nth_error c j) as [y|] eqn:Ey.
      * rewrite (nth_error_combine_Some _ _ _ Ex Ey). cbn. specialize (H j x y Ex Ey). f_equal.
        destruct (Z.eqb_spec x y); cbn; auto. destruct (Nat.eqb_spec j i); lia.
      * apply nth_error_None in Ey. assert (j < length a)%nat by (apply nth_error_Some; congruence). lia.
      * apply nth_error_None in Ex. assert (j < length c)%nat by (apply nth_error_Some; congruence). lia.
      * reflexivity.
    + apply filter_In. split; [apply all_bitsets_In; rewrite map_length, combine_length; lia|].
      destruct (nth_error a i) as [x|] eqn:Ex.
      * destruct (nth_error c i) as [y|] eqn:Ey; [|apply nth_error_None in Ey; assert (i < length a)%nat by (apply nth_error_Some; congruence); lia].
        rewrite (@nth_nth_error_bool _ i (negb (x =? y))) by (rewrite nth_error_map, (nth_error_combine_Some _ _ _ Ex Ey); auto).
        specialize (H i x y Ex Ey). rewrite Nat.eqb_refl in H. subst. rewrite Z.eqb_refl. reflexivity.
      * apply nth_error_None in Ex. rewrite nth_overflow; auto. rewrite map_length, combine_length. lia.
Qed.

Lemma interleaving_In ls ws : interleaving ls ws -> forall w, In w ws <-> exists l, In l ls /\ In w l.
Proof.
  induction 1 as [ls H|ls1 w l ls2 ws H IH]; intros x.
  - split; [intros []|]. intros (l & H1 & H2). rewrite Forall_forall in H. rewrite (H l H1) in H2. auto.
  - cbn [In]. rewrite IH. split.
    + intros [<-|(l' & H1 & H2)]; [exists (w :: l); split; [apply in_app_iff; cbn; auto|cbn; auto]|].
      apply in_app_iff in H1 as [H1|[<-|H1]]; [exists l'|exists (w :: l)|exists l']; (split; [apply in_app_iff; cbn; auto|cbn; auto]).
    + intros (l' & H1 & H2). apply in_app_iff in H1 as [H1|[<-|H1]].
      * right; exists l'; split; auto. apply in_app_iff; auto.
      * destruct H2 as [<-|H2]; auto. right; exists l; split; auto. apply in_app_iff; cbn; auto.
      * right; exists l'; split; auto. apply in_app_iff; cbn; auto.
Qed.

Lemma ceqb_eq a b : ceqb a b = true <-> a = b.
Proof. unfold ceqb. destruct (zlex a b) eqn:E. 1: apply (tc_eq zlex_total) in E; tauto.
  all: split; [discriminate|]; intros ->; rewrite (proj2 (tc_eq zlex_total b b) eq_refl) in E; discriminate. Qed.

Lemma run_mask ws st c : ms_mask (fold_left do_write ws st) c = true <-> ms_mask st c = true /\ ~ In (MaskFalse c) ws.
Proof.
  revert st; induction ws as [|w ws IH]; intros st; cbn [fold_left In]; [tauto|]. rewrite IH. destruct w as [x|i a]; cbn [do_write ms_mask].
  - destruct (ceqb c x) eqn:E.
    + apply ceqb_eq in E as ->. split; [intros [? _]; discriminate|]. intros [_ H]. exfalso; auto.
    + assert (x <> c) by (intros ->; assert (ceqb c c = true) by (apply ceqb_eq; auto); congruence).
      split; intros [H1 H2]; split; auto. intros [[=]|?]; auto.
  - split; intros [H1 H2]; split; auto. intros [[=]|?]; auto.
Qed.
Lemma run_edges ws st i a : In a (ms_edges (fold_left do_write ws st) i) <-> In a (ms_edges st i) \/ In (TouchEdge i a) ws.
Proof.
  revert st; induction ws as [|w ws IH]; intros st; cbn [fold_left In]; [tauto|]. rewrite IH. destruct w as [x|j b]; cbn [do_write ms_edges].
  - split; [intros [?|?]|intros [?|[[=]|?]]]; auto.
  - destruct (Nat.eqb_spec i j) as [->|N].
    + rewrite (set_insert_In zlex_total). split; [intros [[->|?]|?]|intros [?|[[= ->]|?]]]; auto.
    + split; [intros [?|?]|intros [?|[[= -> ->]|?]]]; auto. contradiction.
Qed.

Lemma schedule_In D s crs ws w : schedule D s crs ws ->
  (In w ws <-> exists i c, (i < D)%nat /\ In c (active_cells crs) /\ in_shape s c = true /\
     (w = MaskFalse c \/ exists a, w = TouchEdge i a /\ In a (cell_edge_bases i c))).
Proof.
  intros H. rewrite (interleaving_In H). unfold axis_writes. split.
  - intros (l & H1 & H2). apply in_map_iff in H1 as (i & <- & Hi). apply in_seq in Hi.
    apply in_flat_map in H2 as (c & Hc & H2). destruct (in_shape s c) eqn:E; [|destruct H2].
    exists i, c. do 3 (split; [auto; lia|]). destruct H2 as [<-|H2]; auto. apply in_map_iff in H2 as (a & <- & Ha). eauto.
  - intros (i & c & Hi & Hc & E & H2). eexists. split; [apply in_map_iff; exists i; split; [reflexivity|apply in_seq; lia]|].
    apply in_flat_map. exists c. split; auto. rewrite E. destruct H2 as [->|(a & -> & Ha)]; cbn; auto. right. apply in_map; auto.
Qed.

(** C49: whatever the order in which the threads write, a grid cell is left to the exterior grid (mask true) exactly when it is inside
    the grid and no crossing (input vertex, edge or triangle intersection) lies in its closed cube; cells outside the grid never count. *)
Theorem c49_mask : forall D s crs ws c, (0 < D)%nat -> crossings_ok D crs -> schedule D s crs ws ->
  (is_active_cell s (ms_mask (run_writes D crs ws)) c = true <-> in_shape s c = true /\ ~ touched crs c).
Proof.
  intros D s crs ws c HD OK HS. unfold is_active_cell, run_writes. rewrite andb_true_iff, run_mask. cbn [initial ms_mask].
  rewrite (schedule_In _ HS). split; intros [H1 H2]; split; auto.
  - intros HT. destruct H2 as [_ H2]. apply H2. exists 0%nat, c. rewrite (active_cells_In c OK). auto.
  - split; auto. intros (i & x & Hi & Hx & E & [[= <-]|(a & [=] & _)]). rewrite (active_cells_In c OK) in Hx. auto.
Qed.

(** C49: the grid edges that get subdivided are the edges carrying a crossing and the edges of the cut cells of the grid *)
Theorem c49_edges : forall D s crs ws i a, (i < D)%nat -> length s = D -> crossings_ok D crs -> schedule D s crs ws -> length a = D ->
  (In a (ms_edges (run_writes D crs ws) i) <->
   crossing_on_edge crs i a \/ exists c, in_shape s c = true /\ touched crs c /\ edge_of_cell i a c).
Proof.
  intros D s crs ws i a Hi Ls OK HS La. unfold run_writes. rewrite run_edges. cbn [initial ms_edges].
  rewrite (set_of_list_In zlex_total), in_map_iff, (schedule_In _ HS).
  assert (E1 : (exists x, v_coord x = a /\ In x (filter (fun v => on_grid_edge D i (v_coord v) v) crs)) <-> crossing_on_edge crs i a).
  { split.
    - intros (v & <- & H). apply filter_In in H as [H1 H2]. destruct (OK v H1) as (W & N & F).
      destruct (nth_error (v_quot v) i) as [t|] eqn:Et.
      + exists v, t. split; auto. apply (on_grid_edge_spec D i (v_coord v) v t); auto.
      + exfalso. apply nth_error_None in Et. destruct W as (_ & W2 & _). lia.
    - intros (v & t & H1 & H2). destruct (OK v H1) as (W & N & F). apply (on_grid_edge_spec D i a v t) in H2 as [H2 H3]; auto.
      assert (E : v_coord v = a). { unfold on_grid_edge in H2. apply andb_true_iff in H2 as [_ H2]. apply zlex_eqb in H2; auto. }
      exists v; split; auto. apply filter_In. rewrite E; auto. }
  rewrite E1. split; intros [H|H]; auto; right.
  - destruct H as (j & c & Hj & Hc & E & [[=]|(b & [= <- <-] & Hb)]). exists c. split; auto. split; [apply (active_cells_In c OK); auto|].
    apply cell_edge_bases_In; auto.
  - destruct H as (c & E & HT & HE). exists i, c. split; auto. split; [apply (active_cells_In c OK); auto|]. split; auto.
    right. exists a. split; auto. apply cell_edge_bases_In; auto.
Qed.

(** C49: the parallel loop is deterministic *)
Theorem c49_schedule_independent : forall D s crs ws ws' c, schedule D s crs ws -> schedule D s crs ws' ->
  ms_mask (run_writes D crs ws) c = ms_mask (run_writes D crs ws') c /\
  forall i a, In a (ms_edges (run_writes D crs ws) i) <-> In a (ms_edges (run_writes D crs ws') i).
Proof.
  intros D s crs ws ws' c H H'. assert (HI : forall w, In w ws <-> In w ws') by (intros w; rewrite (schedule_In w H), (schedule_In w H'); tauto).
  split.
  - apply eq_true_iff_eq. unfold run_writes. rewrite !run_mask, HI. tauto.
  - intros i a. unfold run_writes. rewrite !run_edges, HI. tauto.
Qed.

(** Non-vacuity: a 3x2 grid with a crossing on a vertical grid line and one inside a cell, and two different schedules. *)
Definition c49_crs : list vertex :=
  [mkVertex [1; 0] [0%Qc; Q2Qc (1 # 3)] [true; false]; mkVertex [0; 1] [Q2Qc (1 # 2); Q2Qc (1 # 2)] [false; false];
   mkVertex [0; 5] [0%Qc; Q2Qc (1 # 2)] [true; false]].
Definition c49_seq : list write := concat (map (axis_writes [3; 2] (active_cells c49_crs)) (seq 0 2)).
Lemma interleaving_concat ls : interleaving ls (concat ls).
Proof.
  assert (H : forall ls1 l ls2, Forall (fun l => l = []) ls1 -> interleaving (ls1 ++ [] :: ls2) (concat ls2) -> interleaving (ls1 ++ l :: ls2) (l ++ concat ls2)).
  { intros ls1 l ls2 H1 H2. induction l as [|w l IH]; cbn [app]; auto. apply il_step; auto. }
  assert (G : forall ls1 ls, Forall (fun l => l = []) ls1 -> interleaving (ls1 ++ ls) (concat ls)).
  { intros ls1 ls'. revert ls1. induction ls' as [|l ls' IH]; intros ls1 H1; cbn [concat]; [constructor; rewrite app_nil_r; auto|].
    apply H; auto. replace (ls1 ++ [] :: ls') with ((ls1 ++ [[]]) ++ ls') by (rewrite <- app_assoc; auto).
    apply IH. apply Forall_app; split; auto. }
  apply (G []); constructor.
Qed.
Example c49_ex_schedule : schedule 2 [3; 2] c49_crs c49_seq /\ length c49_seq = 18%nat.
Proof. split; [apply interleaving_concat|reflexivity]. Qed.
Example c49_ex_mask : map (is_active_cell [3; 2] (ms_mask (run_writes 2 c49_crs c49_seq))) (all_coords [3; 2]) = [false; false; false; true; true; true].
Proof. reflexivity. Qed.
Example c49_ex_ok : crossings_ok 2 c49_crs.
Proof.
  intros v Hv. assert (HQ : (0 <= Q2Qc (1 # 3) /\ Q2Qc (1 # 3) < 1)%Qc /\ (0 <= Q2Qc (1 # 2) /\ Q2Qc (1 # 2) < 1)%Qc /\ (0 <= 0 /\ 0 < 1)%Qc /\ Q2Qc (1 # 3) <> 0%Qc /\ Q2Qc (1 # 2) <> 0%Qc) by (repeat split; discriminate).
  destruct HQ as (A & B & C & E & F).
  destruct Hv as [<-|[<-|[<-|[]]]]; (split; [repeat split|split; [repeat constructor; cbn; tauto|repeat constructor; cbn; intros; try discriminate; try congruence; auto]]).
Qed.
