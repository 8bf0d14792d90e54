(** External boundary of cut faces and cut edges (C50) *)
From Verif Require Import Base Num CoordMask CoordMaskProofs Vertex VertexSpec VertexProofs PropsVertex Grid ActiveMask ExternalBoundary.
Set Implicit Arguments.
Local Open Scope Z_scope.

(** ** Specification *)
(** every vertex of the element lies on the grid plane "coordinate d = k" *)
Definition on_plane (V : Z -> vertex) (I : list Z) (d : nat) (k : Z) : Prop :=
  forall i, In i I -> nth_error (pos (V i)) d = Some (Z2Qc k).
(** (d,k) is the one grid plane holding the element *)
Definition only_plane (V : Z -> vertex) (I : list Z) (d : nat) (k : Z) : Prop :=
  on_plane V I d k /\ forall d' k', on_plane V I d' k' -> d' = d.
(** lo and hi are the two cells on either side of the plane (d,k) *)
Definition across (D d : nat) (k : Z) (lo hi : coord) : Prop :=
  length lo = D /\ length hi = D /\ nth_error lo d = Some (k - 1) /\ nth_error hi d = Some k /\
  forall j, j <> d -> nth_error lo j = nth_error hi j.
(** the closed cell c holds the element *)
Definition holds (V : Z -> vertex) (I : list Z) (c : coord) : Prop := forall i, In i I -> in_closed_cell c (pos (V i)).
(** an uncut cell of the grid *)
Definition uncut (s : list Z) (act : coord -> bool) (c : coord) : Prop := in_shape s c = true /\ act c = true.
Definition verts_ok (D : nat) (V : Z -> vertex) (I : list Z) : Prop := forall i, In i I -> v_wf D (V i) /\ normalised (V i).
(** the mask stored in a face names exactly its grid planes (C60) *)
Definition mask_exact (V : Z -> vertex) (I : list Z) (m : mask) : Prop :=
  forall d k, nth_error m d = Some (Some k) <-> on_plane V I d k.

(** ** Proofs *)
Lemma is_active_uncut s act c : is_active_cell s act c = true <-> uncut s act c.
Proof. unfold is_active_cell, uncut. apply andb_true_iff. Qed.

Lemma count_one_mask (m : mask) d : (d < length m)%nat -> (exists k, nth_error m d = Some (Some k)) ->
  (forall d' k', nth_error m d' = Some (Some k') -> d' = d) -> mask_count m = 1%nat.
Proof.
  unfold mask_count. revert d. induction m as [|o m IH]; intros d Hd (k & Hk) HU; [destruct d; discriminate|].
  destruct d as [|d]; cbn [nth_error] in Hk.
  - injection Hk as ->. cbn. f_equal. destruct (filter _ m) as [|x l] eqn:E; auto.
    exfalso. assert (H : In x (filter (@is_some Z) m)) by (rewrite E; cbn; auto). apply filter_In in H as [H1 H2].
    destruct x as [z|]; [|discriminate]. apply In_nth_error in H1 as (n & Hn). specialize (HU (S n) z Hn). discriminate.
  - assert (o = None). { destruct o as [z|]; auto. specialize (HU 0%nat z eq_refl). discriminate. }
    subst. cbn. apply (IH d); [cbn in Hd; lia|eauto|]. intros d' k' H. specialize (HU (S d') k' H). congruence.
Qed.
Lemma count_not_one (m : mask) : mask_count m = 1%nat -> exists d k, nth_error m d = Some (Some k) /\ forall d' k', nth_error m d' = Some (Some k') -> d' = d.
Proof.
  unfold mask_count. induction m as [|[z|] m IH]; cbn; [discriminate| |].
  - intros [= H]. exists 0%nat, z. split; auto. intros [|d'] k' H'; auto. exfalso. cbn in H'.
    apply nth_error_In in H'. assert (HI : In (Some k') (filter (@is_some Z) m)) by (apply filter_In; auto). destruct (filter _ m); [destruct HI|discriminate].
  - intros H. destruct (IH H) as (d & k & H1 & H2). exists (S d), k. split; auto. intros [|d'] k' H'; [discriminate|]. f_equal. eauto.
Qed.

Lemma holds_axis V I D c i : verts_ok D V I -> holds V I c -> In i I -> forall j p, nth_error (pos (V i)) j = Some p ->
  exists x, nth_error c j = Some x /\ (Z2Qc x <= p /\ p <= Z2Qc x + 1)%Qc.
Proof.
  intros OK H Hi j p Hp. specialize (H i Hi). unfold in_closed_cell in H. apply Forall2_nth in H as [HL H].
  destruct (nth_error c j) as [x|] eqn:E; [exists x; split; eauto|]. apply nth_error_None in E.
  assert (j < length (pos (V i)))%nat by (apply nth_error_Some; congruence). lia.
Qed.
Lemma holds_length V I D c i : verts_ok D V I -> holds V I c -> In i I -> length c = D.
Proof.
  intros OK H Hi. specialize (H i Hi). unfold in_closed_cell in H. apply Forall2_nth in H as [HL H].
  rewrite HL. apply pos_length. apply OK; auto.
Qed.

(** two closed unit intervals holding the same nonempty set of numbers either coincide or share one end point *)
Lemma unit_pair x y p : (Z2Qc x <= p /\ p <= Z2Qc x + 1)%Qc -> (Z2Qc y <= p /\ p <= Z2Qc y + 1)%Qc -> x < y -> y = x + 1 /\ p = Z2Qc y.
Proof.
  intros [A1 A2] [B1 B2] L. assert (y <= x + 1). { apply Z2Qc_le. rewrite Z2Qc_plus, Z2Qc_1. qc_lra. }
  assert (E : y = x + 1) by lia. split; auto. subst. rewrite Z2Qc_plus, Z2Qc_1 in *. qc_lra.
Qed.

Section Cells.
  Variables (V : Z -> vertex) (I : list Z) (D d : nat) (k : Z).
  Hypothesis OK : verts_ok D V I.
  Hypothesis NE : exists i, In i I.
  Hypothesis PL : only_plane V I d k.

  Lemma plane_axis : (d < D)%nat.
  Proof.
    destruct NE as [i Hi]. destruct PL as [H _]. specialize (H i Hi). destruct (OK i Hi) as [W _].
    assert (L := pos_length _ _ W). rewrite <- L. apply nth_error_Some. congruence.
  Qed.

  Lemma holds_across lo hi : across D d k lo hi -> (holds V I lo <-> holds V I hi).
  Proof.
    intros (L1 & L2 & E1 & E2 & EQ). destruct PL as [HP _].
    split; intros H i Hi; specialize (H i Hi); unfold in_closed_cell in *; apply Forall2_nth in H as [HL H]; apply Forall2_nth;
      (split; [congruence|]); intros j x p Hx Hp; destruct (Nat.eq_dec j d) as [->|N].
    - rewrite E2 in Hx; injection Hx as <-. rewrite (HP i Hi) in Hp. apply Some_inj in Hp. subst p. split; qc_lra.
    - rewrite <- EQ in Hx by auto. eauto.
    - rewrite E1 in Hx; injection Hx as <-. rewrite (HP i Hi) in Hp. apply Some_inj in Hp. subst p. rewrite Z2Qc_minus, Z2Qc_1. split; qc_lra.
    - rewrite EQ in Hx by auto. eauto.
  Qed.

  Lemma holds_only lo hi x : across D d k lo hi -> holds V I hi -> (holds V I x <-> x = lo \/ x = hi).
  Proof.
    intros HA HH. assert (HLo := proj2 (holds_across HA) HH). split; [|intros [->| ->]; auto].
    intros HX. destruct HA as (L1 & L2 & E1 & E2 & EQ). destruct NE as [i0 Hi0]. destruct PL as [HP HU].
    assert (LX := @holds_length V I D x i0 OK HX Hi0).
    assert (OFF : forall j, j <> d -> nth_error x j = nth_error hi j).
    { intros j N. destruct (nth_error hi j) as [h|] eqn:Eh.
      2:{ apply nth_error_None in Eh. apply nth_error_None. lia. }
      destruct (nth_error x j) as [y|] eqn:Ey.
      2:{ apply nth_error_None in Ey. assert (j < length hi)%nat by (apply nth_error_Some; congruence). lia. }
      f_equal. destruct (Z.lt_trichotomy y h) as [L|[?|L]]; auto; exfalso.
      - apply N, HU with (k' := h). intros i Hi. destruct (OK i Hi) as [W _].
        destruct (nth_error_lt _ (pos (V i)) j) as [p Hp]; [rewrite (pos_length _ _ W), <- L2; apply nth_error_Some; congruence|].
        destruct (@holds_axis V I D x i OK HX Hi _ _ Hp) as (y' & Y1 & Y2). destruct (@holds_axis V I D hi i OK HH Hi _ _ Hp) as (h' & H1 & H2).
        rewrite Ey in Y1. rewrite Eh in H1. injection Y1 as <-. injection H1 as <-. destruct (unit_pair Y2 H2 L) as [_ ->]. exact Hp.
      - apply N, HU with (k' := y). intros i Hi. destruct (OK i Hi) as [W _].
        destruct (nth_error_lt _ (pos (V i)) j) as [p Hp]; [rewrite (pos_length _ _ W), <- L2; apply nth_error_Some; congruence|].
        destruct (@holds_axis V I D x i OK HX Hi _ _ Hp) as (y' & Y1 & Y2). destruct (@holds_axis V I D hi i OK HH Hi _ _ Hp) as (h' & H1 & H2).
        rewrite Ey in Y1. rewrite Eh in H1. injection Y1 as <-. injection H1 as <-. destruct (unit_pair H2 Y2 L) as [_ ->]. exact Hp. }
    destruct (@holds_axis V I D x i0 OK HX Hi0 _ _ (HP i0 Hi0)) as (y & Y1 & Y2).
    assert (y = k \/ y = k - 1).
    { destruct (Z.lt_trichotomy y k) as [L|[?|L]]; auto.
      - destruct (@unit_pair y k (Z2Qc k)) as [-> _]; auto; [split; qc_lra|lia].
      - destruct (@unit_pair k y (Z2Qc k)) as [-> E]; auto; [split; qc_lra|]. apply Z2Qc_inj in E. lia. }
    destruct H as [->| ->]; [right|left]; apply nth_error_ext; intros j; destruct (Nat.eq_dec j d) as [->|N]; try congruence; auto.
    rewrite EQ; auto.
  Qed.
End Cells.

Lemma zlex_across D d k lo hi : across D d k lo hi -> zlex lo hi = Lt /\ first_diff lo hi = d.
Proof.
  intros (L1 & L2 & E1 & E2 & EQ). unfold zlex. revert D lo hi L1 L2 E1 E2 EQ. induction d as [|d' IH]; intros D [|x lo] [|y hi] L1 L2 E1 E2 EQ; try discriminate.
  - cbn in *. injection E1 as ->. injection E2 as ->. rewrite (proj2 (Z.compare_lt_iff (k - 1) k)) by lia. split; auto. destruct (Z.eqb_spec (k - 1) k); auto; lia.
  - assert (E := EQ 0%nat ltac:(lia)). cbn in E. injection E as ->. cbn in *. rewrite Z.compare_refl, Z.eqb_refl.
    assert (EQ' : forall j, j <> d' -> nth_error lo j = nth_error hi j) by (intros j N; apply (EQ (S j)); lia).
    destruct (IH (pred D) lo hi ltac:(lia) ltac:(lia) E1 E2 EQ') as [A B]. rewrite B; auto.
Qed.

Lemma pair_list (S : list coord) a b : ssorted zlex S -> zlex a b = Lt -> (forall x, In x S <-> x = a \/ x = b) -> S = [a; b].
Proof.
  intros H1 H2 H3. apply (ssorted_ext zlex_total); auto.
  - repeat constructor; auto.
  - intros x. rewrite H3. cbn. intuition.
Qed.
Lemma not_pair (S : list coord) : (forall x, ~ In x S) -> S = [].
Proof. destruct S as [|x S]; auto. intros H. exfalso. apply (H x); cbn; auto. Qed.

Lemma gen2_sorted V C S : gen_possible_cells2 V C = Some S -> ssorted zlex S.
Proof.
  destruct C as [|[|f l] t]; cbn [gen_possible_cells2]; [intros [= <-]; constructor|discriminate|]. intros H. apply Some_inj in H as <-.
  apply intersect_loop_sorted, v_possible_cells_sorted.
Qed.

Lemma face_cases : forall D s act V m C d k lo hi n, length s = D -> concat C <> [] -> (forall l, In l C -> l <> []) -> verts_ok D V (concat C) ->
  mask_exact V (concat C) m -> length m = D -> only_plane V (concat C) d k -> across D d k lo hi -> holds V (concat C) hi -> nth_error s d = Some n ->
  exists r, external3 s act V m C = Some r /\
    (k <= 0 \/ n <= k -> r = Some (-2)) /\
    (0 < k < n -> single_quad C = true -> uncut s act lo -> ~ uncut s act hi -> r = Some (ravel s lo)) /\
    (0 < k < n -> single_quad C = true -> uncut s act hi -> ~ uncut s act lo -> r = Some (ravel s hi)) /\
    (0 < k < n -> single_quad C = false -> r = None) /\
    (0 < k < n -> (uncut s act lo <-> uncut s act hi) -> r = None).
Proof.
  intros D s act V m C d k lo hi n Ls NE NEl OK ME Lm PL AC HH Hn. unfold external3.
  assert (NI : exists i, In i (concat C)) by (destruct (concat C) as [|i ?]; [congruence|exists i; cbn; auto]).
  assert (HD := plane_axis OK NI PL).
  assert (MC : mask_count m = 1%nat).
  { apply (@count_one_mask m d); [lia|exists k; apply ME, PL|]. intros d' k' H'. apply ME in H'. eapply PL; eauto. }
  rewrite MC. cbn [Nat.eqb].
  assert (W2 : forall l i, In l C -> In i l -> v_wf D (V i) /\ normalised (V i)) by (intros l i H1 H2; apply OK, in_concat; eauto).
  destruct (c06_generator_loops V D C W2) as [G1 G2].
  destruct (gen_possible_cells2 V C) as [S|] eqn:ES; [|exfalso; destruct (proj1 G1 eq_refl) as [t ->]; apply (NEl []); cbn; auto].
  assert (NC : C <> []) by (intros ->; apply NE; auto).
  specialize (G2 S eq_refl NC). destruct (zlex_across AC) as [LT FD].
  assert (ESS : S = [lo; hi]).
  { apply pair_list; auto; [eapply gen2_sorted; eauto|]. intros x. rewrite G2, <- (holds_only OK NI PL x AC HH). unfold holds. split.
    - intros H i Hi. apply in_concat in Hi as (l & H1 & H2). eauto.
    - intros H l i H1 H2. apply H, in_concat; eauto. }
  subst S. cbn zeta. rewrite FD. destruct AC as (L1 & L2 & E1 & E2 & EQ). rewrite E1, E2, Hn.
  destruct (Z.ltb_spec (k - 1) 0); [eexists; split; [reflexivity|]; repeat split; intros; auto; lia|].
  destruct (Z.leb_spec n k); [eexists; split; [reflexivity|]; repeat split; intros; auto; lia|].
  assert (ACT := is_active_uncut s act). destruct (single_quad C); [|eexists; split; [reflexivity|]; repeat split; intros; auto; try lia; discriminate].
  destruct (is_active_cell s act lo) eqn:EL, (is_active_cell s act hi) eqn:EH; cbn [xorb];
    assert (AL : uncut s act lo <-> is_active_cell s act lo = true) by (symmetry; apply ACT);
    assert (AH : uncut s act hi <-> is_active_cell s act hi = true) by (symmetry; apply ACT); rewrite EL in AL; rewrite EH in AH.
  - eexists; split; [reflexivity|]. repeat split; intros; auto; try lia; try discriminate; tauto.
  - rewrite (proj1 (proj2 AL eq_refl)). eexists; split; [reflexivity|]. split; [lia|]. split; [auto|]. split; [intros; exfalso; apply (proj1 AH) in H3; discriminate|]. split; [discriminate|].
    intros _ H3. exfalso. assert (H4 := proj1 AH (proj1 H3 (proj2 AL eq_refl))). discriminate.
  - rewrite (proj1 (proj2 AH eq_refl)). eexists; split; [reflexivity|]. split; [lia|]. split; [intros; exfalso; apply (proj1 AL) in H3; discriminate|]. split; [auto|]. split; [discriminate|].
    intros _ H3. exfalso. assert (H4 := proj1 AL (proj2 H3 (proj2 AH eq_refl))). discriminate.
  - eexists; split; [reflexivity|]. split; [lia|]. split; [intros; exfalso; apply (proj1 AL) in H3; discriminate|]. split; [intros; exfalso; apply (proj1 AH) in H3; discriminate|]. split; auto.
Qed.

(** the face is one loop of four vertices *)
Definition quadrilateral (C : list (list Z)) : Prop := exists a b c d, C = [[a; b; c; d]].
Lemma single_quad_spec C : single_quad C = true <-> quadrilateral C.
Proof.
  split; [|intros (a & b & c & d & ->); reflexivity]. unfold single_quad. destruct C as [|l [|l' t]]; try discriminate. intros H. apply Nat.eqb_eq in H. destruct l as [|a [|b [|c [|d [|e l]]]]]; try discriminate. exists a, b, c, d. auto.
Qed.
(** ** C50, 3D faces.  A face on exactly one grid plane whose vertices fit in a common cell: on or beyond the domain boundary it gets -2; between two grid cells it
    gets the index of the uncut one when it is a quadrilateral and exactly one of the two is uncut; otherwise it gets nothing. *)
Theorem c50_face : forall D s act V m C d k lo hi n, length s = D -> concat C <> [] -> (forall l, In l C -> l <> []) -> verts_ok D V (concat C) ->
  mask_exact V (concat C) m -> length m = D -> only_plane V (concat C) d k -> across D d k lo hi -> holds V (concat C) hi -> nth_error s d = Some n ->
  exists r, external3 s act V m C = Some r /\
    (k <= 0 \/ n <= k -> r = Some (-2)) /\
    (0 < k < n -> quadrilateral C -> uncut s act lo -> ~ uncut s act hi -> r = Some (ravel s lo)) /\
    (0 < k < n -> quadrilateral C -> uncut s act hi -> ~ uncut s act lo -> r = Some (ravel s hi)) /\
    (0 < k < n -> ~ quadrilateral C -> r = None) /\
    (0 < k < n -> (uncut s act lo <-> uncut s act hi) -> r = None).
Proof.
  intros D s act V m C d k lo hi n H1 H2 H3 H4 H5 H6 H7 H8 H9 H10. destruct (@face_cases D s act V m C d k lo hi n H1 H2 H3 H4 H5 H6 H7 H8 H9 H10) as (r & E & A1 & A2 & A3 & A4 & A5). exists r. split; auto. split; auto. rewrite <- single_quad_spec. split; auto. split; auto. split; auto. intros K N. apply A4; auto. destruct (single_quad C); auto. destruct N; auto.
Qed.

(** A face that lies on no grid plane, on several, or that fits in no single cell, gets no external boundary. *)
Theorem c50_interior : forall D s act V m C, length s = D -> (forall l, In l C -> l <> []) -> verts_ok D V (concat C) -> mask_exact V (concat C) m ->
  (~ (exists d k, only_plane V (concat C) d k) \/ (C <> [] /\ forall c, ~ holds V (concat C) c)) ->
  external3 s act V m C = Some None.
Proof.
  intros D s act V m C Ls NEl OK ME H. unfold external3. destruct (Nat.eqb_spec (mask_count m) 1) as [MC|]; auto.
  apply count_not_one in MC as (d & k & H1 & H2). destruct H as [H|[NC H]].
  - exfalso. apply H. exists d, k. split; [apply ME; auto|]. intros d' k' H'. apply (H2 d' k'), ME; auto.
  - assert (W2 : forall l i, In l C -> In i l -> v_wf D (V i) /\ normalised (V i)) by (intros l i A B; apply OK, in_concat; eauto).
    destruct (c06_generator_loops V D C W2) as [G1 G2].
    destruct (gen_possible_cells2 V C) as [S|] eqn:ES; [|exfalso; destruct (proj1 G1 eq_refl) as [t ->]; apply (NEl []); cbn; auto].
    specialize (G2 S eq_refl NC). rewrite (@not_pair S); auto. intros x Hx. apply (H x). intros i Hi. apply in_concat in Hi as (l & A & B). eapply G2; eauto.
Qed.

(** ** C50, signs in 3D: the external side of a face gets the opposite sign of the cut cell on its other side *)
Theorem c50_sign : forall cells f start i c sgn, nth_error cells i = Some c -> map_find Z.compare f c = Some sgn ->
  (forall j c', nth_error cells j = Some c' -> map_find Z.compare f c' <> None -> j = i) ->
  bake_sign cells f start = negb sgn.
Proof.
  intros cells f start i c sgn Hi Hf HU. unfold bake_sign.
  revert i start Hi HU. induction cells as [|c0 cells IH]; intros i start Hi HU; [destruct i; discriminate|]. cbn [fold_left].
  destruct i as [|i]; cbn [nth_error] in Hi.
  - injection Hi as ->. rewrite Hf.
    assert (K : forall j c', nth_error cells j = Some c' -> map_find Z.compare f c' = None).
    { intros j c' Hj. destruct (map_find Z.compare f c') eqn:E; auto. assert (S j = 0%nat) by (apply (HU (S j) c'); [auto|congruence]). lia. }
    clear -K. generalize (negb sgn) as acc. induction cells as [|c cells IH]; intros acc; cbn [fold_left]; auto.
    rewrite (K 0%nat c eq_refl). apply IH. intros j c' H. apply (K (S j) c' H).
  - apply (IH i); auto. intros j c' Hj Hn. assert (S j = S i) by (apply (HU (S j) c'); auto). lia.
Qed.
(** with no cut cell on the face the placeholder sign stays *)
Theorem c50_sign_unused : forall cells f start, (forall c, In c cells -> map_find Z.compare f c = None) -> bake_sign cells f start = start.
Proof. intros cells f start. unfold bake_sign. revert start. induction cells as [|c cells IH]; intros start H; cbn [fold_left]; auto. rewrite (H c) by (cbn; auto). apply IH. intros; apply H; cbn; auto. Qed.

(** ** C50, 2D edges *)
Lemma geometry_sorted V C S : geometry_possible_cells V C = Some S -> ssorted zlex S.
Proof.
  unfold geometry_possible_cells. destruct (container_mask (fun i => v_mask (V i)) C), (min_coord (fun i => v_coord (V i)) C); try discriminate. intros H. apply Some_inj in H as <-.
  apply possible_cells_sorted.
Qed.
Lemma geometry_defined V C : C <> [] -> exists S, geometry_possible_cells V C = Some S.
Proof. destruct C; [congruence|]. intros _. cbn. eauto. Qed.

Lemma edge_cells V D I d k lo hi : verts_ok D V I -> I <> [] -> only_plane V I d k -> across D d k lo hi -> holds V I hi ->
  geometry_possible_cells V I = Some [lo; hi].
Proof.
  intros OK NE PL AC HH. destruct (geometry_defined V NE) as [S ES]. rewrite ES. f_equal.
  assert (NI : exists i, In i I) by (destruct I as [|i ?]; [congruence|exists i; cbn; auto]).
  apply pair_list; [eapply geometry_sorted; eauto|apply (zlex_across AC)|].
  intros x. rewrite (geometry_cells_spec V D I S) by eauto. exact (holds_only OK NI PL x AC HH).
Qed.

Theorem c50_edge : forall s act V e d k lo hi n, length s = 2%nat -> e <> [] -> verts_ok 2 V e -> only_plane V e d k -> across 2 d k lo hi ->
  holds V e hi -> nth_error s d = Some n -> (0 < k < n -> in_shape s lo = true /\ in_shape s hi = true) ->
  exists r, boundary_pair2 s act V e = Some r /\
    (k <= 0 -> r = Some (-2, true)) /\ (0 < k -> n <= k -> r = Some (-2, false)) /\
    (0 < k < n -> uncut s act lo -> ~ uncut s act hi -> r = Some (ravel s lo, (d =? 1)%nat)) /\
    (0 < k < n -> uncut s act hi -> ~ uncut s act lo -> r = Some (ravel s hi, negb (d =? 1)%nat)) /\
    (0 < k < n -> (uncut s act lo <-> uncut s act hi) -> r = None).
Proof.
  intros s act V e d k lo hi n Ls NE OK PL AC HH Hn HIN. unfold boundary_pair2. rewrite (edge_cells OK NE PL AC HH).
  destruct (zlex_across AC) as [LT FD]. cbn zeta. rewrite FD. destruct AC as (L1 & L2 & E1 & E2 & EQ). rewrite E1, E2, Hn.
  destruct (Z.ltb_spec (k - 1) 0); [eexists; split; [reflexivity|]; repeat split; intros; auto; lia|].
  destruct (Z.leb_spec n k); [eexists; split; [reflexivity|]; repeat split; intros; auto; lia|].
  destruct (HIN ltac:(lia)) as [I1 I2]. rewrite !unravel_ravel by auto.
  assert (SG : (Z.of_nat d mod 2 =? 1) = (d =? 1)%nat).
  { assert (d < 2)%nat by (rewrite <- L1; apply nth_error_Some; congruence). destruct d as [|[|d']]; [reflexivity|reflexivity|lia]. }
  rewrite SG. unfold uncut. rewrite I1, I2.
  destruct (act lo), (act hi); cbn [xorb]; eexists; (split; [reflexivity|]);
    (split; [lia|]); (split; [lia|]); split; [intros; intuition congruence| |intros; intuition congruence| |intros; intuition congruence| |intros; intuition congruence|];
    (split; intros; intuition congruence).
Qed.

(** signed area of the triangle p q r (twice): positive when r is on the left of p -> q *)
Definition left_of (p q r : list Qc) : Prop :=
  match p, q, r with
  | [p0; p1], [q0; q1], [r0; r1] => (0 < (q0 - p0) * (r1 - p1) - (q1 - p1) * (r0 - p0))%Qc
  | _, _, _ => False
  end.
Definition cell_center (c : coord) : list Qc := map (fun x => (Z2Qc x + qhalf)%Qc) c.
(** the edge i -> j runs in the direction of increasing coordinates *)
Definition increasing (V : Z -> vertex) (i j : Z) : Prop :=
  exists a p q, nth_error (pos (V i)) a = Some p /\ nth_error (pos (V j)) a = Some q /\ (p < q)%Qc.

Lemma half_pos : (0 < qhalf /\ qhalf < 1)%Qc. Proof. split; reflexivity. Qed.
Lemma Qcmult_pos a b : (0 < a)%Qc -> (0 < b)%Qc -> (0 < a * b)%Qc.
Proof. intros A B. replace 0%Qc with (0 * b)%Qc by ring. apply Qcmult_lt_compat_r; auto. Qed.

(** The sign given to the uncut cell says on which side of the edge it lies: false (the sign of a counterclockwise loop running along the edge) exactly when the
    cell is on the left.  So the uncut cell and a cut face on the other side get opposite signs. *)
Theorem c50_edge_sign : forall s act V i j d k lo hi x sgn, length s = 2%nat -> verts_ok 2 V [i; j] -> only_plane V [i; j] d k -> across 2 d k lo hi -> holds V [i; j] hi ->
  in_shape s lo = true -> in_shape s hi = true -> increasing V i j ->
  boundary_pair2 s act V [i; j] = Some (Some (x, sgn)) -> 0 <= x ->
  exists c, (c = lo \/ c = hi) /\ uncut s act c /\ x = ravel s c /\ (sgn = false <-> left_of (pos (V i)) (pos (V j)) (cell_center c)).
Proof.
  intros s act V i j d k lo hi x sgn Ls OK PL AC HH I1 I2 INC HB Hx.
  assert (HD : (d < 2)%nat) by (destruct AC as (L1 & _ & E1 & _); rewrite <- L1; apply nth_error_Some; congruence).
  destruct (nth_error_lt _ s d) as [n Hn]; [lia|].
  destruct (@c50_edge s act V [i; j] d k lo hi n) as (r & ER & R1 & R2 & R3 & R4 & R5); auto; [discriminate|]. rewrite HB in ER. apply Some_inj in ER. subst r.
  assert (KR : 0 < k < n).
  { destruct (Z.le_gt_cases k 0); [specialize (R1 H); injection R1; lia|]. destruct (Z.le_gt_cases n k); [specialize (R2 ltac:(lia) H0); injection R2; lia|]. lia. }
  assert (BX : exists p0 p1 q0 q1, pos (V i) = [p0; p1] /\ pos (V j) = [q0; q1]).
  { destruct (OK i ltac:(cbn; auto)) as [Wi _]. destruct (OK j ltac:(cbn; auto)) as [Wj _]. apply pos_length in Wi. apply pos_length in Wj.
    destruct (pos (V i)) as [|p0 [|p1 [|? ?]]]; try discriminate. destruct (pos (V j)) as [|q0 [|q1 [|? ?]]]; try discriminate. do 4 eexists; eauto. }
  destruct BX as (p0 & p1 & q0 & q1 & EP & EQj). destruct INC as (a & p & q & A1 & A2 & A3).
  destruct PL as [HP HU]. assert (HPi := HP i ltac:(cbn; auto)). assert (HPj := HP j ltac:(cbn; auto)). rewrite EP in *. rewrite EQj in *.
  assert (HHi := HH i ltac:(cbn; auto)). rewrite EP in HHi. unfold in_closed_cell in HHi. apply Forall2_nth in HHi as [_ HHi].
  assert (HHj := HH j ltac:(cbn; auto)). rewrite EQj in HHj. unfold in_closed_cell in HHj. apply Forall2_nth in HHj as [_ HHj].
  destruct AC as (L1 & L2 & E1 & E2 & EQ). destruct lo as [|l0 [|l1 [|? ?]]]; try discriminate. destruct hi as [|h0 [|h1 [|? ?]]]; try discriminate.
  assert (HP2 := half_pos). destruct HP2 as [HA HB2].
  assert (CASES : (uncut s act [l0; l1] /\ ~ uncut s act [h0; h1]) \/ (uncut s act [h0; h1] /\ ~ uncut s act [l0; l1])).
  { destruct (is_active_cell s act [l0; l1]) eqn:UL, (is_active_cell s act [h0; h1]) eqn:UH.
    - specialize (R5 KR). rewrite <- !is_active_uncut, UL, UH in R5. specialize (R5 ltac:(tauto)). discriminate.
    - left. rewrite <- !is_active_uncut, UL, UH. split; auto; discriminate.
    - right. rewrite <- !is_active_uncut, UL, UH. split; auto; discriminate.
    - specialize (R5 KR). rewrite <- !is_active_uncut, UL, UH in R5. specialize (R5 ltac:(tauto)). discriminate. }
  destruct CASES as [[U1 U2]|[U1 U2]]; [specialize (R3 KR U1 U2)|specialize (R4 KR U1 U2)].
  - injection R3 as -> ->. exists [l0; l1]. do 3 (split; [auto|]). unfold left_of, cell_center; cbn [map].
    destruct d as [|[|d]]; [| |lia]; cbn in HPi, HPj, E1, E2; apply Some_inj in HPi, HPj; subst; injection E1 as ->; injection E2 as ->; cbn [Nat.eqb].
    + assert (EE := EQ 1%nat ltac:(lia)). cbn in EE. injection EE as ->. destruct a as [|[|a]]; cbn in A1, A2; try (destruct a; discriminate); apply Some_inj in A1, A2; subst p q; [qc_lra|].
      split; auto. intros _. match goal with |- (0 < ?t)%Qc => replace t with ((q1 - p1) * (1 - qhalf))%Qc by (rewrite Z2Qc_minus, Z2Qc_1; ring) end. apply Qcmult_pos; qc_lra.
    + assert (EE := EQ 0%nat ltac:(lia)). cbn in EE. injection EE as ->. destruct a as [|[|a]]; cbn in A1, A2; try (destruct a; discriminate); apply Some_inj in A1, A2; subst p q; [|qc_lra].
      split; [discriminate|]. intros H. exfalso. assert (K : (0 < (q0 - p0) * (1 - qhalf))%Qc) by (apply Qcmult_pos; qc_lra).
      match type of H with (0 < ?t)%Qc => replace t with (- ((q0 - p0) * (1 - qhalf)))%Qc in H by (rewrite Z2Qc_minus, Z2Qc_1; ring) end. qc_lra.
  - injection R4 as -> ->. exists [h0; h1]. do 3 (split; [auto|]). unfold left_of, cell_center; cbn [map].
    destruct d as [|[|d]]; [| |lia]; cbn in HPi, HPj, E1, E2; apply Some_inj in HPi, HPj; subst; injection E1 as ->; injection E2 as ->; cbn [Nat.eqb negb].
    + assert (EE := EQ 1%nat ltac:(lia)). cbn in EE. injection EE as ->. destruct a as [|[|a]]; cbn in A1, A2; try (destruct a; discriminate); apply Some_inj in A1, A2; subst p q; [qc_lra|].
      split; [discriminate|]. intros H. exfalso. assert (K : (0 < (q1 - p1) * qhalf)%Qc) by (apply Qcmult_pos; qc_lra).
      match type of H with (0 < ?t)%Qc => replace t with (- ((q1 - p1) * qhalf))%Qc in H by ring end. qc_lra.
    + assert (EE := EQ 0%nat ltac:(lia)). cbn in EE. injection EE as ->. destruct a as [|[|a]]; cbn in A1, A2; try (destruct a; discriminate); apply Some_inj in A1, A2; subst p q; [|qc_lra].
      split; auto. intros _. match goal with |- (0 < ?t)%Qc => replace t with ((q0 - p0) * qhalf)%Qc by ring end. apply Qcmult_pos; qc_lra.
Qed.

(** ** Non-vacuity: a unit square face between an uncut and a cut cell of a 4x4x4 grid, a face on the domain boundary, and 2D edges. *)
Definition c50_V (o : list coord) (i : Z) : vertex := vertex_of_coord (nth (Z.to_nat i) o [0; 0; 0]).
Definition c50_o : list coord := [[2; 1; 1]; [2; 2; 1]; [2; 2; 2]; [2; 1; 2]].
Example c50_ex_face : external3 [4; 4; 4] (fun c => 2 <=? nth 0 c 0) (c50_V c50_o) [Some 2; None; None] [[0; 1; 2; 3]] = Some (Some (ravel [4; 4; 4] [2; 1; 1])).
Proof. reflexivity. Qed.
Example c50_ex_domain : external3 [4; 4; 4] (fun _ => true) (c50_V [[0; 1; 1]; [0; 2; 1]; [0; 2; 2]; [0; 1; 2]]) [Some 0; None; None] [[0; 1; 2; 3]] = Some (Some (-2)).
Proof. reflexivity. Qed.
Example c50_ex_hyps : verts_ok 3 (c50_V c50_o) [0; 1; 2; 3] /\ only_plane (c50_V c50_o) [0; 1; 2; 3] 0 2 /\ across 3 0 2 [1; 1; 1] [2; 1; 1] /\
  holds (c50_V c50_o) [0; 1; 2; 3] [2; 1; 1] /\ mask_exact (c50_V c50_o) [0; 1; 2; 3] [Some 2; None; None].
Proof.
  assert (OP : on_plane (c50_V c50_o) [0; 1; 2; 3] 0 2) by (intros i [<-|[<-|[<-|[<-|[]]]]]; change (Some (Z2Qc 2 + 0)%Qc = Some (Z2Qc 2)); rewrite Qcplus_0_r; reflexivity).
  assert (NO1 : forall k, ~ on_plane (c50_V c50_o) [0; 1; 2; 3] 1 k).
  { intros k H. assert (A := H 0 ltac:(cbn; auto)). assert (B := H 1 ltac:(cbn; auto)). change (Some (Z2Qc 1 + 0)%Qc = Some (Z2Qc k)) in A. change (Some (Z2Qc 2 + 0)%Qc = Some (Z2Qc k)) in B. apply Some_inj in A, B. rewrite Qcplus_0_r in A, B. rewrite Z2Qc_inj in A, B. lia. }
  assert (NO2 : forall k, ~ on_plane (c50_V c50_o) [0; 1; 2; 3] 2 k).
  { intros k H. assert (A := H 0 ltac:(cbn; auto)). assert (B := H 2 ltac:(cbn; auto)). change (Some (Z2Qc 1 + 0)%Qc = Some (Z2Qc k)) in A. change (Some (Z2Qc 2 + 0)%Qc = Some (Z2Qc k)) in B. apply Some_inj in A, B. rewrite Qcplus_0_r in A, B. rewrite Z2Qc_inj in A, B. lia. }
  assert (NO3 : forall d k, ~ on_plane (c50_V c50_o) [0; 1; 2; 3] (S (S (S d))) k).
  { intros d k H. assert (A := H 0 ltac:(cbn; auto)). cbn in A. destruct d; discriminate. }
  assert (NO0 : forall k, on_plane (c50_V c50_o) [0; 1; 2; 3] 0 k -> k = 2).
  { intros k H. assert (A := H 0 ltac:(cbn; auto)). change (Some (Z2Qc 2 + 0)%Qc = Some (Z2Qc k)) in A. apply Some_inj in A. rewrite Qcplus_0_r in A. rewrite Z2Qc_inj in A. auto. }
  split; [|split; [|split; [|split]]].
  - intros i [<-|[<-|[<-|[<-|[]]]]]; (split; [repeat split|repeat constructor; discriminate]).
  - split; auto. intros [|[|[|d]]] k' H; auto; exfalso; [eapply NO1|eapply NO2|eapply NO3]; eauto.
  - do 4 (split; [reflexivity|]). intros [|[|[|j]]] N; auto; congruence.
  - intros i [<-|[<-|[<-|[<-|[]]]]]; repeat constructor; cbn; discriminate.
  - intros [|[|[|d]]] k; cbn [nth_error]; split; intros H.
    + injection H as <-. auto.
    + rewrite (NO0 _ H). reflexivity.
    + discriminate.
    + exfalso; eapply NO1; eauto.
    + discriminate.
    + exfalso; eapply NO2; eauto.
    + destruct d; discriminate.
    + exfalso; eapply NO3; eauto.
Qed.
Definition c50_V2 (o : list coord) (i : Z) : vertex := vertex_of_coord (nth (Z.to_nat i) o [0; 0]).
Example c50_ex_edge : boundary_pair2 [3; 3] (fun c => nth 0 c 0 =? 0) (c50_V2 [[1; 1]; [1; 2]]) [0; 1] = Some (Some (1, false)) /\
  boundary_pair2 [3; 3] (fun c => nth 1 c 0 =? 0) (c50_V2 [[1; 1]; [2; 1]]) [0; 1] = Some (Some (3, true)).
Proof. split; reflexivity. Qed.
Example c50_ex_increasing : increasing (c50_V2 [[1; 1]; [1; 2]]) 0 1.
Proof. exists 1%nat; cbn. do 2 eexists; split; [reflexivity|split; [reflexivity|reflexivity]]. Qed.
Example c50_ex_sign : bake_sign [[(3, true); (5, false)]; [(4, true); (7, true)]] 7 false = false /\ bake_sign [[(3, true); (5, false)]; [(4, true); (7, true)]] 5 false = true.
Proof. split; reflexivity. Qed.
