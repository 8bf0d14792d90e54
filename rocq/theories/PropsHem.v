(** C99 (boundary edges of the uncut part of a slice) and C100 (which loops of a slice are tied together). *)
From Verif Require Import Base Num CoordMask CoordMaskSpec CoordMaskProofs Vertex VertexSpec VertexProofs VertexTypes Grid GridEdges SmallestEdge SubGrid
  SubGridProofs Hem.
From Coq Require Import Permutation.
Set Implicit Arguments.
Local Open Scope Z_scope.

(** * Specification *)
(** the cell (x,y) exists and is cut (mask entry false) *)
Definition cut_cell2 (nx ny : Z) (m : coord -> bool) (x y : Z) : Prop := 0 <= x < nx /\ 0 <= y < ny /\ m [x; y] = false.
(** exactly one of the two *)
Definition one_of (P Q : Prop) : Prop := (P /\ ~ Q) \/ (~ P /\ Q).
(** the edge between the neighbouring grid vertices p and q separates a cut cell from something else *)
Definition separates (nx ny : Z) (m : coord -> bool) (p q : Z * Z) : Prop :=
  let '(x, y) := p in
  (q = (x, y + 1) /\ one_of (cut_cell2 nx ny m (x - 1) y) (cut_cell2 nx ny m x y)) \/
  (q = (x + 1, y) /\ one_of (cut_cell2 nx ny m x (y - 1)) (cut_cell2 nx ny m x y)).
Definition vertex_ok (nx ny : Z) (p : Z * Z) : Prop := 0 <= fst p <= nx /\ 0 <= snd p <= ny.
(** StaggeredGrid::vertex_index of a 2D vertex *)
Definition vindex2 (nx ny : Z) (p : Z * Z) : Z := ravel [nx + 1; ny + 1] [fst p; snd p].

(** * Lemmas *)
Lemma edge_cmp_total : TotalCmp edge_cmp.
Proof. apply pair_cmp_total; apply Zcompare_total. Qed.

Lemma om_spec nx ny m x y : outside_or_masked [nx; ny] m [x; y] = false <-> cut_cell2 nx ny m x y.
Proof.
  unfold outside_or_masked, cut_cell2; simpl. destruct (m [x; y]);
    rewrite ?orb_true_r, ?orb_false_r, ?andb_true_r; rewrite ?negb_false_iff, ?andb_true_iff;
    repeat (rewrite Z.leb_le || rewrite Z.ltb_lt); intuition (lia || congruence).
Qed.

Lemma om_xor nx ny m x y x' y' :
  xorb (outside_or_masked [nx; ny] m [x; y]) (outside_or_masked [nx; ny] m [x'; y']) = true <->
  one_of (cut_cell2 nx ny m x' y') (cut_cell2 nx ny m x y).
Proof.
  unfold one_of. rewrite <- !om_spec.
  destruct (outside_or_masked _ _ [x; y]), (outside_or_masked _ _ [x'; y']); simpl; intuition congruence.
Qed.

Lemma ravel2 nx ny x y : ravel [nx; ny] [x; y] = x * ny + y.
Proof. simpl. lia. Qed.

Lemma in_vshape nx ny x y : in_shape (vshape [nx; ny]) [x; y] = true <-> 0 <= x <= nx /\ 0 <= y <= ny.
Proof. simpl. rewrite !andb_true_iff. repeat (rewrite Z.leb_le || rewrite Z.ltb_lt). lia. Qed.

Lemma all_coords2 nx ny c : In c (all_coords (vshape [nx; ny])) <-> exists x y, c = [x; y] /\ 0 <= x <= nx /\ 0 <= y <= ny.
Proof.
  rewrite all_coords_In. split.
  - intros H. assert (HL := in_shape_length _ _ H). destruct c as [|x [|y [|]]]; try discriminate. apply in_vshape in H. eauto.
  - intros (x & y & -> & H). apply in_vshape; auto.
Qed.

Lemma grid_edge2 nx ny x y i : (i < 2)%nat ->
  get_grid_edge (vshape [nx; ny]) [x; y] (1 - i) = (x * (ny + 1) + y, x * (ny + 1) + y + (if (i =? 0)%nat then 1 else ny + 1)).
Proof. intros H. destruct i as [|[|]]; [| |lia]; unfold get_grid_edge; simpl; f_equal; lia. Qed.

Lemma mbe_In nx ny m e : 0 <= nx -> 0 <= ny ->
  In e (mask_boundary_edges [nx; ny] m) <-> exists x y, 0 <= x <= nx /\ 0 <= y <= ny /\
    ((e = (x * (ny + 1) + y, x * (ny + 1) + y + 1) /\ one_of (cut_cell2 nx ny m (x - 1) y) (cut_cell2 nx ny m x y)) \/
     (e = (x * (ny + 1) + y, x * (ny + 1) + y + (ny + 1)) /\ one_of (cut_cell2 nx ny m x (y - 1)) (cut_cell2 nx ny m x y))).
Proof.
  intros Hx Hy. unfold mask_boundary_edges. rewrite (set_of_list_In edge_cmp_total), in_flat_map. split.
  - intros (c & Hc & He). apply all_coords2 in Hc as (x & y & -> & HX & HY). apply in_flat_map in He as (i & Hi & He).
    exists x, y. repeat (split; [lia|]).
    destruct Hi as [<-|[<-|[]]]; (match type of He with In _ (if ?b then _ else _) => destruct b eqn:EX end; [|destruct He]);
      destruct He as [<-|[]]; unfold coord_dec in EX; apply om_xor in EX; rewrite grid_edge2 by lia; simpl; [left|right]; split; auto;
      (rewrite (proj2 (Z.ltb_ge _ _)) by lia); auto.
  - intros (x & y & HX & HY & HE). exists [x; y]. split; [apply all_coords2; eauto|].
    apply in_flat_map. destruct HE as [[-> HE]|[-> HE]]; apply om_xor in HE; [exists 0%nat|exists 1%nat]; (split; [simpl; auto|]);
      unfold coord_dec; rewrite HE; rewrite grid_edge2 by lia; simpl; rewrite (proj2 (Z.ltb_ge _ _)) by lia; auto.
Qed.

(** C99. The boundary edges are exactly the grid edges with a cut cell on exactly one side; both ends are vertices of the grid and the
    smaller index comes first. *)
Theorem c99_boundary_edges : forall nx ny m a b, 0 <= nx -> 0 <= ny ->
  (In (a, b) (mask_boundary_edges [nx; ny] m) <->
   exists p q, vertex_ok nx ny p /\ vertex_ok nx ny q /\ a = vindex2 nx ny p /\ b = vindex2 nx ny q /\ separates nx ny m p q) /\
  (In (a, b) (mask_boundary_edges [nx; ny] m) -> a < b).
Proof.
  intros nx ny m a b Hx Hy. split; [|intros H; apply mbe_In in H as (x & y & H1 & H2 & [[E _]|[E _]]); auto; injection E; lia].
  rewrite mbe_In by auto. unfold vertex_ok, vindex2, separates. split.
  - intros (x & y & HX & HY & [[E HS]|[E HS]]); pose proof HS as HS'; unfold one_of, cut_cell2 in HS'; injection E as -> ->.
    + exists (x, y), (x, y + 1). unfold fst, snd. rewrite !ravel2. repeat (split; [lia|]). left; auto.
    + exists (x, y), (x + 1, y). unfold fst, snd. rewrite !ravel2. repeat (split; [lia|]). right; auto.
  - intros ((x & y) & q & HP & HQ & -> & -> & [[-> HS]|[-> HS]]); unfold fst, snd in *; rewrite !ravel2; exists x, y;
      repeat (split; [lia|]); [left|right]; split; auto; f_equal; lia.
Qed.

Definition meets (k : Z) (e : edge) : bool := (fst e =? k) || (snd e =? k).

Lemma sep_ny nx ny m x y x' y' : one_of (cut_cell2 nx ny m x y) (cut_cell2 nx ny m x' y') -> 0 < nx /\ 0 < ny.
Proof. unfold one_of, cut_cell2. intros [[H _]|[_ H]]; lia. Qed.

Lemma filter_meets nx ny m x y : 0 <= x <= nx -> 0 <= y <= ny -> 0 < ny ->
  let r := x * (ny + 1) + y in
  let om := outside_or_masked [nx; ny] m in
  Permutation (filter (meets r) (mask_boundary_edges [nx; ny] m))
    ((if xorb (om [x; y]) (om [x - 1; y]) then [(r, r + 1)] else []) ++
     (if xorb (om [x; y - 1]) (om [x - 1; y - 1]) then [(r - 1, r)] else []) ++
     (if xorb (om [x; y]) (om [x; y - 1]) then [(r, r + (ny + 1))] else []) ++
     (if xorb (om [x - 1; y]) (om [x - 1; y - 1]) then [(r - (ny + 1), r)] else [])).
Proof.
  intros HX HY Hn r om. apply NoDup_Permutation.
  - apply NoDup_filter. apply set_of_list_NoDup, edge_cmp_total.
  - destruct (xorb (om [x; y]) _), (xorb (om [x; y - 1]) _), (xorb (om [x; y]) _), (xorb (om [x - 1; y]) _); simpl;
      repeat constructor; simpl; intros HH; repeat (destruct HH as [HH|HH]; [injection HH; intros; lia|]); auto.
  - intros [a b]. rewrite filter_In, mbe_In by lia. unfold meets; simpl fst; simpl snd. rewrite orb_true_iff, !Z.eqb_eq.
    rewrite !in_app_iff.
    assert (K : forall (c : bool) (e e' : edge), In e (if c then [e'] else []) <-> c = true /\ e = e').
    { intros c e e'. destruct c; simpl; intuition congruence. }
    rewrite !K. unfold om. rewrite !om_xor. subst r. split.
    + intros ((x' & y' & HX' & HY' & HE) & HK).
      destruct HE as [[E HS]|[E HS]]; injection E as -> ->; pose proof HS as HS'; unfold one_of, cut_cell2 in HS'.
      * assert (y' < ny) by lia. destruct HK as [HK|HK].
        -- assert (x' = x) by nia. assert (y' = y) by nia. subst. left; auto.
        -- assert (x' = x) by nia. assert (y' = y - 1) by nia. subst. right; left. split; auto. f_equal; lia.
      * destruct HK as [HK|HK].
        -- assert (x' = x) by nia. assert (y' = y) by nia. subst. right; right; left. split; auto.
        -- assert (x' = x - 1) by nia. assert (y' = y) by nia. subst. right; right; right. split; auto. f_equal; lia.
    + intros HH. split.
      * destruct HH as [[HS E]|[[HS E]|[[HS E]|[HS E]]]]; injection E as -> ->; pose proof HS as HS'; unfold one_of, cut_cell2 in HS'.
        -- exists x, y. repeat (split; [lia|]). left; auto.
        -- exists x, (y - 1). repeat (split; [lia|]). left; split; auto. f_equal; lia.
        -- exists x, y. repeat (split; [lia|]). right; auto.
        -- exists (x - 1), y. repeat (split; [lia|]). right; split; auto. f_equal; lia.
      * destruct HH as [[_ E]|[[_ E]|[[_ E]|[_ E]]]]; injection E as -> ->; lia.
Qed.

(** C99. The boundary edges form closed curves: every grid vertex (every index at all) meets an even number of them. *)
Theorem c99_even_degree : forall nx ny m k, 0 <= nx -> 0 <= ny ->
  Nat.Even (length (filter (meets k) (mask_boundary_edges [nx; ny] m))).
Proof.
  intros nx ny m k Hx Hy.
  destruct (filter (meets k) (mask_boundary_edges [nx; ny] m)) as [|e l] eqn:E; [exists 0%nat; auto|].
  assert (HI : In e (filter (meets k) (mask_boundary_edges [nx; ny] m))) by (rewrite E; simpl; auto).
  apply filter_In in HI as [HI HK]. destruct e as [a b].
  apply (proj1 (@c99_boundary_edges nx ny m a b Hx Hy)) in HI as (p & q & HP & HQ & -> & -> & HS).
  assert (HN : 0 < nx /\ 0 < ny). { unfold separates in HS. destruct p as [px py]. destruct HS as [[_ HS]|[_ HS]]; eapply sep_ny; eauto. }
  assert (HXY : exists x y, 0 <= x <= nx /\ 0 <= y <= ny /\ k = x * (ny + 1) + y).
  { unfold meets, vindex2 in HK. rewrite !ravel2 in HK. simpl fst in HK; simpl snd in HK. unfold vertex_ok in HP, HQ.
    destruct p as [px py], q as [qx qy]; simpl in *. apply orb_true_iff in HK as [HK|HK]; apply Z.eqb_eq in HK; subst k; [exists px, py|exists qx, qy]; intuition lia. }
  destruct HXY as (x & y & HX & HY & ->).
  rewrite <- E. rewrite (Permutation_length (filter_meets m HX HY (proj2 HN))).
  set (o1 := outside_or_masked _ m [x; y]). set (o2 := outside_or_masked _ m [x - 1; y]).
  set (o3 := outside_or_masked _ m [x; y - 1]). set (o4 := outside_or_masked _ m [x - 1; y - 1]).
  destruct o1, o2, o3, o4; simpl; (exists 0%nat; reflexivity) || (exists 1%nat; reflexivity) || (exists 2%nat; reflexivity).
Qed.

(** C99, adaptive mode: exactly the given edges whose two ends lie on a common face of the domain. *)
Lemma on_domain_plane_spec s m : length s = length m ->
  on_domain_plane s m = true <-> exists i n v, nth_error s i = Some n /\ nth_error m i = Some (Some v) /\ (v = 0 \/ v = n).
Proof.
  revert m. induction s as [|n s IH]; intros [|o m] HL; try discriminate; simpl.
  - split; [discriminate|]. intros ([|] & ? & ? & H & _); discriminate.
  - rewrite orb_true_iff, IH by (simpl in HL; lia). split.
    + intros [H|(i & n' & v & H1 & H2 & H3)].
      * destruct o as [v|]; [|discriminate]. exists 0%nat, n, v. simpl. apply orb_true_iff in H. rewrite !Z.eqb_eq in H. auto.
      * exists (S i), n', v; auto.
    + intros ([|i] & n' & v & H1 & H2 & H3); simpl in H1, H2.
      * injection H1 as ->. injection H2 as ->. left. apply orb_true_iff. rewrite !Z.eqb_eq. auto.
      * right; eauto 10.
Qed.

Lemma v_mask_pos_binds D v i z : v_wf D v -> normalised v -> binds (v_mask v) i z <-> nth_error (pos v) i = Some (Z2Qc z).
Proof.
  intros W N. destruct (le_lt_dec D i) as [Hi|Hi].
  - split; intros H; exfalso.
    + unfold binds in H. apply nth_error_Some_lt in H. rewrite (v_mask_length D v W) in H. lia.
    + apply nth_error_Some_lt in H. rewrite (pos_length D v W) in H. lia.
  - destruct (pos_nth_wf D v i W Hi) as (c & q & b & H1 & H2 & H3 & H4). rewrite (v_mask_binds v i c q H1 H2).
    rewrite H4. split.
    + intros [-> ->]. f_equal. ring.
    + intros E. apply Some_inj in E. destruct (normalised_integral v i c q z N H1 H2 E). auto.
Qed.

Theorem c99_adaptive : forall D s GV E e, length s = D -> (forall a, v_wf D (GV a) /\ normalised (GV a)) ->
  In e (adaptive_boundary_edges s GV E) <->
  In e E /\ exists i n v, nth_error s i = Some n /\ (v = 0 \/ v = n) /\
    nth_error (pos (GV (fst e))) i = Some (Z2Qc v) /\ nth_error (pos (GV (snd e))) i = Some (Z2Qc v).
Proof.
  intros D s GV E e HL HV. unfold adaptive_boundary_edges. rewrite (set_of_list_In edge_cmp_total), filter_In.
  destruct (HV (fst e)) as [W1 N1], (HV (snd e)) as [W2 N2].
  assert (L1 := v_mask_length D _ W1). assert (L2 := v_mask_length D _ W2).
  rewrite on_domain_plane_spec by (unfold mask_and; rewrite zipwith_length; congruence).
  split.
  - intros [HE (i & n & v & H1 & H2 & H3)]. split; auto. exists i, n, v. repeat (split; auto).
    + apply (@v_mask_pos_binds D (GV (fst e)) i v W1 N1). apply (proj1 (mask_and_binds (v_mask (GV (fst e))) (v_mask (GV (snd e))) i v ltac:(congruence))). exact H2.
    + apply (@v_mask_pos_binds D (GV (snd e)) i v W2 N2). apply (proj1 (mask_and_binds (v_mask (GV (fst e))) (v_mask (GV (snd e))) i v ltac:(congruence))). exact H2.
  - intros [HE (i & n & v & H1 & H2 & H3 & H4)]. split; auto. exists i, n, v. repeat (split; auto).
    apply (mask_and_binds (v_mask (GV (fst e))) (v_mask (GV (snd e))) i v ltac:(congruence)).
    split; [apply (@v_mask_pos_binds D (GV (fst e)) i v W1 N1)|apply (@v_mask_pos_binds D (GV (snd e)) i v W2 N2)]; auto.
Qed.

(** ** The slice in the volume *)
(** j is the index of the grid vertex of the volume that is vertex p of the slice cidx of axis dim *)
Definition slice_vertex (s3 : list Z) (dim : nat) (cidx : Z) (p : Z * Z) (j : Z) : Prop :=
  exists c3, length c3 = 3%nat /\ nth_error c3 dim = Some cidx /\ nth_error c3 ((dim + 1) mod 3) = Some (fst p) /\
             nth_error c3 ((dim + 2) mod 3) = Some (snd p) /\ j = ravel s3 c3.
(** the vertex shape of the volume: its slice has cell shape nx, ny, and cidx is a plane of the grid *)
Definition slice_shape (s3 : list Z) (dim : nat) (nx ny cidx : Z) : Prop :=
  (dim < 3)%nat /\ length s3 = 3%nat /\ pos_shape s3 /\ nth_error s3 ((dim + 1) mod 3) = Some (nx + 1) /\
  nth_error s3 ((dim + 2) mod 3) = Some (ny + 1) /\ exists n, nth_error s3 dim = Some n /\ 0 <= cidx < n.

Lemma slice_upgrade s3 dim nx ny cidx x y : slice_shape s3 dim nx ny cidx -> 0 <= x <= nx -> 0 <= y <= ny ->
  exists j, upgrade_index [nx + 1; ny + 1] s3 dim cidx (ravel [nx + 1; ny + 1] [x; y]) = Some j /\ slice_vertex s3 dim cidx (x, y) j /\
  forall j', slice_vertex s3 dim cidx (x, y) j' -> j' = j.
Proof.
  intros (Hd & HL & HP & H1 & H2 & n & H3 & H4) HX HY. unfold upgrade_index. rewrite unravel_ravel by (apply in_vshape; lia).
  apply len3 in HL as (a & b & c & ->). axis3 dim; cbn [upgrade list_set nth_error all_some Nat.add Nat.modulo Nat.divmod fst snd Nat.sub option_map]; eexists; (split; [reflexivity|]);
    (split; [eexists; split; [|split; [|split; [|split; [|reflexivity]]]]; reflexivity|]);
    intros j' (c3 & L3 & E1 & E2 & E3 & ->); apply len3 in L3 as (u & v & w & ->); simpl in E1, E2, E3; congruence.
Qed.

Lemma slice_mono s3 dim nx ny cidx x y x' y' j j' : slice_shape s3 dim nx ny cidx -> 
  slice_vertex s3 dim cidx (x, y) j -> slice_vertex s3 dim cidx (x', y') j' -> x <= x' -> y <= y' -> (x, y) <> (x', y') -> j < j'.
Proof.
  intros (Hd & HL & HP & H1 & H2 & n & H3 & H4) (c & L & E1 & E2 & E3 & ->) (c' & L' & E1' & E2' & E3' & ->) HX HY HN.
  apply len3 in HL as (s1 & s2 & s3' & ->). apply len3 in L as (u & v & w & ->). apply len3 in L' as (u' & v' & w' & ->).
  unfold pos_shape in HP. repeat match goal with H : Forall _ (_ :: _) |- _ => inversion H; clear H; subst end.
  assert (x < x' \/ y < y') by (destruct (Z.eq_dec x x'), (Z.eq_dec y y'); subst; try lia; congruence).
  axis3 dim; simpl in *; injection E1 as ->; injection E2 as ->; injection E3 as ->;
    injection E1' as ->; injection E2' as ->; injection E3' as ->; clear HN; rewrite ?Z.mul_1_r, ?Z.add_0_r;
    try (assert (0 < s2 * s3') by (apply Z.mul_pos_pos; lia); remember (s2 * s3') as K eqn:EK; clear EK);
    destruct H; try (remember (cidx * K)); try (remember (cidx * s3')); nia.
Qed.

Lemma vshape2 nx ny : vshape [nx; ny] = [nx + 1; ny + 1]. Proof. reflexivity. Qed.

Lemma embed_edges_In s3 dim nx ny cidx m a b : slice_shape s3 dim nx ny cidx -> 0 <= nx -> 0 <= ny ->
  In (a, b) (embed_edges [nx + 1; ny + 1] s3 dim cidx (mask_boundary_edges [nx; ny] m)) <->
  exists p q, vertex_ok nx ny p /\ vertex_ok nx ny q /\ separates nx ny m p q /\ slice_vertex s3 dim cidx p a /\ slice_vertex s3 dim cidx q b.
Proof.
  intros HS Hx Hy. unfold embed_edges. rewrite (set_of_list_In edge_cmp_total), in_flat_map. split.
  - intros ([u v] & HE & HI). apply (proj1 (@c99_boundary_edges nx ny m u v Hx Hy)) in HE as ((x & y) & (x' & y') & HP & HQ & -> & -> & HSEP).
    destruct HP as [P1 P2], HQ as [Q1 Q2]; simpl fst in *; simpl snd in *.
    destruct (slice_upgrade HS P1 P2) as (j & J1 & J2 & _). destruct (slice_upgrade HS Q1 Q2) as (j' & J1' & J2' & _).
    unfold embed_edge, vindex2 in HI; cbn [fst snd] in HI. rewrite J1, J1' in HI. destruct HI as [E|[]]. injection E as <- <-.
    exists (x, y), (x', y'). unfold vertex_ok; simpl fst; simpl snd. intuition lia.
  - intros ((x & y) & (x' & y') & HP & HQ & HSEP & HA & HB).
    exists (vindex2 nx ny (x, y), vindex2 nx ny (x', y')). split; [apply c99_boundary_edges; auto; eauto 10|].
    destruct HP as [P1 P2], HQ as [Q1 Q2]; simpl fst in *; simpl snd in *.
    destruct (slice_upgrade HS P1 P2) as (j & J1 & _ & J3). destruct (slice_upgrade HS Q1 Q2) as (j' & J1' & _ & J3').
    unfold embed_edge, vindex2; cbn [fst snd]. rewrite J1, J1'. left. f_equal; symmetry; auto.
Qed.

Lemma edge_mem_In e es : edge_mem e es = true <-> In e es.
Proof.
  unfold edge_mem. rewrite existsb_exists. split.
  - intros (x & H & E). destruct (edge_cmp e x) eqn:EE; try discriminate. apply (tc_eq edge_cmp_total) in EE. subst; auto.
  - intros H. exists e. split; auto. rewrite (tc_refl edge_cmp_total). auto.
Qed.

(** C99. Translated to the volume, a boundary edge still has its smaller index first, so that the look-up with sorted ends decides exactly
    whether every side of a loop is a boundary edge of the slice. *)
Theorem c99_is_boundary_cell : forall s3 dim nx ny cidx m C, slice_shape s3 dim nx ny cidx -> 0 <= nx -> 0 <= ny ->
  let bes := embed_edges [nx + 1; ny + 1] s3 dim cidx (mask_boundary_edges [nx; ny] m) in
  (forall a b, In (a, b) bes -> a < b) /\
  (is_boundary_cell bes C = true <->
   forall i u v, nth_error C i = Some u -> nth_error C (if (S i =? length C)%nat then 0 else S i) = Some v ->
     exists p q, vertex_ok nx ny p /\ vertex_ok nx ny q /\ separates nx ny m p q /\
       ((slice_vertex s3 dim cidx p u /\ slice_vertex s3 dim cidx q v) \/ (slice_vertex s3 dim cidx p v /\ slice_vertex s3 dim cidx q u))).
Proof.
  intros s3 dim nx ny cidx m C HS Hx Hy bes.
  assert (HO : forall a b, In (a, b) bes -> a < b).
  { intros a b H. apply (embed_edges_In m a b HS Hx Hy) in H as ((x & y) & q & HP & HQ & HSEP & HA & HB).
    destruct HSEP as [[-> HSEP]|[-> HSEP]]; (eapply (slice_mono HS HA HB); [lia|lia|intros E; injection E; lia]). }
  split; auto. unfold is_boundary_cell. rewrite forallb_forall.
  assert (HN : forall i u, nth_error C i = Some u -> vat C i = u) by (intros i u H; unfold vat; apply nth_error_nth; auto).
  assert (HM : forall i, (i < length C)%nat -> ((i + 1) mod length C = if (S i =? length C)%nat then 0 else S i)%nat).
  { intros i Hi. destruct (Nat.eqb_spec (S i) (length C)) as [E|E].
    - replace (i + 1)%nat with (length C) by lia. apply Nat.mod_same. lia.
    - rewrite Nat.mod_small by lia. lia. }
  assert (HK : forall u v, edge_mem (sort_edge (u, v)) bes = true <-> exists p q, vertex_ok nx ny p /\ vertex_ok nx ny q /\ separates nx ny m p q /\
       ((slice_vertex s3 dim cidx p u /\ slice_vertex s3 dim cidx q v) \/ (slice_vertex s3 dim cidx p v /\ slice_vertex s3 dim cidx q u))).
  { intros u v. rewrite edge_mem_In. unfold sort_edge. split.
    - destruct (v <? u); intros H; apply (embed_edges_In m _ _ HS Hx Hy) in H as (p & q & H); exists p, q; tauto.
    - intros (p & q & H1 & H2 & H3 & [[H4 H5]|[H4 H5]]).
      + assert (HI : In (u, v) bes) by (apply (embed_edges_In m _ _ HS Hx Hy); eauto 10). specialize (HO _ _ HI).
        destruct (Z.ltb_spec v u); [lia|auto].
      + assert (HI : In (v, u) bes) by (apply (embed_edges_In m _ _ HS Hx Hy); eauto 10). specialize (HO _ _ HI).
        destruct (Z.ltb_spec v u); [auto|lia]. }
  split.
  - intros H i u v Hu Hv. apply HK. rewrite <- (HN _ _ Hu), <- (HN _ _ Hv). assert (Hi := nth_error_Some_lt _ _ _ _ Hu).
    rewrite <- HM by auto. apply H. apply in_seq. lia.
  - intros H i Hi. apply in_seq in Hi. apply HK.
    destruct (nth_error_lt _ C i) as [u Hu]; [lia|].
    destruct (nth_error_lt _ C ((i + 1) mod length C)) as [v Hv]; [apply Nat.mod_upper_bound; lia|].
    rewrite (HN _ _ Hu), (HN _ _ Hv). apply (H i); auto. rewrite <- HM by lia. auto.
Qed.

(** a 1 x 1 slice whose only cell is cut: its four sides are the boundary, and the loop around it in the volume is recognised *)
Example c99_witness :
  mask_boundary_edges [1; 1] (fun _ => false) = [(0, 1); (0, 2); (1, 3); (2, 3)] /\
  slice_shape [2; 2; 2] 1 1 1 1 /\
  is_boundary_cell (embed_edges [2; 2] [2; 2; 2] 1 1 (mask_boundary_edges [1; 1] (fun _ => false))) [2; 3; 7; 6] = true /\
  is_boundary_cell (embed_edges [2; 2] [2; 2; 2] 1 1 (mask_boundary_edges [1; 1] (fun _ => false))) [2; 7; 6] = false.
Proof.
  split; [reflexivity|]. split; [|split; reflexivity].
  unfold slice_shape, pos_shape. repeat split; try lia; try reflexivity; [repeat constructor; lia|]. exists 2. split; [reflexivity|lia].
Qed.

(** * C100 *)
Theorem c100_vertex_cells : forall v x, v_wf 2 v -> normalised v -> flags_exact v ->
  In x (vertex_cells2 v) <-> in_closed_cell x (pos v).
Proof.
  intros v x (H1 & H2 & H3) HN HF. unfold vertex_cells2. rewrite (set_of_list_In zlex_total).
  destruct v as [c q b]; simpl in *. apply len2 in H1 as (c0 & c1 & ->). apply len2 in H2 as (q0 & q1 & ->). apply len2 in H3 as (b0 & b1 & ->).
  unfold normalised in HN; unfold flags_exact in HF; simpl in *.
  inversion HN as [|? ? N0 HN']; subst. inversion HN' as [|? ? N1 _]; subst.
  inversion HF as [|? ? ? ? F0 HF']; subst. inversion HF' as [|? ? ? ? F1 _]; subst.
  unfold pos, in_closed_cell; simpl. unfold is_grid_vertex; simpl.
  assert (K : Forall2 (fun ci pi => Z2Qc ci <= pi /\ pi <= Z2Qc ci + 1)%Qc x [(Z2Qc c0 + q0)%Qc; (Z2Qc c1 + q1)%Qc] <->
     exists x0 x1, x = [x0; x1] /\ (x0 = c0 \/ (q0 = 0%Qc /\ x0 = c0 - 1)) /\ (x1 = c1 \/ (q1 = 0%Qc /\ x1 = c1 - 1))).
  { split.
    - intros H. inversion H as [|x0 ? xs ? A0 H']; subst. inversion H' as [|x1 ? ys ? A1 H'']; subst. inversion H''; subst.
      exists x0, x1. split; auto. split; apply cell_axis; auto.
    - intros (x0 & x1 & -> & A0 & A1). constructor; [apply cell_axis; auto|]. constructor; [apply cell_axis; auto|constructor]. }
  rewrite K. clear K HN HN' HF HF'.
  rewrite !in_app_iff. split.
  - intros [<-|[H|[H|H]]]; [exists c0, c1; auto| | |].
    + destruct b0; [|destruct H]. destruct H as [<-|[]]. exists (c0 - 1), c1. assert (q0 = 0%Qc) by (apply F0; auto). auto.
    + destruct b1; [|destruct H]. destruct H as [<-|[]]. exists c0, (c1 - 1). assert (q1 = 0%Qc) by (apply F1; auto). auto.
    + destruct b0, b1; simpl in H; try destruct H. subst x. exists (c0 - 1), (c1 - 1).
      assert (q0 = 0%Qc) by (apply F0; auto). assert (q1 = 0%Qc) by (apply F1; auto). auto. contradiction.
  - intros (x0 & x1 & -> & [-> | [Q0 ->]] & [-> | [Q1 ->]]); auto.
    + right; right; left. apply F1 in Q1. rewrite Q1. simpl; auto.
    + right; left. apply F0 in Q0. rewrite Q0. simpl; auto.
    + right; right; right. apply F0 in Q0. apply F1 in Q1. rewrite Q0, Q1. simpl; auto.
Qed.

Lemma cc_step_sorted vc m h : ssorted Z.compare (keys m) -> ssorted Z.compare (keys (cell_coords_step vc m h)).
Proof. intros H. unfold cell_coords_step. destruct (map_find _ _ _); apply map_set_sorted; auto using Zcompare_total. Qed.

Lemma cell_coords_find vc hes k : forall m, ssorted Z.compare (keys m) ->
  map_find Z.compare k (fold_left (cell_coords_step vc) hes m) =
  match map_find Z.compare k m, map snd (filter (fun h => fst h =? k) hes) with
  | Some cs, vs => Some (fold_left (fun cs v => set_intersection cs (vc v)) vs cs)
  | None, [] => None
  | None, v :: vs => Some (fold_left (fun cs v => set_intersection cs (vc v)) vs (vc v))
  end.
Proof.
  induction hes as [|[c v] hes IH]; intros m HS; simpl.
  - destruct (map_find _ k m); auto.
  - rewrite IH by (apply cc_step_sorted; auto). unfold cell_coords_step; simpl fst; simpl snd.
    destruct (Z.eqb_spec c k) as [->|HN].
    + destruct (map_find Z.compare k m) as [cs|] eqn:E; rewrite (map_find_set Zcompare_total) by auto; rewrite Z.compare_refl; reflexivity.
    + assert (HC : (k ?= c) <> Eq) by (rewrite Z.compare_eq_iff; auto).
      destruct (map_find Z.compare c m) as [cs|] eqn:E; rewrite (map_find_set Zcompare_total) by auto; destruct (k ?= c); auto; contradiction.
Qed.

Lemma fold_inter_In (vc : Z -> list coord) vs : forall cs x, In x (fold_left (fun cs v => set_intersection cs (vc v)) vs cs) <-> In x cs /\ forall v, In v vs -> In x (vc v).
Proof.
  induction vs as [|v vs IH]; intros cs x; simpl; [intuition|]. rewrite IH, set_intersection_In. split.
  - intros [[H1 H2] H3]. split; auto. intros w [<-|Hw]; auto.
  - intros [H1 H2]. split; auto.
Qed.

(** C100. The grid cells recorded for a loop are those whose closed square contains all its vertices; exactly the cells of the half-edges
    have an entry. *)
Theorem c100_cell_coords : forall GV hes k,
  (forall c v, In (c, v) hes -> v_wf 2 (GV v) /\ normalised (GV v) /\ flags_exact (GV v)) ->
  match map_find Z.compare k (hem_cell_coords (fun v => vertex_cells2 (GV v)) hes) with
  | Some cs => (exists v, In (k, v) hes) /\ forall x, In x cs <-> forall v, In (k, v) hes -> in_closed_cell x (pos (GV v))
  | None => forall v, ~ In (k, v) hes
  end.
Proof.
  intros GV hes k HV. unfold hem_cell_coords. rewrite cell_coords_find by constructor. simpl.
  assert (HF : forall v, In v (map snd (filter (fun h => fst h =? k) hes)) <-> In (k, v) hes).
  { intros v. rewrite in_map_iff. split.
    - intros ([c w] & <- & H). apply filter_In in H as [H E]. apply Z.eqb_eq in E; simpl in E; subst; auto.
    - intros H. exists (k, v). split; auto. apply filter_In. split; auto. apply Z.eqb_refl. }
  destruct (map snd (filter (fun h => fst h =? k) hes)) as [|v vs] eqn:E.
  - intros v H. apply HF in H. destruct H.
  - split; [exists v; apply HF; simpl; auto|]. intros x. rewrite fold_inter_In. split.
    + intros [H1 H2] w Hw. destruct (HV _ _ Hw) as (W & N & F). apply c100_vertex_cells; auto.
      apply HF in Hw. destruct Hw as [<-|Hw]; auto.
    + intros H. assert (HH : forall w, In w (v :: vs) -> In x (vertex_cells2 (GV w))).
      { intros w Hw. apply HF in Hw. destruct (HV _ _ Hw) as (W & N & F). apply c100_vertex_cells; auto. }
      simpl in HH. split; auto.
Qed.

Lemma coord_cells_spec ps : forall m, ssorted zlex (keys m) -> (forall c l, In (c, l) m -> ssorted Z.compare l) ->
  let r := fold_left coord_cells_step ps m in
  ssorted zlex (keys r) /\ (forall c l, In (c, l) r -> ssorted Z.compare l) /\
  forall c i, (exists l, In (c, l) r /\ In i l) <-> (exists l, In (c, l) m /\ In i l) \/ In (c, i) ps.
Proof.
  induction ps as [|[c0 i0] ps IH]; intros m HS HL; simpl.
  - repeat split; auto. intros [H|[]]; auto.
  - set (m' := coord_cells_step m (c0, i0)).
    assert (HS' : ssorted zlex (keys m')) by (apply map_set_sorted; auto using zlex_total).
    assert (HF : forall c l, In (c, l) m' <-> map_find zlex c m' = Some l) by (intros; rewrite (map_find_Some zlex_total) by auto; tauto).
    assert (HF0 : forall c l, In (c, l) m <-> map_find zlex c m = Some l) by (intros; rewrite (map_find_Some zlex_total) by auto; tauto).
    assert (HM : forall c, map_find zlex c m' = match zlex c c0 with Eq => Some (set_insert Z.compare i0 match map_find zlex c0 m with Some l => l | None => [] end) | _ => map_find zlex c m end).
    { intros c. unfold m', coord_cells_step; simpl fst; simpl snd. apply (map_find_set zlex_total); auto. }
    assert (HL' : forall c l, In (c, l) m' -> ssorted Z.compare l).
    { intros c l H. apply HF in H. rewrite HM in H. destruct (zlex c c0).
      - injection H as <-. apply set_insert_sorted; [apply Zcompare_total|]. destruct (map_find zlex c0 m) eqn:E; [apply HF0 in E; eauto|constructor].
      - apply HF0 in H; eauto.
      - apply HF0 in H; eauto. }
    destruct (IH m' HS' HL') as (A & B & C). split; [exact A|]. split; [exact B|]. intros c i. rewrite C.
    assert (K : (exists l, In (c, l) m' /\ In i l) <-> (exists l, In (c, l) m /\ In i l) \/ (c0, i0) = (c, i)).
    { split.
      - intros (l & H & Hi). apply HF in H. rewrite HM in H. destruct (zlex c c0) eqn:E.
        + apply (tc_eq zlex_total) in E. subst c0. injection H as <-. apply (set_insert_In Zcompare_total) in Hi as [->|Hi]; auto.
          destruct (map_find zlex c m) as [l|] eqn:E; [|destruct Hi]. left. exists l. split; auto. apply HF0; auto.
        + left. exists l. split; auto. apply HF0; auto.
        + left. exists l. split; auto. apply HF0; auto.
      - intros [(l & H & Hi)|E].
        + apply HF0 in H. destruct (zlex c c0) eqn:E.
          * pose proof E as E'. apply (tc_eq zlex_total) in E'. subst c0. eexists. split; [apply HF; rewrite HM, E; reflexivity|].
            rewrite H. apply (set_insert_In Zcompare_total); auto.
          * exists l. split; auto. apply HF. rewrite HM, E. auto.
          * exists l. split; auto. apply HF. rewrite HM, E. auto.
        + injection E as -> ->. eexists. split; [apply HF; rewrite HM, (tc_refl zlex_total); reflexivity|].
          apply (set_insert_In Zcompare_total); auto. }
    rewrite K. tauto.
Qed.

Lemma two_in_long (A : Type) (l : list A) a b : In a l -> In b l -> a <> b -> (length l <? 2)%nat = false.
Proof.
  intros Ha Hb HN. apply Nat.ltb_ge. destruct l as [|x [|y l]]; simpl in *; [destruct Ha| |lia].
  destruct Ha as [->|[]], Hb as [->|[]]. contradiction.
Qed.

(** C100. Two different loops of a slice (ids at least 0; -1 is "no cell") are handed to the library together exactly if some grid cell
    contains all the vertices of both; nothing else is ever handed over. *)
Theorem c100_ties : forall GV hes a b,
  (forall c v, In (c, v) hes -> v_wf 2 (GV v) /\ normalised (GV v) /\ flags_exact (GV v)) -> a <> b ->
  let groups := tie_groups (hem_coord_cells (hem_cell_coords (fun v => vertex_cells2 (GV v)) hes)) in
  (exists g, In g groups /\ In a g /\ In b g) <->
  0 <= a /\ 0 <= b /\ (exists v, In (a, v) hes) /\ (exists v, In (b, v) hes) /\
  exists x, forall k v, k = a \/ k = b -> In (k, v) hes -> in_closed_cell x (pos (GV v)).
Proof.
  intros GV hes a b HV HN groups. set (cc := hem_cell_coords (fun v => vertex_cells2 (GV v)) hes) in *.
  assert (SC : ssorted Z.compare (keys cc)).
  { assert (H : forall hs m, ssorted Z.compare (keys m) -> ssorted Z.compare (keys (fold_left (cell_coords_step (fun v => vertex_cells2 (GV v))) hs m))).
    { induction hs as [|h hs IH]; simpl; auto using cc_step_sorted. }
    apply H. constructor. }
  set (ps := flat_map (fun '(i, cs) => map (fun c => (c, i)) cs) cc).
  assert (PS : forall c i, In (c, i) ps <-> (exists v, In (i, v) hes) /\ forall v, In (i, v) hes -> in_closed_cell c (pos (GV v))).
  { intros c i. assert (HC := @c100_cell_coords GV hes i HV). fold cc in HC. unfold ps. rewrite in_flat_map. split.
    - intros ([j cs] & H & HI). apply in_map_iff in HI as (c' & E & HI). injection E as -> ->.
      apply (map_find_Some Zcompare_total) in H; auto. rewrite H in HC. destruct HC as [H1 H2]. split; auto. apply H2; auto.
    - intros [[v Hv] H]. destruct (map_find Z.compare i cc) as [cs|] eqn:E; [|destruct (HC v Hv)].
      apply (map_find_Some Zcompare_total) in E; auto. exists (i, cs). split; auto. apply in_map_iff. exists c. split; auto. apply HC; auto. }
  destruct (@coord_cells_spec ps [] ltac:(constructor) ltac:(intros ? ? [])) as (A & B & C). fold (hem_coord_cells cc) in *.
  unfold groups, tie_groups. split.
  - intros (g & HG & Ha & Hb). apply in_flat_map in HG as ([c cs] & HI & HG).
    destruct (length cs <? 2)%nat; [destruct HG|]. destruct HG as [<-|[]].
    apply filter_In in Ha as [Ha Ha0]. apply filter_In in Hb as [Hb Hb0]. apply Z.leb_le in Ha0, Hb0.
    assert (PA : In (c, a) ps). { destruct (proj1 (C c a)) as [(l & [] & _)|H]; eauto. }
    assert (PB : In (c, b) ps). { destruct (proj1 (C c b)) as [(l & [] & _)|H]; eauto. }
    apply PS in PA as [XA PA]. apply PS in PB as [XB PB]. repeat (split; auto). exists c. intros k v [-> | ->] Hk; auto.
  - intros (Ha & Hb & XA & XB & x & HX).
    assert (PA : In (x, a) ps) by (apply PS; split; eauto). assert (PB : In (x, b) ps) by (apply PS; split; eauto).
    destruct (proj2 (C x a) (or_intror PA)) as (la & LA & IA). destruct (proj2 (C x b) (or_intror PB)) as (lb & LB & IB).
    assert (la = lb).
    { apply (map_find_Some zlex_total) in LA, LB; auto. congruence. }
    subst lb. exists (filter (fun c => 0 <=? c) la). split.
    + apply in_flat_map. exists (x, la). split; auto. rewrite (two_in_long _ IA IB HN). simpl; auto.
    + rewrite !filter_In. repeat split; auto; apply Z.leb_le; auto.
Qed.

(** two nested squares in one grid cell are tied; the cell next door is not involved *)
Example c100_witness :
  let GV := fun v => match v with 0 => vertex_cq [0; 0] [qhalf; qhalf] | 1 => vertex_cq [0; 0] [qhalf; 0%Qc] | _ => vertex_cq [5; 0] [0%Qc; 0%Qc] end in
  let hes := [(0, 0); (1, 1); (0, 1); (-1, 0); (2, 2)] in
  (forall c v, In (c, v) hes -> v_wf 2 (GV v) /\ normalised (GV v) /\ flags_exact (GV v)) /\
  tie_groups (hem_coord_cells (hem_cell_coords (fun v => vertex_cells2 (GV v)) hes)) = [[0; 1]].
Proof.
  intros GV hes. split; [|vm_compute; reflexivity].
  intros c v H. assert (HV : exists q0 q1 c0, GV v = vertex_cq [c0; 0] [q0; q1] /\ (0 <= q0 /\ q0 < 1 /\ 0 <= q1 /\ q1 < 1)%Qc).
  { unfold hes in H; simpl in H. repeat destruct H as [H|H]; [..|destruct H]; injection H as <- <-; do 3 eexists; (split; [reflexivity|]); repeat split; vm_compute; congruence. }
  destruct HV as (q0 & q1 & c0 & E & Q). rewrite E. split; [repeat split|]. split.
  - unfold normalised; simpl. repeat constructor; tauto.
  - unfold flags_exact; simpl. repeat constructor; apply qeqb_eq.
Qed.
