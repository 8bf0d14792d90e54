(** Properties C33-C36, C59: ExteriorGrid<D> and DomainBoundary. *)
From Verif Require Import Base Num CoordMask Grid SmallestEdge SmallestEdgeProofs ExteriorGrid ExteriorProofs.
Local Open Scope Z_scope.

(** an exterior cell: a grid cell whose mask entry is true *)
Definition exterior (shape : list Z) (mask : coord -> bool) (c : coord) : Prop := in_shape shape c = true /\ mask c = true.
Lemma exterior_In shape mask c : exterior shape mask c <-> In c (filter mask (all_coords shape)).
Proof. unfold exterior. rewrite filter_In, all_coords_In. tauto. Qed.

(** ** C33 *)
Theorem c33_index_bijection shape mask :
  Z.of_nat (length (cell_coords shape mask)) = ext_num_cells shape mask /\
  (forall c, exterior shape mask c -> 0 <= ext_cell_index shape mask c < ext_num_cells shape mask /\
     nth_error (cell_coords shape mask) (Z.to_nat (ext_cell_index shape mask c)) = Some c) /\
  (forall i c, nth_error (cell_coords shape mask) i = Some c -> exterior shape mask c /\ ext_cell_index shape mask c = Z.of_nat i) /\
  (forall c, ~ exterior shape mask c -> ext_cell_index shape mask c = -1).
Proof.
  rewrite (coords_ext shape mask), (num_cells shape mask). split; auto. 
  assert (IX : forall c, exterior shape mask c -> ext_cell_index shape mask c = cell_ix shape mask c). { intros c [H _]. unfold ext_cell_index. rewrite H. auto. }
  split; [|split].
  - intros c H. rewrite IX by auto. apply exterior_In in H. destruct (ix_cases shape mask c) as [[_ (k & H1 & ->)]|[N _]]; [|contradiction].
    rewrite Nat2Z.id. split; auto. assert (k < length (filter mask (all_coords shape)))%nat by (apply nth_error_Some; congruence). lia.
  - intros i c H. assert (HE : exterior shape mask c) by (apply exterior_In; eapply nth_error_In; eauto). split; auto. rewrite IX by auto. apply ix_ext; auto.
  - intros c H. unfold ext_cell_index. destruct (in_shape shape c); auto. cbn. apply ix_neg. rewrite <- exterior_In. auto.
Qed.
Example c33_example : map (ext_cell_index [3; 2] (fun c => negb (at0 c 0 =? 1))) [[0; 0]; [0; 1]; [1; 0]; [2; 0]; [2; 1]; [5; 5]] = [0; 1; -1; 2; 3; -1] /\
  cell_coords [3; 2] (fun c => negb (at0 c 0 =? 1)) = [[0; 0]; [0; 1]; [2; 0]; [2; 1]].
Proof. split; reflexivity. Qed.

(** ** C34 *)
(** exact content of the facet list, for every shape and mask: facets are listed once; the last kind needs at least two cells along the axis *)
Theorem c34_facets_exact shape mask : NoDup (facets shape mask) /\
  forall d a b, In (d, (a, b)) (facets shape mask) <-> (d < length shape)%nat /\
   ((exists c, exterior shape mask c /\ exterior shape mask (step c d) /\ a = ext_cell_index shape mask c /\ b = ext_cell_index shape mask (step c d)) \/
    (a = -2 /\ exists c, exterior shape mask c /\ at0 c d = 0 /\ b = ext_cell_index shape mask c) \/
    (2 <= at0 shape d /\ b = -2 /\ exists c, exterior shape mask c /\ at0 c d = at0 shape d - 1 /\ a = ext_cell_index shape mask c)).
Proof.
  split; [apply facets_NoDup|]. intros d a b. rewrite facets_In.
  assert (IX : forall c, exterior shape mask c -> ext_cell_index shape mask c = cell_ix shape mask c). { intros c [H _]. unfold ext_cell_index. rewrite H. auto. }
  split; intros [Hd H]; split; auto.
  - apply axis_facets_In in H; auto. destruct H as [(-> & c & H1 & H2 & ->)|[(c & H1 & H2 & -> & ->)|(L & -> & c & H1 & H2 & ->)]].
    + right. left. split; auto. exists c. apply exterior_In in H1. rewrite IX; auto.
    + left. exists c. apply exterior_In in H1, H2. rewrite !IX; auto.
    + right. right. split; auto. split; auto. exists c. apply exterior_In in H1. rewrite IX; auto.
  - apply axis_facets_In; auto. destruct H as [(c & H1 & H2 & -> & ->)|[(-> & c & H1 & H2 & ->)|(L & -> & c & H1 & H2 & ->)]].
    + right. left. exists c. rewrite !IX by auto. apply exterior_In in H1, H2. auto.
    + left. split; auto. exists c. rewrite IX by auto. apply exterior_In in H1. auto.
    + right. right. split; auto. split; auto. exists c. rewrite IX by auto. apply exterior_In in H1. auto.
Qed.
(** so with at least two cells along every axis each high-side cell has its facet, as claimed *)
Theorem c34_facets_partial shape mask d c : Forall (fun n => 2 <= n) shape -> (d < length shape)%nat -> exterior shape mask c -> at0 c d = at0 shape d - 1 ->
  In (d, (ext_cell_index shape mask c, -2)) (facets shape mask).
Proof.
  intros HS Hd HE E. apply c34_facets_exact. split; auto. right. right. split; [|eauto 10]. rewrite Forall_forall in HS. apply HS. apply nth_In. auto.
Qed.
(** refuted as stated: with a single cell along an axis the high-side facet is missing *)
Theorem c34_refuted_single_layer shape mask d a b : (d < length shape)%nat -> at0 shape d = 1 -> In (d, (a, b)) (facets shape mask) -> b <> -2.
Proof.
  intros Hd S1 H. apply c34_facets_exact in H as [_ [(c & H1 & H2 & -> & ->)|[(-> & c & H1 & H2 & ->)|(L & _)]]]; [| |lia].
  - destruct (c33_index_bijection shape mask) as (_ & B & _). apply B in H2. lia.
  - destruct (c33_index_bijection shape mask) as (_ & B & _). apply B in H1. lia.
Qed.
Example c34_example : facets [1; 2] (fun _ => true) = [(0%nat, (-2, 0)); (0%nat, (-2, 1)); (1%nat, (-2, 0)); (1%nat, (0, 1)); (1%nat, (1, -2))].
Proof. reflexivity. Qed.

(** ** C35 *)
Definition facet_at (ps : list edge) (k : nat) (p : edge) : Prop := nth_error ps k = Some p.
Lemma combine_seq_nth (A : Type) (l : list A) k x : In (k, x) (combine (seq 0 (length l)) l) <-> nth_error l k = Some x.
Proof.
  assert (G : forall (l : list A) s k x, In (k, x) (combine (seq s (length l)) l) <-> (s <= k)%nat /\ nth_error l (k - s) = Some x).
  { clear. induction l as [|y l IH]; intros s k x; cbn [length seq combine].
    - split; [intros []|]. intros [_ H]. destruct (k - s)%nat; discriminate.
    - cbn [In]. rewrite IH. split.
      + intros [[= -> ->]|[L H]]; [rewrite Nat.sub_diag; auto|]. split; [lia|]. replace (k - s)%nat with (S (k - S s)) by lia. auto.
      + intros [L H]. destruct (Nat.eq_dec k s) as [->|NE]; [left; rewrite Nat.sub_diag in H; cbn in H; congruence|]. right. split; [lia|]. replace (k - s)%nat with (S (k - S s)) in H by lia. auto. }
  rewrite G, Nat.sub_0_r. split; [tauto|]. intros H; split; [lia|auto].
Qed.
(** the operator-level query lists exactly the facets with an outside end *)
Theorem c35_grid_boundary_faces_partial ps off i : In i (db_grid_boundary_faces ps off) <->
  exists k p, facet_at ps k p /\ i = Z.of_nat k + off /\ (fst p = -2 \/ snd p = -2).
Proof.
  unfold db_grid_boundary_faces. rewrite (set_of_list_In Zcompare_total), in_flat_map. split.
  - intros ([k p] & H & HI). apply combine_seq_nth in H. exists k, p. unfold is_boundary_facet in HI. destruct (_ || _) eqn:E; [|destruct HI]. destruct HI as [<-|[]].
    split; auto. split; auto. apply orb_true_iff in E as [E|E]; apply Z.eqb_eq in E; auto.
  - intros (k & p & H & -> & HB). exists (k, p). split; [apply combine_seq_nth; auto|]. unfold is_boundary_facet. destruct HB as [E|E]; rewrite E; [|rewrite orb_true_r]; simpl; auto.
Qed.
(** the member functions boundary_facets() and interior_facets() throw whenever a facet lies on the high side of the domain *)
Theorem c35_refuted_throws want ps a : In (a, -2) ps -> query_facets want ps ps [] = None.
Proof.
  intros H. assert (G : forall l acc, In (a, -2) l -> query_facets want ps l acc = None).
  { induction l as [|[x y] l IH]; intros acc []; cbn [query_facets].
    - injection H0 as -> ->. reflexivity.
    - destruct (is_boundary_facet_at ps y); auto. }
  apply G; auto.
Qed.
(** in particular on every exterior grid with an exterior cell on a high side *)
Theorem c35_refuted_on_exterior_grids shape mask d c : Forall (fun n => 2 <= n) shape -> (d < length shape)%nat -> exterior shape mask c -> at0 c d = at0 shape d - 1 ->
  boundary_facets (facet_pairs shape mask) = None /\ interior_facets (facet_pairs shape mask) = None.
Proof.
  intros HS Hd HE E. assert (H := c34_facets_partial shape mask d c HS Hd HE E). apply (in_map snd) in H. split; eapply c35_refuted_throws; exact H.
Qed.
Example c35_example : db_grid_boundary_faces (facet_pairs [2; 2] (fun c => negb (at0 c 0 =? 1))) 10 = [10; 11; 12; 14] /\
  boundary_facets (facet_pairs [2; 2] (fun c => negb (at0 c 0 =? 1))) = None.
Proof. split; reflexivity. Qed.

(** ** C36 *)
Definition row_sum (r : Z) (t : list (Z * Z * Z)) : Z := fold_right (fun '(i, _, v) s => if i =? r then v + s else s) 0 t.
Theorem c36_incidence ps dom : NoDup (map (fun '(r, c, v) => (r, v)) (db_boundary_triplets ps dom)) /\
  forall r c v, In (r, c, v) (db_boundary_triplets ps dom) <->
   exists k p, facet_at ps k p /\ r = Z.of_nat k /\ (dom = true \/ fst p <> -2 /\ snd p <> -2) /\ 0 <= c /\ ((v = -1 /\ c = fst p) \/ (v = 1 /\ c = snd p)).
Proof.
  split.
  - unfold db_boundary_triplets. rewrite map_flat_map. apply NoDup_flat_map.
    + assert (X : NoDup (map fst (combine (seq 0 (length ps)) ps))). { rewrite <- (app_nil_r ps) at 2. clear. generalize 0%nat. induction ps as [|p ps IH]; intros n; cbn; constructor; auto.
        intros H. apply in_map_iff in H as ([a b] & <- & H). apply in_combine_l in H. apply in_seq in H. cbn in H. lia. }
      apply NoDup_map_inv in X. auto.
    + intros [k p] _. destruct (_ || _); [|constructor]. destruct (0 <=? fst p), (0 <=? snd p); cbn; repeat constructor; cbn; intuition congruence.
    + intros [k p] [k' p'] [r v] H1 H2 I1 I2. apply combine_seq_nth in H1, H2. assert (k = k'); [|subst; congruence].
      apply in_map_iff in I1 as ([[r1 c1] v1] & E1 & I1), I2 as ([[r2 c2] v2] & E2 & I2). apply pair_equal_spec in E1 as [-> _], E2 as [-> _].
      assert (G : forall k p r c v, In (r, c, v) (if dom || negb (is_boundary_facet p) then (if 0 <=? fst p then [(Z.of_nat k, fst p, -1)] else []) ++ (if 0 <=? snd p then [(Z.of_nat k, snd p, 1)] else []) else []) -> r = Z.of_nat k).
      { intros k0 p0 r0 c0 v0 H. destruct (dom || negb (is_boundary_facet p0)); [|destruct H]. apply in_app_iff in H as [H|H]; [destruct (0 <=? fst p0)|destruct (0 <=? snd p0)]; cbn in H; try tauto; destruct H as [H|[]]; congruence. }
      apply G in I1, I2. lia.
  - intros r c v. unfold db_boundary_triplets. rewrite in_flat_map. split.
    + intros ([k p] & H & HI). apply combine_seq_nth in H. exists k, p. destruct (_ || _) eqn:D; [|destruct HI].
      assert (DD : dom = true \/ fst p <> -2 /\ snd p <> -2).
      { apply orb_true_iff in D as [->|D]; auto. right. apply negb_true_iff, orb_false_iff in D as [D1 D2]. apply Z.eqb_neq in D1, D2. auto. }
      apply in_app_iff in HI as [HI|HI].
      * destruct (Z.leb_spec 0 (fst p)); [|destruct HI]. destruct HI as [[= <- <- <-]|[]]. auto 10.
      * destruct (Z.leb_spec 0 (snd p)); [|destruct HI]. destruct HI as [[= <- <- <-]|[]]. auto 10.
    + intros (k & p & H & -> & D & C & HV). exists (k, p). split; [apply combine_seq_nth; auto|].
      assert (DD : dom || negb (is_boundary_facet p) = true).
      { destruct D as [->|[D1 D2]]; auto. unfold is_boundary_facet. apply Z.eqb_neq in D1, D2. rewrite D1, D2, orb_true_r. auto. }
      rewrite DD. apply in_app_iff. destruct HV as [[-> ->]|[-> ->]]; [left|right]; rewrite (proj2 (Z.leb_le _ _)) by auto; simpl; auto.
Qed.
(** value of a row; constants are in the kernel *)
Theorem c36_row_sums ps dom k p : facet_at ps k p ->
  row_sum (Z.of_nat k) (db_boundary_triplets ps dom) =
    if dom || negb (is_boundary_facet p) then (if 0 <=? snd p then 1 else 0) - (if 0 <=? fst p then 1 else 0) else 0.
Proof.
  unfold facet_at, db_boundary_triplets. intros H.
  assert (RA : forall r t u, row_sum r (t ++ u) = row_sum r t + row_sum r u). { induction t as [|[[a b] v] t IH]; intros u; auto. cbn [app row_sum fold_right]. fold (row_sum r (t ++ u)). fold (row_sum r t). rewrite IH. destruct (a =? r); lia. }
  set (F := fun '(i, p) => if dom || negb (is_boundary_facet p) then (if 0 <=? fst p then [(Z.of_nat i, fst p, -1)] else []) ++ (if 0 <=? snd p then [(Z.of_nat i, snd p, 1)] else []) else [] : list (Z * Z * Z)).
  assert (NE : forall i q, i <> k -> row_sum (Z.of_nat k) (F (i, q)) = 0).
  { intros i q N. unfold F. destruct (_ || _); auto. destruct (0 <=? fst q), (0 <=? snd q); cbn; rewrite ?(proj2 (Z.eqb_neq (Z.of_nat i) (Z.of_nat k))) by lia; auto. }
  assert (EQ : row_sum (Z.of_nat k) (F (k, p)) = if dom || negb (is_boundary_facet p) then (if 0 <=? snd p then 1 else 0) - (if 0 <=? fst p then 1 else 0) else 0).
  { unfold F. destruct (_ || _); auto. destruct (0 <=? fst p), (0 <=? snd p); cbn; rewrite ?Z.eqb_refl; auto. }
  assert (G : forall (l : list edge) s, row_sum (Z.of_nat k) (flat_map F (combine (seq s (length l)) l)) = if (s <=? k)%nat then match nth_error l (k - s) with Some q => row_sum (Z.of_nat k) (F (k, q)) | None => 0 end else 0).
  { induction l as [|q l IH]; intros s.
    - cbn. destruct (s <=? k)%nat; auto. destruct (k - s)%nat; auto.
    - cbn [length seq combine flat_map]. rewrite RA, IH. destruct (Nat.leb_spec s k), (Nat.leb_spec (S s) k); try lia.
      + rewrite NE by lia. replace (k - s)%nat with (S (k - S s)) by lia. cbn. lia.
      + assert (s = k) by lia. subst. rewrite Nat.sub_diag. cbn. lia.
      + rewrite NE by lia. lia. }
  rewrite G. cbn [Nat.leb]. rewrite Nat.sub_0_r, H. exact EQ.
Qed.
(** rows of an exterior grid: interior facets always sum to zero, and without the domain boundary every row does *)
Theorem c36_exterior_rows_sum_to_zero shape mask dom k d p : nth_error (facets shape mask) k = Some (d, p) ->
  dom = false \/ (fst p <> -2 /\ snd p <> -2) -> row_sum (Z.of_nat k) (db_boundary_triplets (facet_pairs shape mask) dom) = 0.
Proof.
  intros H D. assert (FA : facet_at (facet_pairs shape mask) k p) by (unfold facet_at, facet_pairs; rewrite nth_error_map, H; auto).
  rewrite (c36_row_sums _ _ _ _ FA). unfold is_boundary_facet. destruct p as [a b]. cbn [fst snd] in *. apply nth_error_In in H. apply c34_facets_exact in H as [_ H].
  destruct (c33_index_bijection shape mask) as (_ & B & _). destruct H as [(c & H1 & H2 & -> & ->)|[(-> & c & H1 & H2 & ->)|(L & -> & c & H1 & H2 & ->)]].
  - apply B in H1 as [H1 _], H2 as [H2 _]. rewrite !(proj2 (Z.leb_le 0 _)) by lia. destruct (_ || _); auto.
  - destruct D as [->|[D _]]; [reflexivity|contradiction].
  - destruct D as [->|[_ D]]; [|contradiction]. rewrite orb_true_r. reflexivity.
Qed.
Example c36_example : db_boundary_triplets (facet_pairs [2; 1] (fun _ => true)) false = [(1, 0, -1); (1, 1, 1)].
Proof. reflexivity. Qed.

(** ** C59: rows of boundary_facet_to_staggered_grid *)
(** the grid face between cell c and the next cell along d is named by the coordinate of the next cell; the low side face of a first-layer cell by the cell *)
Theorem c59_facet_grid_faces shape mask off : 
  length (facets_to_grid shape mask off) = length (facets shape mask) /\
  (forall k d a b, nth_error (facets shape mask) k = Some (d, (a, b)) ->
    exists g, nth_error (facets_to_grid shape mask off) k = Some (Z.of_nat k + off, Some (g, d)) /\
      ((a = -2 /\ exterior shape mask g /\ at0 g d = 0 /\ b = ext_cell_index shape mask g) \/
       (b = -2 /\ exists c, exterior shape mask c /\ g = step c d /\ at0 c d = at0 shape d - 1 /\ a = ext_cell_index shape mask c) \/
       (exists c, exterior shape mask c /\ exterior shape mask g /\ g = step c d /\ a = ext_cell_index shape mask c /\ b = ext_cell_index shape mask g))) /\
  (forall k k' r r' f, nth_error (facets_to_grid shape mask off) k = Some (r, Some f) -> nth_error (facets_to_grid shape mask off) k' = Some (r', Some f) -> k = k').
Proof.
  destruct (c33_index_bijection shape mask) as (_ & B & _ & _).
  assert (A : forall k d a b, nth_error (facets shape mask) k = Some (d, (a, b)) ->
    exists g, nth_error (facets_to_grid shape mask off) k = Some (Z.of_nat k + off, Some (g, d)) /\
      ((a = -2 /\ exterior shape mask g /\ at0 g d = 0 /\ b = ext_cell_index shape mask g) \/
       (b = -2 /\ exists c, exterior shape mask c /\ g = step c d /\ at0 c d = at0 shape d - 1 /\ a = ext_cell_index shape mask c) \/
       (exists c, exterior shape mask c /\ exterior shape mask g /\ g = step c d /\ a = ext_cell_index shape mask c /\ b = ext_cell_index shape mask g))).
  { intros k d a b H. assert (NC : nth_error (combine (seq 0 (length (facets shape mask))) (facets shape mask)) k = Some (k, (d, (a, b)))).
    { clear - H. assert (G : forall (l : list (nat * edge)) s j x, nth_error l j = Some x -> nth_error (combine (seq s (length l)) l) j = Some ((s + j)%nat, x)).
      { induction l as [|y l IH]; intros s [|j] x E; cbn in *; try discriminate; [injection E as ->; f_equal; f_equal; lia|]. rewrite (IH (S s) j x E). f_equal. f_equal. lia. }
      apply (G _ 0%nat) in H. exact H. }
    unfold facets_to_grid. rewrite nth_error_map, NC. cbn [option_map]. apply nth_error_In in H. apply c34_facets_exact in H as [Hd H].
    unfold facet_face. destruct H as [(c & H1 & H2 & -> & ->)|[(-> & c & H1 & H2 & ->)|(L & -> & c & H1 & H2 & ->)]].
    - destruct (B c H1) as [R1 N1]. destruct (B _ H2) as [R2 N2]. exists (step c d). rewrite (proj2 (Z.eqb_neq _ (-2))), (proj2 (Z.eqb_neq _ (-2))) by lia.
      rewrite (proj2 (Z.leb_le 0 _)), (proj2 (Z.leb_le 0 _)) by lia. cbn [andb]. rewrite !(proj2 (Z.ltb_ge _ 0)) by lia. rewrite N1, N2. split; auto. right. right. exists c. auto.
    - destruct (B c H1) as [R1 N1]. exists c. cbn [Z.eqb Pos.eqb]. rewrite (proj2 (Z.ltb_ge _ 0)) by lia. rewrite N1. split; auto.
    - destruct (B c H1) as [R1 N1]. exists (step c d). rewrite (proj2 (Z.eqb_neq _ (-2))) by lia. cbn [Z.eqb Pos.eqb]. rewrite (proj2 (Z.ltb_ge _ 0)) by lia. rewrite N1. split; auto.
      right. left. split; auto. exists c. auto. }
  assert (LN : length (facets_to_grid shape mask off) = length (facets shape mask)). { unfold facets_to_grid. rewrite map_length, combine_length, seq_length. lia. }
  split; auto. split; auto. intros k k' r r' f H H'.
  assert (K : (k < length (facets shape mask))%nat) by (rewrite <- LN; apply nth_error_Some; congruence). assert (K' : (k' < length (facets shape mask))%nat) by (rewrite <- LN; apply nth_error_Some; congruence).
  destruct (nth_error (facets shape mask) k) as [[d [a b]]|] eqn:E; [|apply nth_error_None in E; lia]. destruct (nth_error (facets shape mask) k') as [[d' [a' b']]|] eqn:E'; [|apply nth_error_None in E'; lia].
  destruct (A _ _ _ _ E) as (g & G & C). destruct (A _ _ _ _ E') as (g' & G' & C'). rewrite G in H. rewrite G' in H'. injection H as _ <-. injection H' as _ -> ->.
  assert (HD : (d < length shape)%nat) by (apply nth_error_In in E; apply c34_facets_exact in E; tauto).
  assert (HL : forall c, exterior shape mask c -> length c = length shape /\ 0 <= at0 c d < at0 shape d). { intros c [Hc _]. apply in_shape_pt in Hc as [L P]. auto. }
  assert (SD : forall c, exterior shape mask c -> at0 (step c d) d = at0 c d + 1). { intros c Hc. unfold step. apply HL in Hc as [L _]. rewrite at0_upd, Nat.eqb_refl by lia. auto. }
  assert (SI : forall c c', exterior shape mask c -> exterior shape mask c' -> step c d = step c' d -> c = c').
  { intros c c' H1 H2 ES. assert (at0 c d = at0 c' d). { apply SD in H1, H2. rewrite ES in H1. lia. } unfold step in ES. rewrite <- (upd_same c d), <- (upd_same c' d).
    rewrite <- (upd_upd c d (at0 c d + 1)), <- (upd_upd c' d (at0 c' d + 1)). congruence. }
  assert (EE : (a, b) = (a', b')).
  { destruct C as [(-> & H1 & H2 & ->)|[(-> & c & H1 & H2 & H3 & ->)|(c & H1 & H2 & H3 & -> & ->)]];
    destruct C' as [(-> & J1 & J2 & ->)|[(-> & c' & J1 & J2 & J3 & ->)|(c' & J1 & J2 & J3 & -> & ->)]]; auto.
    - exfalso. rewrite J2, SD in H2 by auto. apply HL in J1. lia.
    - exfalso. rewrite J3, SD in H2 by auto. apply HL in J1. lia.
    - exfalso. rewrite H2, SD in J2 by auto. apply HL in H1. lia.
    - rewrite H2 in J2. apply SI in J2; auto. congruence.
    - exfalso. apply HL in J2. rewrite H2, SD in J2 by auto. lia.
    - exfalso. rewrite H3, SD in J2 by auto. apply HL in H1. lia.
    - exfalso. apply HL in H2. rewrite J2, SD in H2 by auto. lia.
    - rewrite H3 in J3. apply SI in J3; auto. subst. congruence. }
  assert (ND := facets_NoDup shape mask). rewrite NoDup_nth_error in ND. apply ND; auto. congruence.
Qed.
Example c59_example : facets_to_grid [2; 1] (fun _ => true) 5 = [(5, Some ([0; 0], 0%nat)); (6, Some ([1; 0], 0%nat)); (7, Some ([2; 0], 0%nat)); (8, Some ([0; 0], 1%nat)); (9, Some ([1; 0], 1%nat))].
Proof. vm_compute. reflexivity. Qed.
