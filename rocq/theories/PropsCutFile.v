(** C145: the file written for a 2D cut mesh. *)
From Verif Require Import Base Num CoordMask Vertex VertexProofs Grid SmallestEdge SmallestEdgeProofs AdaptiveGrid Mesh ExteriorGrid ExteriorProofs PropsExterior Sparse Mesh2 PropsMesh2 PlCurve PropsPlCurve CutFile.
Local Open Scope Z_scope.

(** *** specification *)
(** the three blocks of the file *)
Definition blocks (tok : Type) (fm : numfmt tok) (kwel : tok) (f vr er el : list (list tok)) : Prop :=
  f = [[kw_vertices fm]] ++ vr ++ [[]; [kw_edges fm]] ++ er ++ [[]; [kwel]] ++ el.
(** the input curve carries element labels *)
Definition labelled (E : list edge4) : Prop := exists a b l r, In (a, b, l, r) E /\ (0 <= l \/ 0 <= r).
(** labels of a piece of input edge k: those of k, exchanged when the piece runs against it *)
Definition sides_spec (E : list edge4) (ts : Z -> option (Qc * Qc)) (i : Z) (id : edge_id) (l r : Z) : Prop :=
  match id with
  | AxialEdge _ _ => l = -1 /\ r = -1
  | MeshEdge k => (~ labelled E -> l = -1 /\ r = -1) /\
     (labelled E -> exists a b l0 r0 t0 t1, 0 <= k /\ nth_error E (Z.to_nat k) = Some (a, b, l0, r0) /\ ts i = Some (t0, t1) /\
        ((t0 <= t1)%Qc -> l = l0 /\ r = r0) /\ ((t1 < t0)%Qc -> l = r0 /\ r = l0))
  end.
(** the directed sides of a closed loop *)
Definition loop_sides (l : list Z) : list (Z * Z) := match l with [] => [] | a :: t => combine l (t ++ [a]) end.
Definition zswap (p : Z * Z) : Z * Z := (snd p, fst p).

(** *** lemmas *)
Lemma all_some_spec (A : Type) (l : list (option A)) r : all_some l = Some r <-> l = map Some r.
Proof.
  revert r. induction l as [|x l IH]; intros r; cbn [all_some fold_right].
  - split; [intros [= <-]; auto|destruct r; [auto|discriminate]].
  - fold (all_some l). destruct x as [a|]; [|split; [discriminate|destruct r; discriminate]]. destruct (all_some l) as [r'|].
    + split; [intros [= <-]; cbn; f_equal; apply IH; auto|]. destruct r as [|b r]; [discriminate|]. cbn. intros [= -> E]. apply IH in E. injection E as ->. auto.
    + split; [discriminate|]. destruct r as [|b r]; [discriminate|]. cbn. intros [= _ E]. apply IH in E. discriminate.
Qed.
Lemma enum_nth (A : Type) (l : list A) k : nth_error (enum l) k = option_map (pair (Z.of_nat k)) (nth_error l k).
Proof.
  unfold enum, zseq. rewrite Nat2Z.id. assert (G : forall (l : list A) s k, nth_error (combine (map Z.of_nat (seq s (length l))) l) k = option_map (pair (Z.of_nat (s + k))) (nth_error l k)).
  { clear. induction l as [|a l IH]; intros s [|k]; cbn [length seq map combine nth_error option_map]; auto; [do 3 f_equal; lia|]. rewrite IH. replace (S s + k)%nat with (s + S k)%nat by lia. auto. }
  rewrite G. auto.
Qed.
Lemma use_bc_labelled E : use_bc E = true <-> labelled E.
Proof.
  unfold use_bc, labelled. rewrite existsb_exists. split.
  - intros ([[[a b] l] r] & H & T). exists a, b, l, r. split; auto. apply orb_true_iff in T. lia.
  - intros (a & b & l & r & H & T). exists (a, b, l, r). split; auto. apply orb_true_iff. lia.
Qed.
Lemma zat_Some (A : Type) (l : list A) i x : zat l i = Some x <-> 0 <= i /\ nth_error l (Z.to_nat i) = Some x.
Proof. unfold zat. destruct (Z.ltb_spec i 0); split; auto; try discriminate; try (intros [? ?]; lia || tauto). Qed.
Lemma zrange_enum (A : Type) (l : list A) k : nth_error (combine (zrange 0 (length l)) l) k = option_map (pair (Z.of_nat k)) (nth_error l k).
Proof.
  assert (G : forall (l : list A) s k, nth_error (combine (zrange s (length l)) l) k = option_map (pair (s + Z.of_nat k)) (nth_error l k)).
  { clear. induction l as [|a l IH]; intros s k; [destruct k; auto|]. cbn [length]. rewrite zrange_S. cbn [combine]. destruct k as [|k]; cbn [nth_error option_map].
    - replace (s + Z.of_nat 0) with s by lia. auto.
    - rewrite IH. replace (s + 1 + Z.of_nat k) with (s + Z.of_nat (S k)) by lia. auto. }
  apply (G l 0 k).
Qed.
Lemma edge_sides_spec E ts i e l r : edge_sides E ts i e = Some (l, r) -> sides_spec E ts i (e2_id e) l r.
Proof.
  unfold edge_sides, sides_spec. destruct (e2_id e) as [k|a v]; [|intros [= <- <-]; auto]. destruct (ts i) as [[t0 t1]|]; [|discriminate].
  destruct (use_bc E) eqn:U.
  - assert (LB : labelled E) by (apply use_bc_labelled; auto). destruct (zat E k) as [[[[a b] l0] r0]|] eqn:Zk; [|discriminate]. apply zat_Some in Zk as [K N]. intros H. split; [contradiction|]. intros _. exists a, b, l0, r0, t0, t1.
    split; auto. split; auto. split; auto. destruct (qltb t1 t0) eqn:Q; injection H as <- <-.
    + apply qltb_lt in Q. split; auto. intros H. exfalso. revert H. apply Qclt_not_le. auto.
    + apply qltb_ge in Q. split; auto. intros H. exfalso. revert H. apply Qcle_not_lt. auto.
  - intros [= <- <-]. split; auto. intros H. apply use_bc_labelled in H. congruence.
Qed.
Lemma vshape_in m x y a b : length (m2_cells m) = 2%nat -> in_shape (m2_cells m) [x; y] = true -> 0 <= a <= 1 -> 0 <= b <= 1 -> in_shape (vshape2 m) [x + a; y + b] = true.
Proof.
  intros L H Ha Hb. unfold vshape2. destruct (m2_cells m) as [|n0 [|n1 [|]]]; try discriminate. cbn in *. lia.
Qed.
Lemma coord2 shape c : length shape = 2%nat -> in_shape shape c = true -> exists x y, c = [x; y].
Proof. intros L H. apply in_shape_length in H. rewrite L in H. destruct c as [|x [|y [|]]]; try discriminate. eauto. Qed.
(** the loop of exterior cell c *)
Definition quad (m : mesh2) (x y : Z) : list Z := map (ravel (vshape2 m)) [[x; y]; [x; y + 1]; [x + 1; y + 1]; [x + 1; y]].
Lemma cell2_ext m c x y : length (m2_cells m) = 2%nat -> exterior (m2_cells m) (m2_mask m) [x; y] -> c = ext_cell_index (m2_cells m) (m2_mask m) [x; y] ->
  cell2 m (c + num_cutfaces m) = Some [quad m x y].
Proof.
  intros L H ->. destruct (c33_index_bijection (m2_cells m) (m2_mask m)) as (LN & B & _). destruct (B _ H) as [R N]. unfold cell2.
  rewrite (proj2 (Z.ltb_ge _ (num_cutfaces m))) by lia. set (k := ext_cell_index _ _ _) in *. replace (k + num_cutfaces m - num_cutfaces m) with k by lia. unfold ext_cells. rewrite (proj2 (Z.ltb_lt k _)) by lia. rewrite N. reflexivity.
Qed.
(** corner and endpoints of a facet *)
Lemma facet_ends_spec m d a b : length (m2_cells m) = 2%nat -> In (d, (a, b)) (facets (m2_cells m) (m2_mask m)) ->
  exists x y dx dy, facet_ends m (d, (a, b)) = Some (ravel (vshape2 m) [x; y], ravel (vshape2 m) [x + dx; y + dy]) /\
    in_shape (vshape2 m) [x; y] = true /\ in_shape (vshape2 m) [x + dx; y + dy] = true /\ (d < 2)%nat /\
    (dx = if Nat.eqb d 0 then 0 else 1) /\ dy = (if Nat.eqb d 0 then 1 else 0) /\
    (0 <= b -> exterior (m2_cells m) (m2_mask m) [x; y] /\ b = ext_cell_index (m2_cells m) (m2_mask m) [x; y]) /\
    (0 <= a -> exterior (m2_cells m) (m2_mask m) [x - dy; y - dx] /\ a = ext_cell_index (m2_cells m) (m2_mask m) [x - dy; y - dx]) /\
    (0 <= a \/ a = -2 /\ (if Nat.eqb d 0 then x else y) = 0) /\
    (0 <= b \/ b = -2 /\ (if Nat.eqb d 0 then x else y) = at0 (m2_cells m) d).
Proof.
  intros L H. apply c34_facets_exact in H as [Hd H]. rewrite L in Hd. destruct (c33_index_bijection (m2_cells m) (m2_mask m)) as (_ & B & _).
  assert (D : d = 0%nat \/ d = 1%nat) by lia.
  assert (SH : forall c, exterior (m2_cells m) (m2_mask m) c -> exists x y, c = [x; y] /\ in_shape (m2_cells m) [x; y] = true).
  { intros c [Hc _]. destruct (coord2 _ _ L Hc) as (x & y & ->). eauto. }
  assert (ZB : forall c, exterior (m2_cells m) (m2_mask m) c -> zat (cell_coords (m2_cells m) (m2_mask m)) (ext_cell_index (m2_cells m) (m2_mask m) c) = Some c /\ 0 <= ext_cell_index (m2_cells m) (m2_mask m) c).
  { intros c Hc. destruct (B c Hc) as [R N]. split; [apply zat_Some; split; auto; lia|lia]. }
  unfold facet_ends. destruct H as [(c & H1 & H2 & -> & ->)|[(-> & c & H1 & H2 & ->)|(LL & -> & c & H1 & H2 & ->)]].
  - destruct (ZB _ H1) as [Z1 P1]. destruct (ZB _ H2) as [Z2 P2]. rewrite (proj2 (Z.leb_le 0 _)) by auto. rewrite Z2. destruct (SH c H1) as (x & y & -> & I). destruct D as [-> | ->]; cbn [step upd at0 nth Nat.sub Nat.eqb].
    + unfold step in H2. cbn in H2. destruct H2 as [I2 M2]. assert (W0 := vshape_in m (x + 1) y 0 0 L I2 ltac:(lia) ltac:(lia)). assert (W1 := vshape_in m (x + 1) y 0 1 L I2 ltac:(lia) ltac:(lia)).
      exists (x + 1), y, 0, 1. rewrite !Z.add_0_r in *. replace (x + 1 - 1) with x by lia. replace (y - 0) with y by lia. split; auto. split; auto. split; auto. split; auto. split; auto. split; auto. split; [intros _; split; [split; auto|reflexivity]|]. split; auto. 
    + unfold step in H2. cbn in H2. destruct H2 as [I2 M2]. assert (W0 := vshape_in m x (y + 1) 0 0 L I2 ltac:(lia) ltac:(lia)). assert (W1 := vshape_in m x (y + 1) 1 0 L I2 ltac:(lia) ltac:(lia)).
      exists x, (y + 1), 1, 0. rewrite !Z.add_0_r in *. replace (y + 1 - 1) with y by lia. replace (x - 0) with x by lia. split; auto. split; auto. split; auto. split; auto. split; auto. split; auto. split; [intros _; split; [split; auto|reflexivity]|]. split; auto.
  - destruct (ZB _ H1) as [Z1 P1]. rewrite (proj2 (Z.leb_le 0 _)) by auto. rewrite Z1. destruct (SH c H1) as (x & y & -> & I). assert (W0 := vshape_in m x y 0 0 L I ltac:(lia) ltac:(lia)). rewrite !Z.add_0_r in W0.
    destruct D as [-> | ->]; cbn [upd at0 nth Nat.sub Nat.eqb] in *.
    + assert (W1 := vshape_in m x y 0 1 L I ltac:(lia) ltac:(lia)). exists x, y, 0, 1. rewrite !Z.add_0_r in *. split; auto. split; auto. split; auto. split; auto. split; auto. split; auto. split; auto. split; [lia|]. split; auto.
    + assert (W1 := vshape_in m x y 1 0 L I ltac:(lia) ltac:(lia)). exists x, y, 1, 0. rewrite !Z.add_0_r in *. split; auto. split; auto. split; auto. split; auto. split; auto. split; auto. split; auto. split; [lia|]. split; auto.
  - destruct (ZB _ H1) as [Z1 P1]. cbn [Z.leb Z.compare]. rewrite (proj2 (Z.leb_le 0 _)) by auto. rewrite Z1. cbn [option_map]. destruct (SH c H1) as (x & y & -> & I).
    destruct D as [-> | ->]; cbn [upd at0 nth Nat.sub Nat.eqb] in *.
    + assert (W0 := vshape_in m x y 1 0 L I ltac:(lia) ltac:(lia)). assert (W1 := vshape_in m x y 1 1 L I ltac:(lia) ltac:(lia)). exists (x + 1), y, 0, 1. rewrite !Z.add_0_r in *. replace (x + 1 - 1) with x by lia. replace (y - 0) with y by lia.
      split; auto. split; auto. split; auto. split; auto. split; auto. split; auto. split; [lia|]. split; auto. split; auto. right. split; auto. cbn in H2 |- *. lia.
    + assert (W0 := vshape_in m x y 0 1 L I ltac:(lia) ltac:(lia)). assert (W1 := vshape_in m x y 1 1 L I ltac:(lia) ltac:(lia)). exists x, (y + 1), 1, 0. rewrite !Z.add_0_r in *. replace (y + 1 - 1) with y by lia. replace (x - 0) with x by lia.
      split; auto. split; auto. split; auto. split; auto. split; auto. split; auto. split; [lia|]. split; auto. split; auto. right. split; auto. cbn in H2 |- *. lia.
Qed.
(** vertex block: row i is i and the position vertex(i), for every vertex of the mesh and no other i *)
Definition vertex_rows_ok (tok : Type) (fm : numfmt tok) (m : mesh2) (vr : list (list tok)) : Prop :=
  forall i, nth_error vr i = option_map (fun p => [put_int fm (Z.of_nat i); put_dbl fm (fst p); put_dbl fm (snd p)]) (vertex2 m (Z.of_nat i)).
(** an edge between exterior cells a and b (-2: outside of the domain) is a side of both, walked in opposite directions by their boundary loops *)
Definition separates (m : mesh2) (a b u v : Z) : Prop :=
  exists s, (s = (u, v) \/ s = (v, u)) /\ (0 <= a \/ 0 <= b) /\
    (0 <= b -> exists l, cell2 m (b + num_cutfaces m) = Some [l] /\ In s (loop_sides l)) /\
    (0 <= a -> exists l, cell2 m (a + num_cutfaces m) = Some [l] /\ In (zswap s) (loop_sides l)).
(** edge block: one row per edge of the mesh, numbered in order: cut edges first, then the facets of the exterior grid *)
Definition edge_rows_ok (m : mesh2) (E : list edge4) (ts : Z -> option (Qc * Qc)) (er : list (list Z)) : Prop :=
  Z.of_nat (length er) = num_edges2 m /\
  (forall i e, nth_error (m2_edges m) i = Some e -> exists l r, nth_error er i = Some [Z.of_nat i; fst (e2_ix e); snd (e2_ix e); l; r] /\ sides_spec E ts (Z.of_nat i) (e2_id e) l r) /\
  (forall k d a b, nth_error (facets (m2_cells m) (m2_mask m)) k = Some (d, (a, b)) -> exists u v cols,
     nth_error er (length (m2_edges m) + k) = Some (num_cutedges m + Z.of_nat k :: u :: v :: cols) /\ (labelled E -> cols = [-1; -1]) /\ (~ labelled E -> cols = []) /\
     separates m a b u v /\ (exists p q, vertex2 m u = Some p /\ vertex2 m v = Some q /\ axis2 q (1 - d) = (axis2 p (1 - d) + axis2 (m2_dx m) (1 - d))%Qc /\ axis2 q d = axis2 p d)).
(** element block: for every cell in index order one row per boundary loop: index, number of vertices, the vertices, region *)
Definition element_rows_ok (m : mesh2) (el : list (list Z)) : Prop :=
  exists rows, el = concat rows /\ Z.of_nat (length rows) = num_faces2 m /\
  forall i rs, nth_error rows i = Some rs -> exists loops reg, cell2 m (Z.of_nat i) = Some loops /\ nth_error (regions2 m) i = Some reg /\
    rs = map (fun l => Z.of_nat i :: Z.of_nat (length l) :: l ++ [reg]) loops.

Lemma vertices2_nth m i : pos_shape (vshape2 m) -> nth_error (vertices2 m) i = vertex2 m (Z.of_nat i).
Proof.
  intros PS. assert (P := shape_size_pos PS). assert (AR := all_coords_ravel PS). set (N := shape_size (vshape2 m)) in *.
  assert (LN : length (all_coords (vshape2 m)) = Z.to_nat N) by (rewrite <- (map_length (ravel (vshape2 m))), AR; apply zrange_length).
  unfold vertices2, vertex2, masked_vertex. rewrite (proj2 (Z.ltb_ge (Z.of_nat i) 0)) by lia. fold N. destruct (Z.ltb_spec (Z.of_nat i) N) as [H|H].
  - rewrite nth_error_app1 by (rewrite map_length; lia). rewrite nth_error_map. destruct (nth_error (all_coords (vshape2 m)) i) as [c|] eqn:Ec; [|apply nth_error_None in Ec; lia].
    assert (Er : nth_error (map (ravel (vshape2 m)) (all_coords (vshape2 m))) i = Some (ravel (vshape2 m) c)) by (rewrite nth_error_map; exact (f_equal (option_map (ravel (vshape2 m))) Ec)).
    rewrite AR in Er. unfold zrange in Er. rewrite nth_error_map, (nth_error_nth' _ 0%nat) in Er by (rewrite List.seq_length; lia). rewrite seq_nth in Er by lia. cbn in Er. apply Some_inj in Er. cbn. do 2 f_equal. f_equal. rewrite <- (unravel_ravel (vshape2 m) c); [f_equal; lia|]. apply all_coords_In. eapply nth_error_In; eauto.
  - rewrite nth_error_app2 by (rewrite map_length; lia). rewrite nth_error_map, map_length. f_equal. f_equal. lia.
Qed.
Lemma quad_sides m x y : loop_sides (quad m x y) = let v a b := ravel (vshape2 m) [a; b] in
  [(v x y, v x (y + 1)); (v x (y + 1), v (x + 1) (y + 1)); (v (x + 1) (y + 1), v (x + 1) y); (v (x + 1) y, v x y)].
Proof. reflexivity. Qed.
Lemma facet_row_ok m d a b : length (m2_cells m) = 2%nat -> In (d, (a, b)) (facets (m2_cells m) (m2_mask m)) -> exists u v, facet_ends m (d, (a, b)) = Some (u, v) /\ separates m a b u v /\
  (exists p q, vertex2 m u = Some p /\ vertex2 m v = Some q /\ axis2 q (1 - d) = (axis2 p (1 - d) + axis2 (m2_dx m) (1 - d))%Qc /\ axis2 q d = axis2 p d).
Proof.
  intros L H. destruct (facet_ends_spec m d a b L H) as (x & y & dx & dy & F & I1 & I2 & D & Ex & Ey & Hb & Ha & Ca & Cb). eexists. eexists. split; [exact F|]. split.
  - assert (AB : 0 <= a \/ 0 <= b). { apply c34_facets_exact in H as [_ H]. destruct (c33_index_bijection (m2_cells m) (m2_mask m)) as (_ & B & _). destruct H as [(c & H1 & _ & -> & _)|[(_ & c & H1 & _ & ->)|(_ & _ & c & H1 & _ & ->)]]; apply B in H1; lia. }
    assert (D' : d = 0%nat \/ d = 1%nat) by lia. destruct D' as [-> | ->]; cbn [Nat.eqb] in Ex, Ey; subst dx dy.
    + exists (ravel (vshape2 m) [x; y], ravel (vshape2 m) [x + 0; y + 1]). split; auto. split; auto. split; intros P.
      * destruct (Hb P) as [E1 E2]. exists (quad m x y). split; [apply cell2_ext; auto|]. rewrite quad_sides, Z.add_0_r. cbn. auto.
      * destruct (Ha P) as [E1 E2]. exists (quad m (x - 1) (y - 0)). split; [apply cell2_ext; auto|]. rewrite quad_sides. unfold zswap. cbn [fst snd]. replace (y - 0) with y by lia. replace (x - 1 + 1) with x by lia. rewrite Z.add_0_r. cbn. auto.
    + exists (ravel (vshape2 m) [x + 1; y + 0], ravel (vshape2 m) [x; y]). split; auto. split; auto. split; intros P.
      * destruct (Hb P) as [E1 E2]. exists (quad m x y). split; [apply cell2_ext; auto|]. rewrite quad_sides, Z.add_0_r. cbn. auto.
      * destruct (Ha P) as [E1 E2]. exists (quad m (x - 0) (y - 1)). split; [apply cell2_ext; auto|]. rewrite quad_sides. unfold zswap. cbn [fst snd]. replace (x - 0) with x by lia. replace (y - 1 + 1) with y by lia. rewrite Z.add_0_r. cbn. auto.
  - rewrite !vertex2_grid by auto. eexists. eexists. split; [reflexivity|]. split; [reflexivity|].
    assert (D' : d = 0%nat \/ d = 1%nat) by lia. destruct D' as [-> | ->]; cbn [Nat.eqb] in Ex, Ey; subst dx dy; cbn [axis2 Nat.sub fst snd]; rewrite Z2Qc_plus, ?Z2Qc_1, Z.add_0_r; split; auto; ring.
Qed.
Lemma ext_row_ok m i row : length (m2_cells m) = 2%nat -> 0 <= i -> ext_cell_row m i = Some row -> exists l reg, cell2 m (num_cutfaces m + i) = Some [l] /\ zat (m2_ext_regions m) i = Some reg /\
  row = num_cutfaces m + i :: Z.of_nat (length l) :: l ++ [reg].
Proof.
  intros L Hi. unfold ext_cell_row. destruct (zat (cell_coords _ _) i) as [c|] eqn:C; [|discriminate]. destruct (zat (m2_ext_regions m) i) as [r|] eqn:R; [|discriminate]. intros H. apply Some_inj in H. subst row.
  apply zat_Some in C as [_ C]. destruct (c33_index_bijection (m2_cells m) (m2_mask m)) as (_ & _ & B & _). destruct (B _ _ C) as [X IX]. destruct (coord2 _ _ L (proj1 X)) as (x & y & ->). exists (quad m x y), r.
  split; [rewrite Z.add_comm; apply cell2_ext; auto; lia|]. split; auto. cbn. replace (y + 1 - 1) with y by lia. auto.
Qed.
Lemma nth_map_Some (A B : Type) (g : A -> option B) l r k x : map g l = map Some r -> nth_error l k = Some x -> exists y, g x = Some y /\ nth_error r k = Some y.
Proof.
  intros H N. assert (E : nth_error (map g l) k = nth_error (map Some r) k) by congruence. rewrite !nth_error_map, N in E. cbn in E. destruct (nth_error r k) as [y|]; [|discriminate]. exists y. split; auto. cbn in E. apply Some_inj in E. auto.
Qed.
Lemma concat_enum_rows (A B : Type) (g : Z * A -> list B) l : flat_map g (enum l) = concat (map g (enum l)).
Proof. apply flat_map_concat_map. Qed.
Lemma edge_cols_ok m E ts ec : length (m2_cells m) = 2%nat -> edge_cols m E ts = Some ec -> edge_rows_ok m E ts (map (fun ie => fst ie :: snd ie) (combine (zrange 0 (length ec)) ec)).
Proof.
  intros L H. apply all_some_spec in H.
  assert (LE : length ec = (length (m2_edges m) + length (facets (m2_cells m) (m2_mask m)))%nat).
  { apply (f_equal (@length _)) in H. rewrite app_length, !map_length in H. unfold enum, zseq in H. rewrite combine_length, map_length, List.seq_length in H. lia. }
  assert (NR : forall i, nth_error (map (fun ie => fst ie :: snd ie) (combine (zrange 0 (length ec)) ec)) i = option_map (cons (Z.of_nat i)) (nth_error ec i)).
  { intros i. rewrite nth_error_map, zrange_enum. destruct (nth_error ec i); auto. }
  assert (LL : length (enum (m2_edges m)) = length (m2_edges m)). { unfold enum, zseq. rewrite combine_length, map_length, List.seq_length. lia. }
  split; [|split].
  - rewrite map_length, combine_length, zrange_length. unfold num_edges2, ext_facets, num_cutedges. lia.
  - intros i e Hi. rewrite NR. assert (Ni : nth_error (map Some ec) i = nth_error (map (cut_edge_cols E ts) (enum (m2_edges m))) i). { rewrite <- H. apply nth_error_app1. rewrite map_length, LL. apply nth_error_Some. congruence. }
    rewrite !nth_error_map, enum_nth, Hi in Ni. cbn in Ni. destruct (nth_error ec i) as [cols|]; [|discriminate]. cbn in Ni. apply Some_inj in Ni. unfold cut_edge_cols in Ni. cbn [fst snd] in Ni. destruct (edge_sides E ts (Z.of_nat i) e) as [[l r]|] eqn:ES; [|discriminate]. apply Some_inj in Ni. subst cols.
    exists l, r. split; auto. apply edge_sides_spec; auto.
  - intros k d a b Hk. rewrite NR. assert (Ni : nth_error (map Some ec) (length (m2_edges m) + k) = nth_error (map (facet_cols m E) (facets (m2_cells m) (m2_mask m))) k). { rewrite <- H. rewrite nth_error_app2 by (rewrite map_length; lia). rewrite map_length. f_equal. lia. }
    rewrite !nth_error_map, Hk in Ni. cbn [option_map] in Ni. destruct (nth_error ec _) as [cols|]; [|discriminate]. cbn in Ni. apply Some_inj in Ni. destruct (facet_row_ok m d a b L (nth_error_In _ _ Hk)) as (u & v & FE & SP & PQ). unfold facet_cols in Ni. rewrite FE in Ni. apply Some_inj in Ni. subst cols.
    exists u, v, (if use_bc E then [-1; -1] else []). split; [cbn; do 2 f_equal; unfold num_cutedges; lia|]. split; [|split; [|split; auto]]; intros HL.
    + apply use_bc_labelled in HL. rewrite HL. auto.
    + destruct (use_bc E) eqn:U; auto. apply use_bc_labelled in U. contradiction.
Qed.
Lemma element_rows_spec m el : length (m2_cells m) = 2%nat -> element_rows m = Some el -> element_rows_ok m el.
Proof.
  intros L. unfold element_rows. destruct (all_some _) as [r|] eqn:AS; [|discriminate]. intros H. cbn in H. apply Some_inj in H. subst el. apply all_some_spec in AS.
  assert (LL : length (enum (m2_faces m)) = length (m2_faces m)). { unfold enum, zseq. rewrite combine_length, map_length, List.seq_length. lia. }
  assert (EC : 0 <= ext_cells m). { unfold ext_cells. rewrite num_cells. lia. }
  assert (LR : length r = Z.to_nat (ext_cells m)). { apply (f_equal (@length _)) in AS. rewrite !map_length in AS. unfold zseq in AS. rewrite map_length, List.seq_length in AS. auto. }
  exists (map (fun '(i, f) => cut_face_rows i f) (enum (m2_faces m)) ++ map (fun x => [x]) r). split; [|split].
  - rewrite concat_app, flat_map_concat_map. f_equal. clear. induction r; cbn; congruence.
  - rewrite app_length, !map_length, LL. unfold num_faces2, num_cutfaces. lia.
  - intros i rs Hi. destruct (Nat.lt_ge_cases i (length (m2_faces m))) as [Lt|Ge].
    + rewrite nth_error_app1 in Hi by (rewrite map_length; lia). rewrite nth_error_map, enum_nth in Hi. destruct (nth_error (m2_faces m) i) as [f|] eqn:F; [|discriminate]. cbn in Hi. apply Some_inj in Hi. subst rs. exists (f2_loops f), (f2_region f). split; [|split; [|reflexivity]].
      * unfold cell2, num_cutfaces. rewrite (proj2 (Z.ltb_lt _ _)), (proj2 (Z.ltb_ge _ 0)) by lia. rewrite Nat2Z.id, F. auto.
      * unfold regions2. rewrite nth_error_app1 by (rewrite map_length; auto). rewrite nth_error_map, F. auto.
    + rewrite nth_error_app2 in Hi by (rewrite map_length; lia). rewrite nth_error_map, map_length, LL in Hi. destruct (nth_error r (i - length (m2_faces m))) as [row|] eqn:R; [|discriminate]. cbn in Hi. apply Some_inj in Hi. subst rs.
      assert (Er : nth_error (map (ext_cell_row m) (zseq (ext_cells m))) (i - length (m2_faces m)) = Some (Some row)) by (rewrite AS, nth_error_map, R; auto).
      rewrite nth_error_map in Er. unfold zseq in Er. rewrite nth_error_map in Er. assert (i - length (m2_faces m) < length r)%nat by (apply nth_error_Some; congruence).
      rewrite (nth_error_nth' _ 0%nat) in Er by (rewrite List.seq_length; lia). rewrite seq_nth in Er by lia. cbn [option_map Nat.add] in Er. apply Some_inj in Er.
      destruct (ext_row_ok m (Z.of_nat (i - length (m2_faces m))) row L ltac:(lia) Er) as (l & reg & C & Rg & ->). replace (num_cutfaces m + Z.of_nat (i - length (m2_faces m))) with (Z.of_nat i) in * by (unfold num_cutfaces; lia). exists [l], reg. split; auto. split; auto.
      unfold regions2. rewrite nth_error_app2 by (rewrite map_length; lia). rewrite map_length. apply zat_Some in Rg as [_ Rg]. rewrite Nat2Z.id in Rg. auto.
Qed.
(** *** C145 *)
Theorem c145_file : forall tok fm kwel m E ts f, length (m2_cells m) = 2%nat -> pos_shape (vshape2 m) -> @write_cutmesh2 tok fm kwel m E ts = Some f ->
  exists vr er el, blocks tok fm kwel f vr (map (map (put_int fm)) er) (map (map (put_int fm)) el) /\
    vertex_rows_ok tok fm m vr /\ edge_rows_ok m E ts er /\ element_rows_ok m el.
Proof.
  intros tok fm kwel m E ts f L PS H. unfold write_cutmesh2 in H. destruct (edge_cols m E ts) as [ec|] eqn:EC; [|discriminate]. destruct (element_rows m) as [el|] eqn:EL; [|discriminate]. apply Some_inj in H. subst f.
  exists (map (vrow fm) (combine (zrange 0 (length (vertices2 m))) (vertices2 m))), (map (fun ie => fst ie :: snd ie) (combine (zrange 0 (length ec)) ec)), el.
  split; [|split; [|split; [apply edge_cols_ok; auto|apply element_rows_spec; auto]]].
  - unfold blocks, write_plcurve. rewrite map_map. cbn [app]. f_equal. rewrite <- app_assoc. f_equal.
  - intros i. rewrite nth_error_map, zrange_enum. rewrite <- vertices2_nth by auto. destruct (nth_error (vertices2 m) i); auto.
Qed.
(** the writer succeeds whenever every piece of an input edge is recorded with its parent and the exterior regions are complete: the
    "File a bug report" branch, which would print an uninitialised corner, is never taken *)
Theorem c145_writes : forall tok fm kwel m E ts, length (m2_cells m) = 2%nat ->
  (forall i e k, nth_error (m2_edges m) i = Some e -> e2_id e = MeshEdge k -> (exists t, ts (Z.of_nat i) = Some t) /\ (labelled E -> 0 <= k < Z.of_nat (length E))) ->
  Z.of_nat (length (m2_ext_regions m)) = ext_cells m -> exists f, @write_cutmesh2 tok fm kwel m E ts = Some f.
Proof.
  intros tok fm kwel m E ts L HE HR. assert (G : forall (A : Type) (l : list (option A)), (forall x, In x l -> x <> None) -> exists r, all_some l = Some r).
  { clear. induction l as [|x l IH]; intros H; [exists []; auto|]. destruct IH as (r & Hr); [intros; apply H; cbn; auto|]. assert (x <> None) by (apply H; cbn; auto). destruct x as [a|]; [|congruence]. exists (a :: r). cbn. fold (all_some l). rewrite Hr. auto. }
  unfold write_cutmesh2. destruct (G _ (map (cut_edge_cols E ts) (enum (m2_edges m)) ++ map (facet_cols m E) (facets (m2_cells m) (m2_mask m)))) as (ec & EC).
  { intros x Hx. apply in_app_or in Hx as [Hx|Hx]; apply in_map_iff in Hx as (y & <- & Hy).
    - apply In_nth_error in Hy as (i & Hy). rewrite enum_nth in Hy. destruct (nth_error (m2_edges m) i) as [e|] eqn:Ei; [|discriminate]. cbn in Hy. apply Some_inj in Hy. subst y. unfold cut_edge_cols, edge_sides. cbn [fst snd].
      destruct (e2_id e) as [k|] eqn:Ek; [|discriminate]. destruct (HE i e k Ei Ek) as [([t0 t1] & ->) HK]. destruct (use_bc E) eqn:U; [|discriminate]. apply use_bc_labelled in U. specialize (HK U). unfold zat. rewrite (proj2 (Z.ltb_ge k 0)) by lia.
      destruct (nth_error E (Z.to_nat k)) as [[[[? ?] ?] ?]|] eqn:N; [destruct (qltb t1 t0); discriminate|]. apply nth_error_None in N. lia.
    - destruct y as (d & a & b). destruct (facet_row_ok m d a b L Hy) as (u & v & F & _). unfold facet_cols. match goal with |- context [facet_ends m ?z] => replace (facet_ends m z) with (Some (u, v)) by (symmetry; exact F) end. discriminate. }
  unfold edge_cols. rewrite EC. destruct (G _ (map (ext_cell_row m) (zseq (ext_cells m)))) as (r & ER).
  { intros x Hx. apply in_map_iff in Hx as (i & <- & Hi). apply zseq_in in Hi. unfold ext_cell_row, zat. rewrite (proj2 (Z.ltb_ge i 0)) by lia. destruct (c33_index_bijection (m2_cells m) (m2_mask m)) as (LN & _).
    destruct (nth_error (cell_coords _ _) (Z.to_nat i)) eqn:N1; [|apply nth_error_None in N1; unfold ext_cells in Hi; lia]. destruct (nth_error (m2_ext_regions m) (Z.to_nat i)) eqn:N2; [discriminate|apply nth_error_None in N2; lia]. }
  unfold element_rows. rewrite ER. cbn. eauto.
Qed.
(** every facet of the exterior grid is written once: different rows have different endpoints *)
Theorem c145_facets_once : forall m k k' d d' p p', length (m2_cells m) = 2%nat -> nth_error (facets (m2_cells m) (m2_mask m)) k = Some (d, p) -> nth_error (facets (m2_cells m) (m2_mask m)) k' = Some (d', p') ->
  facet_ends m (d, p) = facet_ends m (d', p') -> k = k'.
Proof.
  intros m k k' d d' [a b] [a' b'] L H H' EQ. destruct (facet_ends_spec m d a b L (nth_error_In _ _ H)) as (x & y & dx & dy & F & I1 & I2 & D & Ex & Ey & Hb & Ha & Ca & Cb).
  destruct (facet_ends_spec m d' a' b' L (nth_error_In _ _ H')) as (x' & y' & dx' & dy' & F' & I1' & I2' & D' & Ex' & Ey' & Hb' & Ha' & Ca' & Cb').
  assert (EQ1 := eq_trans (eq_sym F) (eq_trans EQ F')). clear EQ. rename EQ1 into EQ. apply Some_inj in EQ. apply pair_equal_spec in EQ as [E1 E2]. apply ravel_inj in E1; auto. apply ravel_inj in E2; auto. injection E1 as <- <-. injection E2 as E2 E3.
  assert (ED : d = d'). { destruct d as [|[|]], d' as [|[|]]; cbn in *; try lia. } subst d'. rewrite <- Ex' in Ex. rewrite <- Ey' in Ey. subst dx dy.
  assert (RG : exterior (m2_cells m) (m2_mask m) [x; y] -> (if Nat.eqb d 0 then x else y) < at0 (m2_cells m) d). { intros [I _]. apply in_shape_pt in I as [_ I]. rewrite L in I. specialize (I d D). destruct d as [|[|]]; cbn in *; lia. }
  assert (RL : exterior (m2_cells m) (m2_mask m) [x - dy'; y - dx'] -> 0 < (if Nat.eqb d 0 then x else y)). { intros [I _]. apply in_shape_pt in I as [_ I]. rewrite L in I. specialize (I d D). destruct d as [|[|]]; cbn in *; lia. }
  assert (EA : a = a'). { destruct Ca as [Ca|[-> Ca]], Ca' as [Ca'|[-> Ca']]; auto; [destruct (Ha Ca), (Ha' Ca'); congruence|exfalso|exfalso]; [apply Ha in Ca as [Ca _]|apply Ha' in Ca' as [Ca' _]]; apply RL in Ca || apply RL in Ca'; lia. }
  assert (EB : b = b'). { destruct Cb as [Cb|[-> Cb]], Cb' as [Cb'|[-> Cb']]; auto; [destruct (Hb Cb), (Hb' Cb'); congruence|exfalso|exfalso]; [apply Hb in Cb as [Cb _]|apply Hb' in Cb' as [Cb' _]]; apply RG in Cb || apply RG in Cb'; lia. }
  subst. assert (ND := facets_NoDup (m2_cells m) (m2_mask m)). rewrite NoDup_nth_error in ND. apply ND; [apply nth_error_Some; congruence|congruence].
Qed.
(** *** reading the file back *)
Record reads_elements (tok : Type) (fm : numfmt tok) (kwel : tok) : Prop := { re_v : is_vertices fm kwel = false; re_e : is_edges fm kwel = false; re_x : is_elements fm kwel = true }.
Lemma read_app tok (fm : numfmt tok) f g : forall r, (forall l r, In l f -> read_line fm l r <> None) -> read_lines fm (f ++ g) r = read_lines fm g (read_lines fm f r).
Proof.
  induction f as [|l f IH]; intros r H; [auto|]. cbn [app read_lines]. assert (X : read_line fm l r <> None) by (apply H; cbn; auto). destruct (read_line fm l r); [|congruence]. apply IH. intros. apply H. cbn; auto.
Qed.
Lemma edge_cols_shape m E ts ec : edge_cols m E ts = Some ec -> exists E4, Forall2 (fun e e4 => pad e = Some e4) ec E4.
Proof.
  intros H. apply all_some_spec in H. assert (A : forall c, In c ec -> exists e4, pad c = Some e4).
  { intros c Hc. assert (Hs : In (Some c) (map Some ec)) by (apply in_map; auto). rewrite <- H in Hs. apply in_app_or in Hs as [Hs|Hs]; apply in_map_iff in Hs as (y & Hy & _).
    - unfold cut_edge_cols in Hy. destruct (edge_sides _ _ _ _) as [[l r]|]; [|discriminate]. apply Some_inj in Hy. subst c. cbn. eauto.
    - unfold facet_cols in Hy. destruct (facet_ends m y) as [[u v]|]; [|discriminate]. apply Some_inj in Hy. subst c. destruct (use_bc E); cbn; eauto. }
  clear H. induction ec as [|c ec IH]; [exists []; constructor|]. destruct IH as (E4 & F); [intros; apply A; cbn; auto|]. destruct (A c) as (e4 & Hc); [cbn; auto|]. exists (e4 :: E4). constructor; auto.
Qed.
Lemma read_file tok fm rnd kwel m E ts f : fmt_ok tok fm rnd -> reads_elements tok fm kwel -> @write_cutmesh2 tok fm kwel m E ts = Some f ->
  exists ec E4, edge_cols m E ts = Some ec /\ Forall2 (fun e e4 => pad e = Some e4) ec E4 /\ read_plcurve fm f = read_plcurve fm (write_plcurve fm (vertices2 m) ec).
Proof.
  intros OK RE H. unfold write_cutmesh2 in H. destruct (edge_cols m E ts) as [ec|] eqn:EC; [|discriminate]. destruct (element_rows m) as [el|]; [|discriminate]. apply Some_inj in H. subst f. destruct (edge_cols_shape _ _ _ _ EC) as (E4 & F). exists ec, E4. split; auto. split; auto.
  unfold read_plcurve. rewrite read_app.
  - set (r := read_lines fm (write_plcurve fm (vertices2 m) ec) (mkRd Init [] [])). assert (X : read_lines fm ([[]; [kwel]] ++ map (map (put_int fm)) el) r = r). { cbn [app read_lines read_line]. rewrite (re_v _ _ _ RE), (re_e _ _ _ RE), (re_x _ _ _ RE). auto. } rewrite X. auto.
  - intros l r0 Hl. assert (M : forall a b t, read_line fm (a :: b :: t) r0 <> None). { intros a b t. cbn [read_line]. destruct (rd_state r0); [discriminate| |]; repeat match goal with |- context [match ?x with _ => _ end] => destruct x end; discriminate. }
    unfold write_plcurve in Hl. destruct Hl as [<-|Hl]; [cbn; rewrite (fo_v _ _ _ OK); discriminate|]. apply in_app_or in Hl as [Hl|Hl]; [apply in_map_iff in Hl as (y & <- & _); apply M|]. cbn [app] in Hl. destruct Hl as [<-|[<-|Hl]]; [discriminate|cbn; rewrite (fo_ve _ _ _ OK), (fo_e _ _ _ OK); discriminate|].
    apply in_map_iff in Hl as ((i & c) & <- & Hc). apply in_combine_r in Hc. unfold erow. cbn [fst snd]. destruct c as [|b c]; [|apply M]. exfalso. clear - F Hc. induction F as [|? ? ? ? P F IH]; [destruct Hc|]. destruct Hc as [->|Hc]; auto. discriminate.
Qed.
Lemma vertices2_length m : length (m2_cells m) = 2%nat -> pos_shape (vshape2 m) -> Z.of_nat (length (vertices2 m)) = shape_size (vshape2 m) + Z.of_nat (length (m2_verts m)).
Proof.
  intros L PS. unfold vertices2. rewrite app_length, !map_length. assert (LN : length (all_coords (vshape2 m)) = Z.to_nat (shape_size (vshape2 m))) by (rewrite <- (map_length (ravel (vshape2 m))), (all_coords_ravel PS); apply zrange_length). assert (P := shape_size_pos PS). lia.
Qed.
Lemma pad_of cols e : pad cols = Some e -> match cols with [u; v] => e = (u, v, -1, -1) | [u; v; l; r] => e = (u, v, l, r) | _ => False end.
Proof. destruct cols as [|u [|v [|l [|r [|]]]]]; cbn; intros H; try discriminate; apply Some_inj in H; auto. Qed.
(** when the mesh has no more edges than vertices, its own reader recovers the vertices (up to the rounding of the number format) and every edge with its labels;
    the remaining columns of the edge matrix are not edges of the mesh (C47) *)
Theorem c145_read_back_partial : forall tok fm rnd kwel m E ts f, fmt_ok tok fm rnd -> reads_elements tok fm kwel -> length (m2_cells m) = 2%nat -> pos_shape (vshape2 m) ->
  @write_cutmesh2 tok fm kwel m E ts = Some f -> 0 < num_edges2 m <= shape_size (vshape2 m) + Z.of_nat (length (m2_verts m)) ->
  exists V' E', read_plcurve fm f = Some (V', E') /\ length E' = length V' /\
    (forall i, nth_error V' i = option_map (fun p => (rnd (fst p), rnd (snd p))) (vertex2 m (Z.of_nat i))) /\
    (forall i e, nth_error (m2_edges m) i = Some e -> exists l r, nth_error E' i = Some (fst (e2_ix e), snd (e2_ix e), l, r) /\ sides_spec E ts (Z.of_nat i) (e2_id e) l r) /\
    (forall k d p u v, nth_error (facets (m2_cells m) (m2_mask m)) k = Some (d, p) -> facet_ends m (d, p) = Some (u, v) -> nth_error E' (length (m2_edges m) + k) = Some (u, v, -1, -1)).
Proof.
  intros tok fm rnd kwel m E ts f OK RE L PS W NE. destruct (read_file tok fm rnd kwel m E ts f OK RE W) as (ec & E4 & EC & F & R). assert (LV := vertices2_length m L PS).
  destruct (edge_cols_ok m E ts ec L EC) as (LE & CE & CF). rewrite map_length, combine_length, zrange_length, Nat.min_id in LE. assert (L4 := Forall2_len _ _ _ _ _ F).
  assert (LEV : (length ec <= length (vertices2 m))%nat) by lia.
  assert (NEc : ec <> []) by (destruct ec; [cbn in LE; lia|discriminate]).
  rewrite (c47_read_back_partial tok fm rnd _ _ _ OK F NEc LEV) in R. eexists. eexists. split; [exact R|]. split; [|split; [|split]].
  - rewrite app_length, !map_length, skipn_length. unfold vtx, q2 in *. lia.
  - intros i. rewrite nth_error_map. assert (X := vertices2_nth m i PS). unfold q2 in *. rewrite X. auto.
  - assert (N4 : forall i cols, nth_error ec i = Some cols -> exists e4, nth_error E4 i = Some e4 /\ pad cols = Some e4).
    { clear - F. induction F as [|? ? ? ? P F IH]; intros [|i] cols H; try discriminate; cbn in *; [apply Some_inj in H; subst; eauto|eauto]. }
    intros i e He. destruct (CE i e He) as (l & r & N & S). rewrite nth_error_map, zrange_enum in N. destruct (nth_error ec i) as [cols|] eqn:Ec; [|discriminate]. cbn in N. apply Some_inj in N. injection N as ->. destruct (N4 _ _ Ec) as (e4 & N & P). apply pad_of in P. subst e4. exists l, r. split; auto. rewrite nth_error_app1; auto. apply nth_error_Some. congruence.
  - assert (N4 : forall i cols, nth_error ec i = Some cols -> exists e4, nth_error E4 i = Some e4 /\ pad cols = Some e4).
    { clear - F. induction F as [|? ? ? ? P F IH]; intros [|i] cols H; try discriminate; cbn in *; [apply Some_inj in H; subst; eauto|eauto]. }
    intros k d p u v Hk FE. apply all_some_spec in EC. assert (LL : length (enum (m2_edges m)) = length (m2_edges m)). { unfold enum, zseq. rewrite combine_length, map_length, List.seq_length. lia. }
    assert (Ni : nth_error (map Some ec) (length (m2_edges m) + k) = nth_error (map (facet_cols m E) (facets (m2_cells m) (m2_mask m))) k). { rewrite <- EC. rewrite nth_error_app2 by (rewrite map_length; lia). rewrite map_length. f_equal. lia. }
    rewrite !nth_error_map, Hk in Ni. cbn [option_map] in Ni. destruct (nth_error ec (length (m2_edges m) + k)) as [cols|] eqn:Ec; [|discriminate]. cbn in Ni. apply Some_inj in Ni. unfold facet_cols in Ni. rewrite FE in Ni. apply Some_inj in Ni. destruct (N4 _ _ Ec) as (e4 & N & P). rewrite nth_error_app1 by (apply nth_error_Some; congruence). rewrite N. f_equal.
    subst cols. apply pad_of in P. destruct (use_bc E); auto.
Qed.
(** refuted: with more edges than vertices the reader of the same file format writes out of bounds *)
Theorem c145_read_back_refuted : forall tok fm rnd kwel m E ts f, fmt_ok tok fm rnd -> reads_elements tok fm kwel -> length (m2_cells m) = 2%nat -> pos_shape (vshape2 m) ->
  @write_cutmesh2 tok fm kwel m E ts = Some f -> shape_size (vshape2 m) + Z.of_nat (length (m2_verts m)) < num_edges2 m -> read_plcurve fm f = None.
Proof.
  intros tok fm rnd kwel m E ts f OK RE L PS W NE. destruct (read_file tok fm rnd kwel m E ts f OK RE W) as (ec & E4 & EC & F & R). assert (LV := vertices2_length m L PS).
  destruct (edge_cols_ok m E ts ec L EC) as (LE & _ & _). rewrite map_length, combine_length, zrange_length, Nat.min_id in LE. rewrite R. apply (c47_more_edges_refuted tok fm rnd _ _ E4); auto. unfold vtx, q2 in *. lia.
Qed.
(** and that is so for every uncut mesh of at least two by two cells *)
Lemma all_coords_len s : pos_shape s -> Z.of_nat (length (all_coords s)) = shape_size s.
Proof. intros PS. assert (P := shape_size_pos PS). rewrite <- (map_length (ravel s)), (all_coords_ravel PS), zrange_length. lia. Qed.
Lemma flat_map_ones (A B : Type) (g : A -> list B) l : (forall x, In x l -> length (g x) = 1%nat) -> length (flat_map g l) = length l.
Proof. induction l as [|x l IH]; intros H; auto. cbn. rewrite app_length, IH, H by (cbn; auto; intros; apply H; cbn; auto). auto. Qed.
Lemma full_facets n0 n1 mask : 2 <= n0 -> 2 <= n1 -> (forall c, in_shape [n0; n1] c = true -> mask c = true) -> Z.of_nat (length (facets [n0; n1] mask)) = n0 * (n1 + 1) + n1 * (n0 + 1).
Proof.
  intros H0 H1 M. assert (IX : forall x y, 0 <= x < n0 -> 0 <= y < n1 -> 0 <= cell_ix [n0; n1] mask [x; y]).
  { intros x y Hx Hy. apply ix_nn. apply filter_In. assert (I : in_shape [n0; n1] [x; y] = true) by (cbn; lia). split; auto. apply all_coords_In. auto. }
  assert (IN : forall a b c, In c (all_coords [a; b]) -> exists x y, c = [x; y] /\ 0 <= x < a /\ 0 <= y < b). { intros a b c Hc. apply all_coords_In in Hc. destruct (coord2 [a; b] c eq_refl Hc) as (x & y & ->). exists x, y. cbn in Hc. split; auto. lia. }
  assert (LN : forall a b, 0 < a -> 0 < b -> Z.of_nat (length (all_coords [a; b])) = a * b). { intros a b Ha Hb. rewrite all_coords_len by (repeat constructor; auto). cbn. lia. }
  unfold facets. cbn [length seq flat_map]. rewrite app_nil_r, app_length, !map_length. unfold axis_facets. cbn [upd at0 nth].
  rewrite (proj2 (Z.ltb_ge (n0 - 1) 1)), (proj2 (Z.ltb_ge (n1 - 1) 1)) by lia. rewrite !app_length. rewrite !flat_map_ones.
  - rewrite !Nat2Z.inj_add, !LN by lia. ring.
  - intros v Hv. apply IN in Hv as (x & y & -> & Hx & Hy). cbn [upd at0 nth]. rewrite (proj2 (Z.leb_le 0 _)) by (apply IX; lia). auto.
  - intros v Hv. apply IN in Hv as (x & y & -> & Hx & Hy). cbn [upd at0 nth]. rewrite !(proj2 (Z.eqb_neq _ (-1))); auto; [assert (X := IX x (y + 1) ltac:(lia) ltac:(lia)); lia|assert (X := IX x y ltac:(lia) ltac:(lia)); lia].
  - intros v Hv. apply IN in Hv as (x & y & -> & Hx & Hy). rewrite (proj2 (Z.leb_le 0 _)) by (apply IX; lia). auto.
  - intros v Hv. apply IN in Hv as (x & y & -> & Hx & Hy). cbn [upd at0 nth]. rewrite (proj2 (Z.leb_le 0 _)) by (apply IX; lia). auto.
  - intros v Hv. apply IN in Hv as (x & y & -> & Hx & Hy). cbn [upd at0 nth]. rewrite !(proj2 (Z.eqb_neq _ (-1))); auto; [assert (X := IX (x + 1) y ltac:(lia) ltac:(lia)); lia|assert (X := IX x y ltac:(lia) ltac:(lia)); lia].
  - intros v Hv. apply IN in Hv as (x & y & -> & Hx & Hy). rewrite (proj2 (Z.leb_le 0 _)) by (apply IX; lia). auto.
Qed.
Theorem c145_uncut_refuted : forall tok fm rnd kwel m n0 n1 E ts f, fmt_ok tok fm rnd -> reads_elements tok fm kwel -> m2_cells m = [n0; n1] -> 2 <= n0 -> 2 <= n1 -> m2_verts m = [] ->
  (forall c, in_shape [n0; n1] c = true -> m2_mask m c = true) -> @write_cutmesh2 tok fm kwel m E ts = Some f -> read_plcurve fm f = None.
Proof.
  intros tok fm rnd kwel m n0 n1 E ts f OK RE C H0 H1 V M W. apply (c145_read_back_refuted tok fm rnd kwel m E ts); auto.
  - rewrite C. auto.
  - unfold vshape2. rewrite C. repeat constructor; lia.
  - unfold num_edges2, ext_facets, vshape2, num_cutedges. rewrite C, V, full_facets by auto. cbn. nia.
Qed.
(** Example: one labelled input edge cut a 3 by 1 grid's first cell; and an uncut 2 by 2 grid *)
Definition xtok2 := (xtok + unit)%type.
Definition xfmt2 : numfmt xtok2 := mkFmt (fun z => inl (XI z)) (fun q => inl (XD q)) (fun t => match t with inl t => stoi xfmt t | _ => None end) (fun t => match t with inl t => stod xfmt t | _ => None end)
  (inl XV) (inl XE) (fun t => match t with inl t => is_vertices xfmt t | _ => false end) (fun t => match t with inl t => is_edges xfmt t | _ => false end) (fun t => match t with inr _ => true | _ => false end).
Example c145_fmt : fmt_ok xtok2 xfmt2 (fun q => q) /\ reads_elements xtok2 xfmt2 (inr tt).
Proof. split; constructor; auto. Qed.
Definition cf_sample : mesh2 := mkMesh2 (0, 0)%Qc (1, 1)%Qc [2; 1] [mkVertex [0; 0] [qhalf; 0%Qc] [false; true]; mkVertex [0; 1] [qhalf; 0%Qc] [false; true]]
  [mkEdge2 [None; None] (7, 6) (MeshEdge 0) None] [mkFace2 [[0; 6; 7; 1]] 0; mkFace2 [[6; 2; 3; 7]] 1] (fun c => at0 c 0 =? 1) [(0, [0; 1])] [] [1].
Definition cf_ts (i : Z) : option (Qc * Qc) := if i =? 0 then Some (1%Qc, 0%Qc) else None.
Example c145_sample : option_map (fun f => (map (map (fun t => match t with inl (XI z) => Some z | _ => None end)) (skipn 9 f))) (write_cutmesh2 xfmt2 (inr tt) cf_sample [(0, 1, 4, 5)] cf_ts) =
  Some [[]; [None]; map Some [0; 7; 6; 5; 4]; map Some [1; 4; 5; -1; -1]; map Some [2; 2; 4; -1; -1]; []; [None];
        map Some [0; 4; 0; 6; 7; 1; 0]; map Some [1; 4; 6; 2; 3; 7; 1]; map Some [2; 4; 2; 3; 5; 4; 1]].
Proof. vm_compute. reflexivity. Qed.
Example c145_hypotheses : length (m2_cells cf_sample) = 2%nat /\ pos_shape (vshape2 cf_sample) /\ labelled [(0, 1, 4, 5)] /\
  0 < num_edges2 cf_sample <= shape_size (vshape2 cf_sample) + Z.of_nat (length (m2_verts cf_sample)) /\
  option_map snd (match write_cutmesh2 xfmt2 (inr tt) cf_sample [(0, 1, 4, 5)] cf_ts with Some f => read_plcurve xfmt2 f | None => None end) =
    Some [(7, 6, 5, 4); (4, 5, -1, -1); (2, 4, -1, -1); (1, 1, -1, -1); (2, 0, -1, -1); (2, 1, -1, -1); (0, 0, -1, -1); (0, 1, -1, -1)].
Proof.
  split; auto. split; [repeat constructor|]. split; [exists 0, 1, 4, 5; cbn; split; auto; lia|]. split; [vm_compute; split; auto; discriminate|]. vm_compute. reflexivity.
Qed.
Definition cf_uncut : mesh2 := mkMesh2 (0, 0)%Qc (1, 1)%Qc [2; 2] [] [] [] (fun _ => true) [] [] [0; 0; 0; 0].
Example c145_uncut_example : match write_cutmesh2 xfmt2 (inr tt) cf_uncut [] cf_ts with Some f => length f = 30%nat /\ read_plcurve xfmt2 f = None | None => False end.
Proof. vm_compute. auto. Qed.
