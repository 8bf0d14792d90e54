(** C130: the axis-aligned slices prepared by bake_faces of the 3D generator. *)
From Verif Require Import Base Num CoordMask CoordMaskSpec CoordMaskProofs Vertex VertexSpec VertexProofs VertexTypes Grid GridEdges SmallestEdge SubGrid SubGridProofs
  ActiveMask PropsActiveMask Hem PropsHem Generator PropsGenerator2 Slices.
Set Implicit Arguments.
Local Open Scope Z_scope.

(** * Specification *)
(** coordinates x along axis i, a and b along the two following axes (cyclically) *)
Definition along_axes (i : nat) (x a b : Z) (c : coord) : Prop :=
  length c = 3%nat /\ nth_error c i = Some x /\ nth_error c ((i + 1) mod 3) = Some a /\ nth_error c ((i + 2) mod 3) = Some b.
(** the unit square (a, b) of the plane k of axis i is next to a grid cell touched by a crossing *)
Definition touched_square (crs : list vertex) (i : nat) (k a b : Z) : Prop :=
  exists x c, (x = k - 1 \/ x = k) /\ along_axes i x a b c /\ touched crs c.

(** * The masks *)
Lemma find_set (A : Type) k j (v : A) m : ssorted Z.compare (keys m) -> map_find Z.compare k (map_set Z.compare j v m) = if k =? j then Some v else map_find Z.compare k m.
Proof.
  intros S. rewrite (map_find_set Zcompare_total) by auto. destruct (Z.eqb_spec k j) as [->|N]; [rewrite Z.compare_refl; auto|]. destruct (k ?= j) eqn:C; auto. apply Z.compare_eq in C. contradiction.
Qed.
Lemma flag_sorted sh c2 j ah : ssorted Z.compare (keys ah) -> ssorted Z.compare (keys (flag sh c2 j ah)).
Proof.
  intros S. unfold flag. set (ah' := match map_find Z.compare j ah with Some _ => ah | None => _ end). assert (S' : ssorted Z.compare (keys ah')).
  { unfold ah'. destruct (map_find Z.compare j ah); auto. apply (map_set_sorted Zcompare_total); auto. }
  destruct (map_find Z.compare j ah') as [[? ?]|]; auto. apply (map_set_sorted Zcompare_total); auto.
Qed.
(** the previous entries of a slice, false nowhere when there is no record *)
Definition entries (o : option slice_mask) (x : coord) : bool := match o with Some (_, m) => m x | None => true end.
Lemma flag_find sh c2 j ah k : ssorted Z.compare (keys ah) -> (forall r, map_find Z.compare j ah = Some r -> fst r = sh) ->
  map_find Z.compare k (flag sh c2 j ah) = map_find Z.compare k ah /\ k <> j \/
  k = j /\ exists m, map_find Z.compare k (flag sh c2 j ah) = Some (sh, m) /\ forall x, m x = false <-> x = c2 \/ entries (map_find Z.compare k ah) x = false.
Proof.
  intros S HS. unfold flag. destruct (map_find Z.compare j ah) as [[sh0 m0]|] eqn:F; cbv zeta.
  - assert (sh0 = sh) by (apply (HS _ eq_refl)). subst sh0. rewrite F, find_set by auto. destruct (Z.eqb_spec k j) as [->|N]; [right|left; auto]. split; auto. eexists. split; [reflexivity|]. intros x. rewrite F. cbn [entries].
    destruct (ceqb x c2) eqn:E; [apply ceqb_eq in E; tauto|]. split; auto. intros [->|H]; auto. exfalso. rewrite (proj2 (ceqb_eq c2 c2)) in E; auto. discriminate.
  - assert (S' : ssorted Z.compare (keys (map_set Z.compare j (sh, fun _ : coord => true) ah))) by (apply (map_set_sorted Zcompare_total); auto).
    rewrite find_set, Z.eqb_refl, find_set, find_set by auto. destruct (Z.eqb_spec k j) as [->|N]; [right|left; auto]. split; auto. eexists. split; [reflexivity|]. intros x. rewrite F. cbn [entries].
    destruct (ceqb x c2) eqn:E; [apply ceqb_eq in E; tauto|]. split; [discriminate|]. intros [->|H]; auto. rewrite (proj2 (ceqb_eq c2 c2)) in E; auto.
Qed.
Section Masks.
  Variable s : list Z.
  Variable i : nat.
  Let p1 := ((i + 1) mod 3)%nat.
  Let p2 := ((i + 2) mod 3)%nat.
  Let SH := map (fun n => n - 1) (subgrid_shape (vshape s) i).
  Definition hits (c : coord) (k : Z) : Prop :=
    0 <= cz c p1 < cz s p1 /\ 0 <= cz c p2 < cz s p2 /\ ((cz c i = k /\ 0 <= k) \/ (cz c i + 1 = k /\ k < cz (vshape s) i)).
  Definition good (ah : list (Z * slice_mask)) : Prop := ssorted Z.compare (keys ah) /\ forall k r, map_find Z.compare k ah = Some r -> fst r = SH.
  Lemma flag_good c2 j ah : good ah -> good (flag SH c2 j ah).
  Proof.
    intros [S H]. split; [apply flag_sorted; auto|]. intros k r F. destruct (@flag_find SH c2 j ah k S (H j)) as [[E _]|[-> (m & E & _)]]; [rewrite E in F; eauto|].
    rewrite E in F. apply Some_inj in F. subst r. auto.
  Qed.
  Lemma flag_cell_find ah c k : good ah -> good (flag_cell s i ah c) /\
    ((hits c k /\ exists m, map_find Z.compare k (flag_cell s i ah c) = Some (SH, m) /\ forall x, m x = false <-> x = [cz c p1; cz c p2] \/ entries (map_find Z.compare k ah) x = false) \/
     (~ hits c k /\ map_find Z.compare k (flag_cell s i ah c) = map_find Z.compare k ah)).
  Proof.
    intros G. unfold flag_cell. fold p1 p2. destruct (Z.ltb_spec (cz c p1) 0), (Z.leb_spec (cz s p1) (cz c p1)); cbn [orb]; try (split; auto; right; split; auto; unfold hits; lia).
    destruct (Z.ltb_spec (cz c p2) 0), (Z.leb_spec (cz s p2) (cz c p2)); cbn [orb]; try (split; auto; right; split; auto; unfold hits; lia).
    fold SH. set (c2 := [cz c p1; cz c p2]).
    set (ah1 := if 0 <=? cz c i then flag SH c2 (cz c i) ah else ah).
    assert (G1 : good ah1) by (unfold ah1; destruct (0 <=? cz c i); auto; apply flag_good; auto).
    assert (F1 : (cz c i = k /\ 0 <= k /\ exists m, map_find Z.compare k ah1 = Some (SH, m) /\ forall x, m x = false <-> x = c2 \/ entries (map_find Z.compare k ah) x = false) \/
                 (~ (cz c i = k /\ 0 <= k) /\ map_find Z.compare k ah1 = map_find Z.compare k ah)).
    { unfold ah1. destruct (Z.leb_spec 0 (cz c i)); [|right; split; [lia|auto]]. destruct (@flag_find SH c2 (cz c i) ah k (proj1 G) (proj2 G (cz c i))) as [[E N]|[-> X]]; [right; split; [lia|auto]|left; auto]. }
    assert (F2 : let r := if cz c i + 1 <? cz (vshape s) i then flag SH c2 (cz c i + 1) ah1 else ah1 in
                 good r /\ ((cz c i + 1 = k /\ k < cz (vshape s) i /\ exists m, map_find Z.compare k r = Some (SH, m) /\ forall x, m x = false <-> x = c2 \/ entries (map_find Z.compare k ah1) x = false) \/
                 (~ (cz c i + 1 = k /\ k < cz (vshape s) i) /\ map_find Z.compare k r = map_find Z.compare k ah1))).
    { cbv zeta. destruct (Z.ltb_spec (cz c i + 1) (cz (vshape s) i)); [|split; auto; right; split; [lia|auto]]. split; [apply flag_good; auto|].
      destruct (@flag_find SH c2 (cz c i + 1) ah1 k (proj1 G1) (proj2 G1 (cz c i + 1))) as [[E N]|[-> X]]; [right; split; [lia|auto]|left; auto]. }
    cbv zeta in F2. destruct F2 as [G2 F2]. split; auto. unfold hits. destruct F1 as [(A1 & A2 & m & A3 & A4)|[A1 A2]], F2 as [(B1 & B2 & m' & B3 & B4)|[B1 B2]].
    - lia.
    - left. split; [lia|]. exists m. rewrite B2. auto.
    - left. split; [lia|]. exists m'. rewrite B3. split; auto. rewrite <- A2. auto.
    - right. split; [lia|]. congruence.
  Qed.
  Lemma fold_find L : forall ah k, good ah -> good (fold_left (flag_cell s i) L ah) /\
    (((exists c, In c L /\ hits c k) /\ exists m, map_find Z.compare k (fold_left (flag_cell s i) L ah) = Some (SH, m) /\
        forall x, m x = false <-> (exists c, In c L /\ hits c k /\ x = [cz c p1; cz c p2]) \/ entries (map_find Z.compare k ah) x = false) \/
     ((forall c, In c L -> ~ hits c k) /\ map_find Z.compare k (fold_left (flag_cell s i) L ah) = map_find Z.compare k ah)).
  Proof.
    induction L as [|c L IH]; intros ah k G; cbn [fold_left].
    - split; auto.
    - destruct (flag_cell_find c k G) as [G1 F1]. destruct (IH _ k G1) as [G2 F2]. split; auto.
      destruct F1 as [(A1 & m & A2 & A3)|[A1 A2]], F2 as [((c' & B0 & B1) & m' & B2 & B3)|[B1 B2]].
      + left. split; [exists c; simpl; auto|]. exists m'. split; auto. intros x. rewrite B3, A2. cbn [entries]. rewrite A3. split.
        * intros [(d & D & D')|[->|H]]; [left; exists d; simpl; tauto|left; exists c; simpl; auto|auto].
        * intros [(d & [<-|D] & D1 & D2)|H]; [auto|left; eauto|auto].
      + left. split; [exists c; simpl; auto|]. exists m. rewrite B2. split; auto. intros x. rewrite A3. split.
        * intros [->|H]; [left; exists c; simpl; auto|auto].
        * intros [(d & [<-|D] & D1 & D2)|H]; [auto|destruct (B1 d D D1)|auto].
      + left. split; [exists c'; simpl; auto|]. exists m'. split; auto. intros x. rewrite B3, A2. split.
        * intros [(d & D & D')|H]; [left; exists d; simpl; tauto|auto].
        * intros [(d & [<-|D] & D1 & D2)|H]; [contradiction|left; eauto|auto].
      + right. split; [|congruence]. intros d [<-|D]; auto.
  Qed.
End Masks.

Lemma nth_cz c j x : nth_error c j = Some x -> cz c j = x.
Proof. unfold cz. intros H. apply nth_error_nth. auto. Qed.
Lemma cz_nth c j : (j < length c)%nat -> nth_error c j = Some (cz c j).
Proof. intros H. unfold cz. apply nth_error_nth'. auto. Qed.
Lemma cz_vshape s j : (j < length s)%nat -> cz (vshape s) j = cz s j + 1.
Proof. intros H. apply nth_cz. unfold vshape. rewrite nth_error_map, (cz_nth s) by auto. auto. Qed.
Lemma mod3 j : (j mod 3 < 3)%nat. Proof. apply Nat.mod_upper_bound. lia. Qed.
Lemma along_cz i c : (i < 3)%nat -> length c = 3%nat -> along_axes i (cz c i) (cz c ((i + 1) mod 3)) (cz c ((i + 2) mod 3)) c.
Proof. intros Hi L. split; auto. split; [|split]; apply cz_nth; rewrite L; auto using mod3. Qed.
Lemma Forall2_length' (A B : Type) (R : A -> B -> Prop) l m : Forall2 R l m -> length l = length m.
Proof. induction 1; cbn; auto. Qed.
Lemma touched_length crs c D : crossings_ok D crs -> touched crs c -> length c = D.
Proof. intros OK (v & Hv & H). destruct (OK v Hv) as ((A & B & _) & _). unfold in_closed_cell in H. apply Forall2_length' in H. unfold pos in H. rewrite H. rewrite zipwith_length; congruence. Qed.

Section Slice.
  Variable s : list Z.
  Variable i : nat.
  Variable crs : list vertex.
  Hypothesis Ls : length s = 3%nat.
  Hypothesis Hi : (i < 3)%nat.
  Hypothesis OK : crossings_ok 3 crs.
  Let p1 := ((i + 1) mod 3)%nat.
  Let p2 := ((i + 2) mod 3)%nat.
  Lemma hits_square k a b : 0 <= k <= cz s i ->
    (exists c, In c (active_cells crs) /\ hits s i c k /\ [a; b] = [cz c p1; cz c p2]) <-> 0 <= a < cz s p1 /\ 0 <= b < cz s p2 /\ touched_square crs i k a b.
  Proof.
    intros Hk. unfold hits. fold p1 p2. rewrite cz_vshape by (rewrite Ls; auto). split.
    - intros (c & I & (H1 & H2 & H3) & E). injection E as -> ->. apply (active_cells_In _ OK) in I. split; [auto|]. split; [auto|]. exists (cz c i), c. split; [lia|]. split; auto. apply along_cz; auto. apply (touched_length OK I).
    - intros (H1 & H2 & x & c & Hx & (L & N0 & N1 & N2) & T). exists c. split; [apply (active_cells_In _ OK); auto|]. fold p1 p2 in N1, N2. rewrite (nth_cz _ _ N0), (nth_cz _ _ N1), (nth_cz _ _ N2). split; auto. split; auto. split; auto. lia.
  Qed.
  Theorem slice_mask_exact k n1 n2 : nth_error s p1 = Some n1 -> nth_error s p2 = Some n2 -> 0 <= k <= cz s i ->
    match map_find Z.compare k (slice_masks s crs i) with
    | Some (sh, m) => sh = [n1; n2] /\ forall a b, 0 <= a < n1 -> 0 <= b < n2 -> m [a; b] = false <-> touched_square crs i k a b
    | None => forall a b, 0 <= a < n1 -> 0 <= b < n2 -> ~ touched_square crs i k a b
    end.
  Proof.
    intros N1 N2 Hk. unfold slice_masks. assert (G : good s i []) by (split; [constructor|discriminate]).
    assert (HS : forall a b, 0 <= a < n1 -> 0 <= b < n2 -> (exists c, In c (active_cells crs) /\ hits s i c k /\ [a; b] = [cz c p1; cz c p2]) <-> touched_square crs i k a b).
    { intros a b Ha Hb. rewrite hits_square by auto. rewrite (nth_cz _ _ N1), (nth_cz _ _ N2). tauto. }
    destruct (fold_find (active_cells crs) k G) as [_ [((c & I & H) & m & E & X)|[X E]]]; rewrite E.
    - split.
      + unfold subgrid_shape. fold p1 p2. cbn [map]. rewrite !cz_vshape by (rewrite Ls; apply mod3). rewrite (nth_cz _ _ N1), (nth_cz _ _ N2). f_equal; [lia|f_equal; lia].
      + intros a b Ha Hb. rewrite X. cbn [entries map_find]. rewrite <- HS by auto. split; [intros [H'|H']; [auto|discriminate]|auto].
    - cbn [map_find]. intros a b Ha Hb T. apply HS in T as (c & I & H & _); auto. apply (X c I H).
  Qed.
End Slice.
(** The 2D mask of the plane k of axis i is false exactly on the unit squares next to a touched grid cell; without a record there is no such square. *)
Theorem c130_slice_mask : forall s i crs k n n1 n2, length s = 3%nat -> (i < 3)%nat -> crossings_ok 3 crs ->
  nth_error s i = Some n -> nth_error s ((i + 1) mod 3) = Some n1 -> nth_error s ((i + 2) mod 3) = Some n2 -> 0 <= k <= n ->
  match map_find Z.compare k (slice_masks s crs i) with
  | Some (sh, m) => sh = [n1; n2] /\ forall a b, 0 <= a < n1 -> 0 <= b < n2 -> m [a; b] = false <-> touched_square crs i k a b
  | None => forall a b, 0 <= a < n1 -> 0 <= b < n2 -> ~ touched_square crs i k a b
  end.
Proof. intros s i crs k n n1 n2 Ls Hi OK N N1 N2 Hk. apply slice_mask_exact; auto. rewrite (nth_cz _ _ N). auto. Qed.

(** A crossing in the plane, inside the domain, makes sure that the record of the plane exists before the parallel loop over the planes starts. *)
Theorem c130_slice_exists : forall s i crs k v, length s = 3%nat -> (i < 3)%nat -> crossings_ok 3 crs -> (forall n, In n s -> 1 <= n) ->
  In v crs -> (forall j x n, nth_error (pos v) j = Some x -> nth_error s j = Some n -> (0 <= x)%Qc /\ (x <= Z2Qc n)%Qc) -> nth_error (pos v) i = Some (Z2Qc k) ->
  exists r, map_find Z.compare k (slice_masks s crs i) = Some r.
Proof.
  intros s i crs k v Ls Hi OK PS I IN E. destruct (OK v I) as ((L1 & L2 & L3) & NO & _).
  assert (LP : length (pos v) = 3%nat) by (unfold pos; rewrite zipwith_length; congruence).
  (* on every axis there is a cell of the grid whose closed interval contains the coordinate *)
  assert (CE : forall j, (j < 3)%nat -> exists x, nth_error (pos v) j = Some x /\ exists z, 0 <= z < cz s j /\ (Z2Qc z <= x)%Qc /\ (x <= Z2Qc z + 1)%Qc).
  { intros j Hj. destruct (nth_error (pos v) j) as [x|] eqn:X; [|apply nth_error_None in X; lia]. exists x. split; auto. assert (N := cz_nth s (j := j) ltac:(lia)). destruct (IN j x _ X N) as [A B].
    assert (P1 : 1 <= cz s j) by (apply PS; eapply nth_error_In; eauto).
    unfold pos in X. rewrite nth_error_zipwith in X. destruct (nth_error (v_coord v) j) as [c|]; [|discriminate]. destruct (nth_error (v_quot v) j) as [q|] eqn:C; [|discriminate]. apply Some_inj in X. subst x.
    assert (Q : (0 <= q /\ q < 1)%Qc). { unfold normalised in NO. rewrite Forall_forall in NO. apply NO. apply nth_error_In in C. auto. }
    assert (C0 : 0 <= c). { destruct (Z_lt_le_dec c 0) as [C0|]; auto. exfalso. assert (H : (Z2Qc c <= Z2Qc (-1))%Qc) by (apply Z2Qc_le; lia). assert (Z1 : (Z2Qc (-1) = -(1))%Qc) by reflexivity. rewrite Z1 in H. qc_lra. }
    assert (C1 : c <= cz s j). { destruct (Z_le_gt_dec c (cz s j)) as [|C1]; auto. exfalso. assert (H : (Z2Qc (cz s j + 1) <= Z2Qc c)%Qc) by (apply Z2Qc_le; lia). rewrite Z2Qc_plus, Z2Qc_1 in H. qc_lra. }
    destruct (Z.eq_dec c (cz s j)) as [EC|NC].
    - exists (c - 1). split; [lia|]. rewrite <- EC in B. assert (ZC : Z2Qc c = (Z2Qc (c - 1) + 1)%Qc) by (rewrite <- Z2Qc_1, <- Z2Qc_plus; f_equal; lia). rewrite ZC in B |- *. split; qc_lra.
    - exists c. split; [lia|]. split; qc_lra. }
  destruct (CE 0%nat ltac:(lia)) as (x0 & X0 & z0 & R0 & A0), (CE 1%nat ltac:(lia)) as (x1 & X1 & z1 & R1 & A1), (CE 2%nat ltac:(lia)) as (x2 & X2 & z2 & R2 & A2).
  set (c := [z0; z1; z2]).
  assert (T : touched crs c).
  { exists v. split; auto. unfold in_closed_cell. destruct (pos v) as [|y0 [|y1 [|y2 [|]]]]; try discriminate. cbn [nth_error] in X0, X1, X2. apply Some_inj in X0, X1, X2. subst y0 y1 y2. repeat constructor; tauto. }
  assert (RG : forall j, (j < 3)%nat -> 0 <= cz c j < cz s j) by (intros [|[|[|j]]] Hj; [exact R0|exact R1|exact R2|lia]).
  assert (KI : cz c i = k - 1 \/ cz c i = k).
  { assert (H : (Z2Qc (cz c i) <= Z2Qc k)%Qc /\ (Z2Qc k <= Z2Qc (cz c i) + 1)%Qc).
    { destruct i as [|[|[|j]]]; [rewrite E in X0; apply Some_inj in X0; subst x0; exact A0|rewrite E in X1; apply Some_inj in X1; subst x1; exact A1|rewrite E in X2; apply Some_inj in X2; subst x2; exact A2|lia]. }
    destruct H as [H1 H2]. rewrite <- Z2Qc_1, <- Z2Qc_plus in H2. apply (proj1 (Z2Qc_le _ _)) in H1. apply (proj1 (Z2Qc_le _ _)) in H2. lia. }
  assert (M := @c130_slice_mask s i crs k _ _ _ Ls Hi OK (cz_nth s (j := i) ltac:(lia)) (cz_nth s (j := (i + 1) mod 3) ltac:(rewrite Ls; apply mod3)) (cz_nth s (j := (i + 2) mod 3) ltac:(rewrite Ls; apply mod3))).
  assert (RI := RG i Hi). specialize (M ltac:(lia)). destruct (map_find Z.compare k (slice_masks s crs i)) as [r|]; [eauto|]. exfalso.
  apply (M (cz c ((i + 1) mod 3)) (cz c ((i + 2) mod 3))); [apply RG, mod3|apply RG, mod3|]. exists (cz c i), c. split; auto. split; auto. apply along_cz; auto.
Qed.

(** * The edges of a slice *)
(** every edge of the mesh in the plane, once, with its smaller vertex first *)
Theorem c130_slice_edges : forall cut grid dim k, NoDup (slice_edges cut grid dim k) /\
  forall a b, In (a, b) (slice_edges cut grid dim k) <->
    a <= b /\ exists e, (e = (a, b) \/ e = (b, a)) /\ ((exists m p, In (m, e, p) cut /\ of_plane dim k m) \/ (exists m, In (m, e) grid /\ of_plane dim k m)).
Proof.
  intros cut grid dim k. destruct (c119_slice cut grid dim k) as [_ SL]. unfold slice_edges. split; [apply (ssorted_NoDup edge_cmp_total), (set_of_list_sorted edge_cmp_total)|].
  intros a b. rewrite (set_of_list_In edge_cmp_total), in_map_iff, c119_axial.
  match goal with |- context [In _ ?X] => assert (EX : X = edge_slice cut grid dim k) by (destruct (edge_slice cut grid dim k); reflexivity) end.
  rewrite EX. clear EX.
  split.
  - intros ([x y] & E & I). apply SL in I. unfold sort_edge in E. destruct (Z.ltb_spec y x); injection E as <- <-; (split; [lia|]); exists (x, y); auto.
  - intros (L & e & [-> | ->] & H); apply SL in H; [exists (a, b)|exists (b, a)]; (split; [|auto]); unfold sort_edge; destruct (Z.ltb_spec b a), (Z.ltb_spec a b); auto; try lia; f_equal; lia.
Qed.

(** * The boundary edges of a slice *)
(** the grid edge between the neighbouring vertices p and q of the slice separates a touched square of the slice from an untouched square or the outside *)
Definition separates_touched (crs : list vertex) (i : nat) (k n1 n2 : Z) (p q : Z * Z) : Prop :=
  let T a b := 0 <= a < n1 /\ 0 <= b < n2 /\ touched_square crs i k a b in
  let '(x, y) := p in
  (q = (x, y + 1) /\ one_of (T (x - 1) y) (T x y)) \/ (q = (x + 1, y) /\ one_of (T x (y - 1)) (T x y)).
Theorem c130_slice_boundary : forall s i crs k n n1 n2, length s = 3%nat -> (i < 3)%nat -> crossings_ok 3 crs ->
  nth_error s i = Some n -> nth_error s ((i + 1) mod 3) = Some n1 -> nth_error s ((i + 2) mod 3) = Some n2 -> (forall x, In x s -> 1 <= x) -> 0 <= k <= n ->
  match slice_boundary s crs i k with
  | Some es => NoDup es /\ forall u v, In (u, v) es <-> exists p q, vertex_ok n1 n2 p /\ vertex_ok n1 n2 q /\ separates_touched crs i k n1 n2 p q /\
      slice_vertex (map (fun x => x + 1) s) i k p u /\ slice_vertex (map (fun x => x + 1) s) i k q v
  | None => forall a b, 0 <= a < n1 -> 0 <= b < n2 -> ~ touched_square crs i k a b
  end.
Proof.
  intros s i crs k n n1 n2 Ls Hi OK N N1 N2 PS Hk. assert (M := @c130_slice_mask s i crs k n n1 n2 Ls Hi OK N N1 N2 Hk). unfold slice_boundary.
  destruct (map_find Z.compare k (slice_masks s crs i)) as [[sh m]|]; [|exact M]. destruct M as [-> M].
  assert (EH : subgrid_shape (vshape s) i = [n1 + 1; n2 + 1]). { unfold subgrid_shape. rewrite !cz_vshape by (rewrite Ls; apply mod3). rewrite (nth_cz _ _ N1), (nth_cz _ _ N2). auto. }
  rewrite EH. assert (B1 : 1 <= n1) by (apply PS; eapply nth_error_In; eauto). assert (B2 : 1 <= n2) by (apply PS; eapply nth_error_In; eauto).
  assert (SS : slice_shape (vshape s) i n1 n2 k).
  { unfold slice_shape, vshape. rewrite map_length. split; auto. split; auto. split; [unfold pos_shape; rewrite Forall_forall; intros x I; apply in_map_iff in I as (y & <- & I); specialize (PS y I); lia|].
    rewrite !nth_error_map, N, N1, N2. cbn [option_map]. split; auto. split; auto. exists (n + 1). split; auto. lia. }
  split; [apply (ssorted_NoDup edge_cmp_total), (set_of_list_sorted edge_cmp_total)|]. intros u v. rewrite (embed_edges_In m u v SS) by lia.
  assert (CT : forall a b, cut_cell2 n1 n2 m a b <-> 0 <= a < n1 /\ 0 <= b < n2 /\ touched_square crs i k a b).
  { intros a b. unfold cut_cell2. split; intros (H1 & H2 & H3); (split; [auto|]); (split; [auto|]); apply M; auto. }
  assert (SE : forall p q, separates n1 n2 m p q <-> separates_touched crs i k n1 n2 p q).
  { intros [x y] q. unfold separates, separates_touched, one_of. rewrite !CT. tauto. }
  split; intros (p & q & H1 & H2 & H3 & H4); exists p, q; (split; [auto|]); (split; [auto|]); (split; [apply SE; auto|auto]).
Qed.

(** One crossing in the interior of a cell of a 2x2x2 grid and one on the plane z = 1: the masks of the planes of axis 2 *)
Definition c130_crs : list vertex :=
  [mkVertex [0; 0; 0] [Q2Qc (1 # 2); Q2Qc (1 # 3); Q2Qc (1 # 2)] [false; false; false]; mkVertex [1; 1; 1] [Q2Qc (1 # 2); Q2Qc (1 # 2); 0%Qc] [false; false; true]].
Example c130_ex_ok : crossings_ok 3 c130_crs.
Proof.
  assert (HQ : (0 <= Q2Qc (1 # 3) /\ Q2Qc (1 # 3) < 1)%Qc /\ (0 <= Q2Qc (1 # 2) /\ Q2Qc (1 # 2) < 1)%Qc /\ (0 <= 0 /\ 0 < 1)%Qc /\ Q2Qc (1 # 3) <> 0%Qc /\ Q2Qc (1 # 2) <> 0%Qc) by (repeat split; discriminate).
  destruct HQ as (A & B & C & E & F). intros v Hv.
  destruct Hv as [<-|[<-|[]]]; (split; [repeat split|split; [repeat constructor; cbn; tauto|repeat constructor; cbn; intros; try discriminate; try congruence; auto]]).
Qed.
Example c130_ex_masks : map (fun '(k, (_, m)) => (k, map m [[0; 0]; [0; 1]; [1; 0]; [1; 1]])) (slice_masks [2; 2; 2] c130_crs 2) =
  [(0, [false; true; true; false]); (1, [false; true; true; false]); (2, [true; true; true; false])].
Proof. vm_compute. reflexivity. Qed.
Example c130_ex_boundary : option_map (@length _) (slice_boundary [2; 2; 2] c130_crs 2 2) = Some 4%nat.
Proof. vm_compute. reflexivity. Qed.
