(** C105 (which faces a planar cut mesh has and to which grid cells they belong) and C106 (the edges of a face and their signs). *)
From Verif Require Import Base Num CoordMask CoordMaskSpec CoordMaskProofs Vertex VertexSpec VertexProofs Grid SmallestEdge SmallestEdgeSpec SmallestEdgeProofs Sparse Interp PropsTriang CellCollapser Gen2.
From Coq Require Import Permutation.
Set Implicit Arguments.
Local Open Scope Z_scope.

(** * Specification *)
Definition x_of (V : Z -> vertex) (i : Z) : Qc := nth 0 (pos (V i)) 0%Qc.
Definition y_of (V : Z -> vertex) (i : Z) : Qc := nth 1 (pos (V i)) 0%Qc.
(** the directed sides of a closed loop *)
Definition loop_sides (l : list Z) : list (Z * Z) := map (fun j => (nth j l 0, nth ((j + 1) mod length l) l 0)) (seq 0 (length l)).
(** twice the signed area enclosed by the loops of a face, in grid units *)
Definition twice_area2 (V : Z -> vertex) (f : list (list Z)) : Qc :=
  lsum (fun l => lsum (fun '(a, b) => (x_of V a * y_of V b - x_of V b * y_of V a)%Qc) (loop_sides l)) f.
(** the cell c is the lower corner of the bounding box of the face's vertices, rounded down *)
Definition lower_corner (V : Z -> vertex) (f : list (list Z)) (c : coord) : Prop :=
  length c = 2%nat /\ forall i ci, nth_error c i = Some ci ->
    (exists j, In j (concat f) /\ nth_error (v_coord (V j)) i = Some ci) /\
    (forall j x, In j (concat f) -> nth_error (v_coord (V j)) i = Some x -> ci <= x).
(** a face: at least one loop, no empty loop, vertices in the plane with fractional parts in [0,1) *)
Definition face_ok (V : Z -> vertex) (f : list (list Z)) : Prop :=
  f <> [] /\ (forall l, In l f -> l <> []) /\ forall j, In j (concat f) -> v_wf 2 (V j) /\ normalised (V j).

(** * Lemmas *)
Lemma sides_eq l : sides l = loop_sides l. Proof. reflexivity. Qed.
Lemma loop_sides_cyc l : loop_sides l = combine l (tl l ++ firstn 1 l).
Proof. unfold loop_sides. rewrite <- cyc_nth. destruct l; reflexivity. Qed.
Lemma loop_sides_In l e : In e (loop_sides l) <-> loop_edge l e.
Proof.
  unfold loop_sides, loop_edge. rewrite in_map_iff. split.
  - intros (i & E & Hi). apply in_seq in Hi. exists i. split; [lia|auto].
  - intros (i & Hi & ->). exists i. split; auto. apply in_seq. lia.
Qed.

Lemma loop_area_spec V l : (loop_area V l * (1 + 1))%Qc = lsum (fun '(a, b) => (x_of V a * y_of V b - x_of V b * y_of V a)%Qc) (loop_sides l).
Proof.
  unfold loop_area, shoelace. unfold Mesh2.q2. set (g := fun i => (nth 0 (pos (V i)) 0%Qc, nth 1 (pos (V i)) 0%Qc)).
  assert (E : combine (map g l) (tl (map g l) ++ firstn 1 (map g l)) = map (fun '(a, b) => (g a, g b)) (loop_sides l)).
  { rewrite loop_sides_cyc. assert (T : tl (map g l) ++ firstn 1 (map g l) = map g (tl l ++ firstn 1 l)).
    { destruct l; auto. simpl. rewrite map_app. reflexivity. }
    rewrite T. generalize (tl l ++ firstn 1 l). clear T. induction l as [|a l IH]; intros [|b m]; simpl; auto. f_equal. apply IH. }
  rewrite E, lsum_map. rewrite (@lsum_ext _ _ (fun '(a, b) => (x_of V a * y_of V b - x_of V b * y_of V a)%Qc)); [|intros [a b] _; unfold g, x_of, y_of; cbn [fst snd]; ring].
  set (q := lsum _ _). field. intros H; apply (f_equal this) in H; vm_compute in H; discriminate.
Qed.

Lemma face_area_spec V f : (face_area2 V f * (1 + 1))%Qc = twice_area2 V f.
Proof.
  unfold face_area2, twice_area2.
  assert (H : forall l s, (fold_left (fun s l => s + loop_area V l) l s * (1 + 1))%Qc = (s * (1 + 1) + lsum (fun l => lsum (fun '(a, b) => (x_of V a * y_of V b - x_of V b * y_of V a)%Qc) (loop_sides l)) l)%Qc).
  { induction l as [|a l IH]; intros s; cbn [fold_left lsum]; [ring|]. rewrite IH, Qcmult_plus_distr_l, loop_area_spec. ring. }
  rewrite H. ring.
Qed.

Lemma neg_area V f : qltb (face_area2 V f) (- qhalf)%Qc = true <-> (twice_area2 V f < - (1))%Qc.
Proof.
  rewrite qltb_lt, <- face_area_spec. set (q := face_area2 V f).
  assert (H2 : (0 < 1 + 1)%Qc) by reflexivity. assert (E : (- (1) = - qhalf * (1 + 1))%Qc) by (apply Qc_is_canon; reflexivity).
  rewrite E. split; intros H.
  - apply Qcmult_lt_compat_r; auto.
  - destruct (Qclt_le_dec q (- qhalf)%Qc) as [|G]; auto. exfalso. apply (Qclt_not_le _ _ H). apply Qcmult_le_compat_r; auto. apply Qclt_le_weak; auto.
Qed.

Lemma unbound_cells c : length c = 2%nat -> possible_cells [None; None] c = [c].
Proof.
  intros L. apply (ssorted_ext zlex_total); [apply possible_cells_sorted|repeat constructor|].
  intros x. rewrite possible_cells_In by (unfold coord in *; simpl; lia). unfold incident, CoordMaskSpec.bound. split.
  - intros [L' H]. left. apply nth_error_ext. intros i. destruct (nth_error c i) as [a|] eqn:E, (nth_error x i) as [b|] eqn:E'; auto.
    + destruct (H i a b E E') as [->|[(z & Hz) _]]; auto. destruct i as [|[|[|]]]; discriminate.
    + exfalso. apply nth_error_Some_lt in E. apply nth_error_None in E'. unfold coord in *. lia.
    + exfalso. apply nth_error_Some_lt in E'. apply nth_error_None in E. unfold coord in *. lia.
  - intros [<-|[]]. split; auto. intros i a b E E'. left. congruence.
Qed.

Lemma face_cells_low V f : face_ok V f -> exists c, face_cells2 V f = Some [c] /\ lower_corner V f c.
Proof.
  intros (N & NE & W). unfold face_cells2. rewrite min_coord2_concat by auto.
  destruct (min_coord (fun i => v_coord (V i)) (concat f)) as [c|] eqn:E.
  - destruct (@min_coord_spec (fun i => v_coord (V i)) 2 (concat f) c) as [L H]; auto. { intros i Hi. apply (W i Hi). }
    exists c. cbn [option_map]. rewrite unbound_cells by auto. split; auto. split; auto.
  - exfalso. destruct f as [|[|i l] f]; [congruence|apply (NE []); simpl; auto|]. simpl in E. discriminate.
Qed.

Lemma lower_unique V f c c' : lower_corner V f c -> lower_corner V f c' -> c = c'.
Proof.
  intros [L H] [L' H']. apply nth_error_ext. intros i.
  destruct (nth_error c i) as [x|] eqn:E, (nth_error c' i) as [y|] eqn:E'; auto.
  - destruct (H i x E) as [(j & Hj & Ej) A]. destruct (H' i y E') as [(j' & Hj' & Ej') A']. f_equal.
    assert (G := A _ _ Hj' Ej'). assert (G2 := A' _ _ Hj Ej). lia.
  - exfalso. apply nth_error_Some_lt in E. apply nth_error_None in E'. unfold coord in *. lia.
  - exfalso. apply nth_error_Some_lt in E'. apply nth_error_None in E. unfold coord in *. lia.
Qed.

(** * C105 *)
(** C105. The faces of the mesh are, in order, the faces found by the half-edge mesh that have a loop, area at least -1/2 and whose lower
    corner cell is cut (mask entry false). *)
Theorem c105_faces : forall s act V mf r, (forall i f, In (i, f) mf -> f <> [] -> face_ok V f) -> gen_faces2 s act V mf = Some r ->
  exists keep, r = map snd (filter keep mf) /\
    forall i f, In (i, f) mf -> (keep (i, f) = true <-> f <> [] /\ (- (1) <= twice_area2 V f)%Qc /\ exists c, lower_corner V f c /\ act c = false).
Proof.
  intros s act V mf r W HR. exists (fun p => match keep_face2 s act V (snd p) with Some b => b | None => false end). split.
  - revert r HR. clear W. induction mf as [|[i f] mf IH]; intros r; simpl; [intros H; apply Some_inj in H; auto|].
    destruct (keep_face2 s act V f) as [b|]; [|discriminate]. destruct (gen_faces2 s act V mf) as [t|]; [|discriminate].
    intros H. apply Some_inj in H. subst r. rewrite (IH t eq_refl). destruct b; reflexivity.
  - intros i f Hf. assert (HK : exists b, keep_face2 s act V f = Some b).
    { clear W. revert r HR. induction mf as [|[i' f'] mf IH]; intros r; simpl; [destruct Hf|].
      destruct (keep_face2 s act V f') as [b|] eqn:Eb; [|discriminate]. destruct (gen_faces2 s act V mf) as [t|]; [|discriminate].
      intros H. destruct Hf as [E|Hf]; [injection E as -> ->; eauto|eauto]. }
    destruct HK as [b HK]. cbn [snd]. rewrite HK. unfold keep_face2 in HK.
    destruct f as [|l f0] eqn:Ef; [apply Some_inj in HK; subst b; split; [discriminate|intros (H & _); congruence]|].
    rewrite <- Ef in *. assert (NE : f <> []) by (rewrite Ef; discriminate). clear Ef l f0.
    destruct (face_cells_low (W _ _ Hf NE)) as (c & Hc & Lc). unfold is_boundary_facet2 in HK. rewrite Hc in HK.
    destruct (in_shape s c); [|discriminate]. apply Some_inj in HK. subst b. rewrite andb_true_iff, !negb_true_iff.
    split.
    + intros [A B]. split; auto. split; [|eauto]. apply Qcnot_lt_le. intros H. apply neg_area in H. congruence.
    + intros (_ & A & c' & Lc' & B). rewrite (lower_unique Lc Lc'). split; auto. destruct (qltb _ _) eqn:E; auto. exfalso.
      apply neg_area in E. apply (Qcle_not_lt _ _ A E).
Qed.

Lemma cyc_snd_perm (l : list Z) : Permutation (map snd (loop_sides l)) l.
Proof.
  rewrite loop_sides_cyc. assert (H : forall (a b : list Z), length a = length b -> map snd (combine a b) = b).
  { induction a as [|x a IH]; intros [|y b] HL; simpl in *; try discriminate; auto. f_equal. apply IH. lia. }
  rewrite H; [|destruct l; simpl; rewrite ?app_length; simpl; lia]. destruct l as [|x l]; simpl; auto. apply Permutation_sym, Permutation_cons_append.
Qed.
Lemma cyc_fst (l : list Z) : map fst (loop_sides l) = l.
Proof.
  unfold loop_sides. rewrite map_map. cbn [fst]. apply nth_error_ext. intros i. rewrite nth_error_map.
  destruct (Nat.lt_ge_cases i (length l)) as [H|H].
  - rewrite (nth_error_nth' _ 0%nat) by (rewrite seq_length; auto). rewrite seq_nth by auto. cbn. rewrite (nth_error_nth' l 0) by auto. reflexivity.
  - rewrite (proj2 (nth_error_None _ _)) by (rewrite seq_length; auto). rewrite (proj2 (nth_error_None l i)) by auto. reflexivity.
Qed.
Lemma cyc_sum (g : Z -> Qc) l : lsum (fun '(a, b) => (g b - g a)%Qc) (loop_sides l) = 0%Qc.
Proof.
  transitivity (lsum (fun e => g (snd e) + - (1) * g (fst e))%Qc (loop_sides l)).
  { apply lsum_ext. intros [a b] _. cbn [fst snd]. ring. }
  rewrite lsum_add, lsum_scale. rewrite <- (lsum_map g snd), <- (lsum_map g fst), cyc_fst, (lsum_perm g (cyc_snd_perm l)). ring.
Qed.

Lemma flat_area V f k : (forall j, In j (concat f) -> x_of V j = k) \/ (forall j, In j (concat f) -> y_of V j = k) -> twice_area2 V f = 0%Qc.
Proof.
  intros H. unfold twice_area2. apply lsum_0. intros l Hl.
  assert (IN : forall a b, In (a, b) (loop_sides l) -> In a (concat f) /\ In b (concat f)).
  { intros a b HI. apply loop_sides_In in HI as (i & Hi & E). injection E as -> ->. split; apply in_concat; exists l; split; auto; apply nth_In; auto. apply Nat.mod_upper_bound. lia. }
  destruct H as [H|H].
  - rewrite (@lsum_ext _ _ (fun e => k * (let '(a, b) := e in y_of V b - y_of V a))%Qc).
    + rewrite lsum_scale, cyc_sum. ring.
    + intros [a b] HI. destruct (IN a b HI) as [Ha Hb]. rewrite (H a Ha), (H b Hb). ring.
  - rewrite (@lsum_ext _ _ (fun e => - k * (let '(a, b) := e in x_of V b - x_of V a))%Qc).
    + rewrite lsum_scale, cyc_sum. ring.
    + intros [a b] HI. destruct (IN a b HI) as [Ha Hb]. rewrite (H a Ha), (H b Hb). ring.
Qed.

(** C105. A face of nonzero area whose vertices all lie in one closed grid cell has that cell as its lower corner; so it is kept exactly
    if the cell is cut and its area is at least -1/2. *)
Theorem c105_cell : forall V f a, face_ok V f -> (forall j, In j (concat f) -> in_closed_cell a (pos (V j))) -> twice_area2 V f <> 0%Qc ->
  forall c, lower_corner V f c <-> c = a.
Proof.
  intros V f a OK HA NZ. assert (L : lower_corner V f a).
  { destruct OK as (N & NE & W). assert (exists j0, In j0 (concat f)) as [j0 Hj0].
    { destruct f as [|[|i l] f]; [congruence|exfalso; apply (NE []); simpl; auto|]. exists i. simpl; auto. }
    assert (La : length a = 2%nat).
    { assert (H := HA _ Hj0). unfold in_closed_cell in H. rewrite Forall2_nth in H. destruct H as [H _]. rewrite H. apply (pos_length 2). apply W; auto. }
    assert (AX : forall i ai j cj, nth_error a i = Some ai -> In j (concat f) -> nth_error (v_coord (V j)) i = Some cj ->
      cj = ai \/ (cj = ai + 1 /\ nth i (pos (V j)) 0%Qc = Z2Qc (ai + 1))).
    { intros i ai j cj Ea Hj Ec. destruct (W j Hj) as [Wj Nj]. assert (H := HA _ Hj). unfold in_closed_cell in H. rewrite Forall2_nth in H. destruct H as [_ H].
      destruct (nth_error (v_quot (V j)) i) as [q|] eqn:Eq.
      2:{ exfalso. apply nth_error_None in Eq. apply nth_error_Some_lt in Ec. destruct Wj as (W1 & W2 & _). unfold coord in *. lia. }
      assert (EP := pos_nth_error _ _ _ _ Ec Eq). specialize (H _ _ _ Ea EP).
      unfold normalised in Nj. rewrite Forall_nth_error in Nj. apply (cell_axis cj q ai) in H; eauto.
      destruct H as [ -> | [ -> -> ]]; [auto|]. right. split; [lia|]. rewrite (nth_error_nth _ _ 0%Qc EP). replace (cj - 1 + 1) with cj by lia. ring. }
    split; auto. intros i ai Ea. split.
    - destruct (existsb (fun j => nth i (v_coord (V j)) 0 =? ai) (concat f)) eqn:EX.
      + apply existsb_exists in EX as (j & Hj & E). apply Z.eqb_eq in E. exists j. split; auto.
        rewrite <- E. apply nth_error_nth'. destruct (W j Hj) as [(W1 & _) _]. apply nth_error_Some_lt in Ea. unfold coord in *. lia.
      + exfalso. apply NZ. assert (ALL : forall j, In j (concat f) -> nth i (pos (V j)) 0%Qc = Z2Qc (ai + 1)).
        { intros j Hj. destruct (nth_error (v_coord (V j)) i) as [cj|] eqn:Ec.
          2:{ exfalso. apply nth_error_None in Ec. apply nth_error_Some_lt in Ea. destruct (W j Hj) as [(W1 & _) _]. unfold coord in *. lia. }
          destruct (AX _ _ _ _ Ea Hj Ec) as [E|[_ E]]; auto. exfalso.
          assert (F : existsb (fun j => nth i (v_coord (V j)) 0 =? ai) (concat f) = true) by (apply existsb_exists; exists j; split; auto; rewrite (nth_error_nth _ _ 0 Ec); apply Z.eqb_eq; auto).
          congruence. }
        apply (@flat_area V f (Z2Qc (ai + 1))). apply nth_error_Some_lt in Ea. destruct i as [|[|i]]; [left|right|unfold coord in *; lia]; exact ALL.
    - intros j x Hj Ex. destruct (AX _ _ _ _ Ea Hj Ex) as [|[]]; lia. }
  intros c. split; [intros H; apply (lower_unique H L)|intros ->; auto].
Qed.

(** C105. cell_grid_ownership: face idx belongs to the grid cell of its lower corner and to no other. *)
Lemma own_fold s V fs : forall i m m', fold_left (own_step s V) (combine (zrange i (length fs)) fs) (Some m) = Some m' ->
  ssorted Z.compare (keys m) -> (forall f, In f fs -> face_ok V f) ->
  ssorted Z.compare (keys m') /\
  forall k idx, (exists l, map_find Z.compare k m' = Some l /\ In idx l) <->
    (exists l, map_find Z.compare k m = Some l /\ In idx l) \/ exists n f c, nth_error fs n = Some f /\ idx = i + Z.of_nat n /\ lower_corner V f c /\ k = ravel s c.
Proof.
  induction fs as [|f fs IH]; intros i m m' HR HS W.
  - cbn in HR. apply Some_inj in HR. subst m'. split; auto. intros k idx. split; auto. intros [H|(n & f & c & E & _)]; auto. destruct n; discriminate.
  - cbn [length] in HR. assert (EZ : zrange i (S (length fs)) = i :: zrange (i + 1) (length fs)).
    { unfold zrange. cbn [seq map]. f_equal; [lia|]. rewrite <- seq_shift, map_map. apply map_ext. intros; lia. }
    rewrite EZ in HR. cbn [combine fold_left] in HR. unfold own_step at 2 in HR. cbn [fst snd] in HR.
    destruct (face_cells_low (W f (or_introl eq_refl))) as (c & Hc & Lc). rewrite Hc in HR.
    set (k0 := ravel s c) in *. set (old := match map_find Z.compare k0 m with Some l => l | None => [] end) in *.
    apply IH in HR; [|apply (map_set_sorted Zcompare_total); auto|intros; apply W; simpl; auto].
    destruct HR as [H1 H2]. split; auto. intros k idx. rewrite H2. clear H2.
    rewrite (map_find_set Zcompare_total) by auto. split.
    + intros [(l & Hl & Hi)|(n & g & d & E & -> & R)].
      * destruct (k ?= k0) eqn:EK; eauto. apply Z.compare_eq in EK. subst k. apply Some_inj in Hl. subst l.
        apply (set_insert_In Zcompare_total) in Hi as [ -> | Hi].
        -- right. exists 0%nat, f, c. split; [auto|]. split; [lia|auto].
        -- left. unfold old in Hi. destruct (map_find Z.compare k0 m); [eauto|destruct Hi].
      * right. exists (S n), g, d. split; auto. split; [lia|auto].
    + intros [(l & Hl & Hi)|(n & g & d & E & -> & Ld & ->)].
      * left. destruct (k ?= k0) eqn:EK; eauto. apply Z.compare_eq in EK. subst k. eexists. split; eauto. apply (set_insert_In Zcompare_total). right. unfold old. rewrite Hl. auto.
      * destruct n as [|n].
        -- cbn in E. apply Some_inj in E. subst g. rewrite (lower_unique Ld Lc). fold k0. left. rewrite (tc_refl Zcompare_total). eexists. split; eauto.
           apply (set_insert_In Zcompare_total). left. lia.
        -- right. exists n, g, d. split; auto. split; [lia|auto].
Qed.

Theorem c105_ownership : forall s V fs m, (forall f, In f fs -> face_ok V f) -> ownership2 s V fs = Some m ->
  forall k idx, (exists l, map_find Z.compare k m = Some l /\ In idx l) <->
    0 <= idx /\ exists f c, nth_error fs (Z.to_nat idx) = Some f /\ lower_corner V f c /\ k = ravel s c.
Proof.
  intros s V fs m W HR k idx. destruct (@own_fold s V fs 0 [] m HR ltac:(constructor) W) as [_ H]. rewrite H. split.
  - intros [(l & E & _)|(n & f & c & E & -> & L & ->)]; [discriminate|]. split; [lia|]. exists f, c. rewrite Z.add_0_l, Nat2Z.id. auto.
  - intros (H0 & f & c & E & L & ->). right. exists (Z.to_nat idx), f, c. rewrite Z2Nat.id by auto. auto.
Qed.

(** The cell on the left of the unit grid edge from a to b *)
Definition left_of (a b : coord) : coord :=
  match a, b with
  | [ax; ay], [bx; by'] => if bx =? ax + 1 then [ax; ay] else if by' =? ay + 1 then [ax - 1; ay] else if bx =? ax - 1 then [ax - 1; ay - 1] else [ax; ay - 1]
  | _, _ => []
  end.
Definition c105_uncut (c : coord) : bool := match c with [2; 1] | [1; 2] | [2; 2] => true | _ => false end.
Definition c105_V (i : Z) : vertex := vertex_of_coord (unravel [5; 5] i).
Definition c105_loop : list Z := [11; 16; 17; 18; 13; 8; 7; 12].
Definition c105_mf : list (Z * list (list Z)) := [(0, [c105_loop]); (1, [[6; 11; 12; 7]]); (2, [[12; 17; 18; 13]])].

(** REFUTED: a part of the uncut region whose bounding box has its lower corner in a cut cell is kept as a cut face, although exterior
    cells cover it as well.  Three uncut cells in an L, all other cells of the 4 x 4 grid are cut: the cells on the inner sides of the loop
    are all uncut, the cells on the outer sides are all cut, its area is 3 - and it is a face of the mesh. *)
Theorem c105_uncut_refuted : exists V mf r f, gen_faces2 [4; 4] c105_uncut V mf = Some r /\ In f r /\
  (forall g, In g (map snd mf) -> face_ok V g) /\ twice_area2 V f = Z2Qc 6 /\
  forall a b, In (a, b) (flat_map loop_sides f) ->
    c105_uncut (left_of (v_coord (V a)) (v_coord (V b))) = true /\ c105_uncut (left_of (v_coord (V b)) (v_coord (V a))) = false.
Proof.
  exists c105_V, c105_mf, [[c105_loop]; [[6; 11; 12; 7]]], [c105_loop].
  split; [vm_compute; reflexivity|]. split; [simpl; auto|]. split; [|split].
  - intros g Hg. split; [|split].
    + repeat destruct Hg as [<-|Hg]; [discriminate..|destruct Hg].
    + repeat destruct Hg as [<-|Hg]; [intros l [<-|[]]; discriminate..|destruct Hg].
    + intros j Hj. split; [repeat split|]; unfold normalised, c105_V; cbn [v_quot vertex_of_coord]; rewrite ?map_length; auto.
      apply Forall_forall. intros q Hq. apply repeat_spec in Hq as ->. split; [apply Qcle_refl|reflexivity].
  - apply Qc_is_canon. vm_compute. reflexivity.
  - intros a b H. change (flat_map loop_sides [c105_loop]) with [(11, 16); (16, 17); (17, 18); (18, 13); (13, 8); (8, 7); (7, 12); (12, 11)] in H.
    repeat (destruct H as [E|H]; [injection E as <- <-; split; vm_compute; reflexivity|]). destruct H.
Qed.
(** the same faces with the whole L cut: all three are kept, each square owned by its cell *)
Example c105_witness : gen_faces2 [4; 4] (fun _ => false) c105_V c105_mf = Some (map snd c105_mf) /\
  ownership2 [4; 4] c105_V (map snd c105_mf) = Some [(5, [0; 1]); (10, [2])].
Proof. vm_compute. auto. Qed.
Example c105_cell_witness : face_ok c105_V [[12; 17; 18; 13]] /\ (forall j, In j (concat [[12; 17; 18; 13]]) -> in_closed_cell [2; 2] (pos (c105_V j))) /\
  twice_area2 c105_V [[12; 17; 18; 13]] <> 0%Qc.
Proof.
  split; [split; [discriminate|split]|split].
  - intros l [<-|[]]. discriminate.
  - intros j Hj. split; [repeat split|]; unfold normalised, c105_V; cbn [v_quot vertex_of_coord]; rewrite ?map_length; auto.
    apply Forall_forall. intros q Hq. apply repeat_spec in Hq as ->. split; [apply Qcle_refl|reflexivity].
  - intros j Hj. repeat destruct Hj as [<-|Hj]; [repeat constructor; vm_compute; discriminate..|destruct Hj].
  - intros E. apply (f_equal this) in E. vm_compute in E. discriminate.
Qed.

(** * C106 *)
(** cut edge number e runs from a to b *)
Definition runs (es : list edge) (e : Z) (a b : Z) : Prop := 0 <= e /\ nth_error es (Z.to_nat e) = Some (a, b).
Definition joins (es : list edge) (e : Z) (a b : Z) : Prop := runs es e a b \/ runs es e b a.
(** no later cut edge has the same ends *)
Definition last_joining (es : list edge) (e : Z) (a b : Z) : Prop := joins es e a b /\ forall e', joins es e' a b -> e' <= e.
(** no two cut edges have the same two ends *)
Definition no_parallel (es : list edge) : Prop := forall e e' a b, joins es e a b -> joins es e' a b -> e = e'.
(** the directed sides of a face *)
Definition face_sides (f : list (list Z)) : list edge := flat_map loop_sides f.
(** no side is used twice, in whatever direction *)
Definition uses_once (f : list (list Z)) : Prop := NoDup (face_sides f) /\ forall a b, In (a, b) (face_sides f) -> ~ In (b, a) (face_sides f).

Lemma edge_cmp_tc : TotalCmp edge_cmp. Proof. apply edge_total. Qed.

Lemma runs_snoc es x e a b : runs (es ++ [x]) e a b <-> runs es e a b \/ (e = Z.of_nat (length es) /\ x = (a, b)).
Proof.
  unfold runs. split.
  - intros [H0 H]. destruct (Nat.lt_ge_cases (Z.to_nat e) (length es)) as [L|L].
    + rewrite nth_error_app1 in H by auto. auto.
    + rewrite nth_error_app2 in H by auto. destruct (Z.to_nat e - length es)%nat as [|n] eqn:E; [|destruct n; discriminate].
      apply Some_inj in H. right. split; [lia|auto].
  - intros [[H0 H]|[-> ->]].
    + split; auto. rewrite nth_error_app1; auto. apply nth_error_Some_lt in H. auto.
    + split; [lia|]. rewrite Nat2Z.id, nth_error_app2 by lia. rewrite Nat.sub_diag. reflexivity.
Qed.
Lemma runs_lt es e a b : runs es e a b -> e < Z.of_nat (length es).
Proof. intros [H0 H]. apply nth_error_Some_lt in H. unfold edge in *. lia. Qed.

Lemma diredges_snoc es x : diredges (es ++ [x]) = diredge_step (diredges es) (Z.of_nat (length es), x).
Proof.
  unfold diredges. rewrite app_length. cbn [length]. unfold zrange. rewrite seq_app, map_app. cbn [seq map].
  assert (HC : forall (A B : Type) (a a' : list A) (b b' : list B), length a = length b -> combine (a ++ a') (b ++ b') = combine a b ++ combine a' b').
  { clear. induction a as [|x a IH]; intros a' [|y b] b' H; simpl in *; try discriminate; auto. f_equal. apply IH. lia. }
  rewrite HC by (rewrite map_length, seq_length; auto). cbn [combine]. rewrite fold_left_app. reflexivity.
Qed.

Lemma diredges_spec es : ssorted edge_cmp (keys (diredges es)) /\
  forall a b, match map_find edge_cmp (a, b) (diredges es) with
              | Some (e, s) => last_joining es e a b /\ (if s then runs es e b a else runs es e a b)
              | None => forall e, ~ joins es e a b
              end.
Proof.
  induction es as [|[u v] es [IS IH]] using rev_ind.
  - split; [constructor|]. intros a b. cbn. intros e [[_ H]|[_ H]]; destruct (Z.to_nat e); discriminate.
  - rewrite diredges_snoc. cbn [diredge_step]. set (n := Z.of_nat (length es)).
    assert (S1 : ssorted edge_cmp (keys (map_set edge_cmp (u, v) (n, false) (diredges es)))) by (apply (map_set_sorted edge_cmp_tc); auto).
    split; [apply (map_set_sorted edge_cmp_tc); auto|]. intros a b.
    rewrite (map_find_set edge_cmp_tc) by auto. rewrite (map_find_set edge_cmp_tc) by auto.
    assert (LJ : forall a b, (u, v) = (a, b) \/ (u, v) = (b, a) -> last_joining (es ++ [(u, v)]) n a b).
    { intros a' b' H. split.
      - destruct H as [H|H]; [left|right]; apply runs_snoc; right; auto.
      - intros e' [J|J]; apply runs_snoc in J as [J|[-> _]]; try (apply runs_lt in J); unfold n, edge in *; lia. }
    destruct (edge_cmp (a, b) (v, u)) eqn:E1.
    + apply (tc_eq edge_cmp_tc) in E1. injection E1 as -> ->. split; [apply LJ; auto|]. apply runs_snoc. auto.
    + destruct (edge_cmp (a, b) (u, v)) eqn:E2.
      * apply (tc_eq edge_cmp_tc) in E2. injection E2 as -> ->. split; [apply LJ; auto|]. apply runs_snoc. auto.
      * assert (NE : (u, v) <> (a, b) /\ (u, v) <> (b, a)). { split; intros E; injection E as -> ->; [rewrite (tc_refl edge_cmp_tc) in E2|rewrite (tc_refl edge_cmp_tc) in E1]; discriminate. }
        specialize (IH a b). destruct (map_find edge_cmp (a, b) (diredges es)) as [[e s]|].
        -- destruct IH as [[J L] R]. split; [split|].
           ++ destruct J; [left|right]; apply runs_snoc; auto.
           ++ intros e' J'. apply L. destruct J' as [J'|J']; apply runs_snoc in J' as [J'|[_ E]]; unfold joins; auto; destruct NE; congruence.
           ++ destruct s; apply runs_snoc; auto.
        -- intros e J. apply (IH e). destruct J as [J|J]; apply runs_snoc in J as [J|[_ E]]; unfold joins; auto; destruct NE; congruence.
      * assert (NE : (u, v) <> (a, b) /\ (u, v) <> (b, a)). { split; intros E; injection E as -> ->; [rewrite (tc_refl edge_cmp_tc) in E2|rewrite (tc_refl edge_cmp_tc) in E1]; discriminate. }
        specialize (IH a b). destruct (map_find edge_cmp (a, b) (diredges es)) as [[e s]|].
        -- destruct IH as [[J L] R]. split; [split|].
           ++ destruct J; [left|right]; apply runs_snoc; auto.
           ++ intros e' J'. apply L. destruct J' as [J'|J']; apply runs_snoc in J' as [J'|[_ E]]; unfold joins; auto; destruct NE; congruence.
           ++ destruct s; apply runs_snoc; auto.
        -- intros e J. apply (IH e). destruct J as [J|J]; apply runs_snoc in J as [J|[_ E]]; unfold joins; auto; destruct NE; congruence.
    + destruct (edge_cmp (a, b) (u, v)) eqn:E2.
      * apply (tc_eq edge_cmp_tc) in E2. injection E2 as -> ->. split; [apply LJ; auto|]. apply runs_snoc. auto.
      * assert (NE : (u, v) <> (a, b) /\ (u, v) <> (b, a)). { split; intros E; injection E as -> ->; [rewrite (tc_refl edge_cmp_tc) in E2|rewrite (tc_refl edge_cmp_tc) in E1]; discriminate. }
        specialize (IH a b). destruct (map_find edge_cmp (a, b) (diredges es)) as [[e s]|].
        -- destruct IH as [[J L] R]. split; [split|].
           ++ destruct J; [left|right]; apply runs_snoc; auto.
           ++ intros e' J'. apply L. destruct J' as [J'|J']; apply runs_snoc in J' as [J'|[_ E]]; unfold joins; auto; destruct NE; congruence.
           ++ destruct s; apply runs_snoc; auto.
        -- intros e J. apply (IH e). destruct J as [J|J]; apply runs_snoc in J as [J|[_ E]]; unfold joins; auto; destruct NE; congruence.
      * assert (NE : (u, v) <> (a, b) /\ (u, v) <> (b, a)). { split; intros E; injection E as -> ->; [rewrite (tc_refl edge_cmp_tc) in E2|rewrite (tc_refl edge_cmp_tc) in E1]; discriminate. }
        specialize (IH a b). destruct (map_find edge_cmp (a, b) (diredges es)) as [[e s]|].
        -- destruct IH as [[J L] R]. split; [split|].
           ++ destruct J; [left|right]; apply runs_snoc; auto.
           ++ intros e' J'. apply L. destruct J' as [J'|J']; apply runs_snoc in J' as [J'|[_ E]]; unfold joins; auto; destruct NE; congruence.
           ++ destruct s; apply runs_snoc; auto.
        -- intros e J. apply (IH e). destruct J as [J|J]; apply runs_snoc in J as [J|[_ E]]; unfold joins; auto; destruct NE; congruence.
Qed.
Lemma diredges_Some es a b e s : map_find edge_cmp (a, b) (diredges es) = Some (e, s) -> last_joining es e a b /\ (if s then runs es e b a else runs es e a b).
Proof. intros H. assert (G := proj2 (diredges_spec es) a b). rewrite H in G. auto. Qed.
Lemma joins_swap es e a b : joins es e a b -> joins es e b a. Proof. unfold joins. tauto. Qed.

(** the fold over the sides *)
Lemma fm_fold d sd : forall acc fm, ssorted Z.compare (keys acc) -> fold_left (fm_step d) sd (Some acc) = Some fm ->
  ssorted Z.compare (keys fm) /\ (forall me, In me sd -> exists e s, map_find edge_cmp me d = Some (e, s) /\ In e (keys fm)) /\
  (forall e, In e (keys acc) -> In e (keys fm)) /\
  (forall e s, In (e, s) fm -> In (e, s) acc \/ exists me, In me sd /\ map_find edge_cmp me d = Some (e, s)).
Proof.
  induction sd as [|me sd IH]; intros acc fm HS HR.
  - cbn in HR. apply Some_inj in HR. subst fm. split; auto. split; [intros ? []|]. auto.
  - cbn [fold_left] in HR. unfold fm_step at 2 in HR. destruct (map_find edge_cmp me d) as [[e0 s0]|] eqn:E0.
    2:{ exfalso. clear -HR. induction sd; cbn in *; [discriminate|auto]. }
    assert (HS' : ssorted Z.compare (keys (map_emplace Z.compare e0 s0 acc))) by (apply (map_emplace_sorted Zcompare_total); auto).
    destruct (IH _ _ HS' HR) as (A & B & C & D).
    assert (K0 : In e0 (keys (map_emplace Z.compare e0 s0 acc))).
    { destruct (map_find Z.compare e0 (map_emplace Z.compare e0 s0 acc)) as [w|] eqn:E.
      - apply (map_find_Some Zcompare_total) in E; auto. apply (in_map fst) in E. auto.
      - rewrite (map_find_emplace Zcompare_total) in E by auto. rewrite (tc_refl Zcompare_total) in E. destruct (map_find Z.compare e0 acc); discriminate. }
    split; auto. split; [|split].
    + intros me' [<-|H]; [exists e0, s0; split; auto|apply B; auto].
    + intros e He. apply C. destruct (map_find Z.compare e (map_emplace Z.compare e0 s0 acc)) as [w|] eqn:E.
      * apply (map_find_Some Zcompare_total) in E; auto. apply (in_map fst) in E. auto.
      * exfalso. rewrite (map_find_emplace Zcompare_total) in E by auto. destruct (map_find Z.compare e acc) eqn:E2; [discriminate|].
        apply (map_find_None Zcompare_total) in E2; auto.
    + intros e s H. apply D in H as [H|(m & Hm & E)]; [|right; exists m; simpl; auto].
      apply (map_find_Some Zcompare_total) in H; auto. rewrite (map_find_emplace Zcompare_total) in H by auto.
      destruct (map_find Z.compare e acc) eqn:E2.
      * left. apply Some_inj in H. subst b. apply (map_find_Some Zcompare_total) in E2; auto.
      * destruct (e ?= e0) eqn:E3; try discriminate. apply Z.compare_eq in E3. apply Some_inj in H. subst. right. exists me. simpl; auto.
Qed.

Lemma flat_sides f : flat_map sides f = face_sides f. Proof. reflexivity. Qed.

(** C106. The map of a face is defined exactly if each of its sides is a cut edge. *)
Theorem c106_defined : forall es f, face_map2 es f <> None <-> forall a b, In (a, b) (face_sides f) -> exists e, joins es e a b.
Proof.
  intros es f. unfold face_map2. rewrite flat_sides. generalize (face_sides f). intros sd. split.
  - intros H a b Hab. destruct (fold_left _ sd _) as [fm|] eqn:E; [|congruence].
    destruct (@fm_fold (diredges es) sd [] fm ltac:(constructor) E) as (_ & B & _). destruct (B _ Hab) as (e & s & F & _).
    apply diredges_Some in F as [[J _] _]. eauto.
  - intros H. assert (G : forall acc, fold_left (fm_step (diredges es)) sd (Some acc) <> None).
    { induction sd as [|[a b] sd IH]; intros acc; cbn [fold_left]; [discriminate|]. unfold fm_step at 2.
      assert (F := proj2 (diredges_spec es) a b). destruct (map_find edge_cmp (a, b) (diredges es)) as [[e s]|].
      - apply IH. intros; apply H; simpl; auto.
      - exfalso. destruct (H a b) as [e J]; simpl; auto. apply (F e J). }
    apply G.
Qed.

(** C106. The map of a face holds exactly the edges its sides run along (of parallel cut edges the last), each with the direction of some
    side: sign false if the side runs like the edge, true if it runs against it. *)
Theorem c106_map : forall es f fm, face_map2 es f = Some fm ->
  NoDup (keys fm) /\
  (forall e s, In (e, s) fm -> exists a b, In (a, b) (face_sides f) /\ last_joining es e a b /\ (if s then runs es e b a else runs es e a b)) /\
  (forall a b, In (a, b) (face_sides f) -> exists e s, In (e, s) fm /\ last_joining es e a b).
Proof.
  intros es f fm HR. destruct (@fm_fold (diredges es) (face_sides f) [] fm ltac:(constructor) HR) as (A & B & _ & D). split; [|split].
  - apply (ssorted_NoDup Zcompare_total). auto.
  - intros e s H. apply D in H as [[]|([a b] & Hm & E)]. apply diredges_Some in E as [L R]. eauto.
  - intros a b H. destruct (B _ H) as (e & s & E & K). apply diredges_Some in E as [L _]. apply in_map_iff in K as ([e' s'] & E & K). cbn in E. subst e'. eauto.
Qed.

Lemma last_unique es e e' a b : last_joining es e a b -> last_joining es e' a b -> e = e'.
Proof. intros [J L] [J' L']. assert (e' <= e) by auto. assert (e <= e') by auto. lia. Qed.
Lemma runs_fun es e a b a' b' : runs es e a b -> runs es e a' b' -> a = a' /\ b = b'.
Proof. intros [_ E] [_ E']. rewrite E in E'. apply Some_inj in E'. injection E' as -> ->. auto. Qed.

(** C106. If a face uses no edge twice, the signs are exact: an edge has sign false (true) in the map of the face exactly if a side of the face
    runs along (against) it, and it is the last cut edge between its ends. *)
Theorem c106_signs : forall es f fm, face_map2 es f = Some fm -> uses_once f ->
  forall e s, In (e, s) fm <-> exists a b, In (a, b) (face_sides f) /\ last_joining es e a b /\ (if s then runs es e b a else runs es e a b).
Proof.
  intros es f fm HR [ND NR] e s. destruct (@c106_map es f fm HR) as (K & S & C). split; [apply S|].
  intros (a & b & Hab & L & R). destruct (C a b Hab) as (e' & s' & Hin & L'). assert (e' = e) by (eapply last_unique; eauto). subst e'.
  destruct (Bool.bool_dec s s') as [->|N]; auto. exfalso.
  destruct (S e s' Hin) as (a' & b' & Hab' & _ & R'). destruct s, s'; try congruence.
  - destruct (runs_fun R R') as [ -> -> ]. apply (NR _ _ Hab Hab').
  - destruct (runs_fun R R') as [ -> -> ]. apply (NR _ _ Hab Hab').
Qed.

(** what the edge e with sign s contributes to the boundary at vertex k: end minus start, turned round for sign true *)
Definition delta (a k : Z) : Qc := if a =? k then 1%Qc else 0%Qc.
Definition at_vertex (es : list edge) (k : Z) (p : Z * bool) : Qc :=
  match nth_error es (Z.to_nat (fst p)) with
  | Some (u, v) => if snd p then (delta u k - delta v k)%Qc else (delta v k - delta u k)%Qc
  | None => 0%Qc
  end.

Lemma NoDup_map_on (A B : Type) (g : A -> B) l : (forall x y, In x l -> In y l -> g x = g y -> x = y) -> NoDup l -> NoDup (map g l).
Proof.
  induction l as [|a l IH]; intros H N; cbn; [constructor|]. inversion N; subst. constructor.
  - intros C. apply in_map_iff in C as (x & E & Hx). apply H in E; simpl; auto. subst. auto.
  - apply IH; auto. intros x y Hx Hy. apply H; simpl; auto.
Qed.
Lemma fm_perm es f fm : face_map2 es f = Some fm -> uses_once f ->
  Permutation fm (map (fun me => match map_find edge_cmp me (diredges es) with Some p => p | None => (0, false) end) (face_sides f)).
Proof.
  intros HR U. assert (SG := @c106_signs es f fm HR U). destruct (@c106_map es f fm HR) as (K & S & C). destruct U as [ND NR].
  assert (DEF : forall a b, In (a, b) (face_sides f) -> exists e s, map_find edge_cmp (a, b) (diredges es) = Some (e, s) /\ last_joining es e a b /\ (if s then runs es e b a else runs es e a b)).
  { intros a b H. destruct (C a b H) as (e & s & _ & [J _]). assert (G := proj2 (diredges_spec es) a b).
    destruct (map_find edge_cmp (a, b) (diredges es)) as [[e' s']|]; [eauto|exfalso; eapply G; eauto]. }
  apply NoDup_Permutation.
  - apply (NoDup_map_inv fst). auto.
  - apply NoDup_map_on; auto. intros [a b] [a' b'] H H' E.
    destruct (DEF _ _ H) as (e & s & F & _ & R), (DEF _ _ H') as (e' & s' & F' & _ & R'). rewrite F, F' in E. injection E as <- <-.
    destruct s; destruct (runs_fun R R') as [ -> -> ]; reflexivity.
  - intros [e s]. rewrite SG, in_map_iff. split.
    + intros (a & b & H & L & R). exists (a, b). split; auto. destruct (DEF _ _ H) as (e' & s' & F & L' & R'). rewrite F.
      assert (e' = e) by (eapply last_unique; eauto). subst e'. f_equal.
      assert (IN : In (e, s') fm) by (apply SG; eauto). assert (IN' : In (e, s) fm) by (apply SG; eauto).
      assert (SO : map_find Z.compare e fm = Some s /\ map_find Z.compare e fm = Some s').
      { destruct (@fm_fold (diredges es) (face_sides f) [] fm ltac:(constructor) HR) as (A & _). split; apply (map_find_Some Zcompare_total); auto. }
      destruct SO as [E1 E2]. rewrite E1 in E2. apply Some_inj in E2. auto.
    + intros ([a b] & E & H). destruct (DEF _ _ H) as (e' & s' & F & L' & R'). rewrite F in E. injection E as <- <-. eauto.
Qed.

(** C106. The boundary of the boundary of a face that uses no edge twice is zero: at every vertex its signed edges cancel. *)
Theorem c106_closed : forall es f fm k, face_map2 es f = Some fm -> uses_once f -> lsum (at_vertex es k) fm = 0%Qc.
Proof.
  intros es f fm k HR U. rewrite (lsum_perm _ (@fm_perm es f fm HR U)), lsum_map.
  transitivity (lsum (fun '(a, b) => (delta b k - delta a k)%Qc) (face_sides f)).
  - apply lsum_ext. intros [a b] H. destruct (@c106_map es f fm HR) as (_ & _ & C). destruct (C a b H) as (e0 & s0 & _ & [J _]).
    assert (G := proj2 (diredges_spec es) a b). destruct (map_find edge_cmp (a, b) (diredges es)) as [[e s]|]; [|exfalso; eapply G; eauto].
    destruct G as [_ R]. unfold at_vertex. cbn [fst snd]. destruct s; destruct R as [_ ->]; reflexivity.
  - unfold face_sides. rewrite lsum_flat. apply lsum_0. intros l _. apply (cyc_sum (fun a => delta a k)).
Qed.

(** REFUTED for faces with a dangling edge (an edge with the face on both sides, such as the end of an open input curve): only the first sign
    is kept, and the boundary is not closed.  The square 0 1 2 3 with the spur from 1 to 4. *)
Theorem c106_dangling_refuted : exists es f fm k, face_map2 es f = Some fm /\ no_parallel es /\ NoDup (face_sides f) /\ lsum (at_vertex es k) fm <> 0%Qc.
Proof.
  exists [(0, 1); (1, 2); (2, 3); (3, 0); (1, 4)], [[0; 1; 4; 1; 2; 3]], [(0, false); (1, false); (2, false); (3, false); (4, false)], 4.
  split; [vm_compute; reflexivity|]. split; [|split].
  - intros e e' a b J J'. assert (B : forall e a b, runs [(0, 1); (1, 2); (2, 3); (3, 0); (1, 4)] e a b ->
      (e = 0 /\ a = 0 /\ b = 1) \/ (e = 1 /\ a = 1 /\ b = 2) \/ (e = 2 /\ a = 2 /\ b = 3) \/ (e = 3 /\ a = 3 /\ b = 0) \/ (e = 4 /\ a = 1 /\ b = 4)).
    { intros x u v [H0 H]. assert (L := nth_error_Some_lt _ _ _ _ H). cbn in L.
      assert (x = 0 \/ x = 1 \/ x = 2 \/ x = 3 \/ x = 4) as X by lia. decompose [or] X; subst x; cbn in H; apply Some_inj in H; injection H as <- <-; lia. }
    destruct J as [J|J], J' as [J'|J']; apply B in J; apply B in J'; lia.
  - vm_compute. repeat constructor; cbn; intuition discriminate.
  - intros E. apply (f_equal this) in E. vm_compute in E. discriminate.
Qed.

(** REFUTED that an input edge bounds the faces beside it: if a later cut edge has the same two ends (the grid edge under an input edge
    that lies on a grid line; grid edges come after the input's), no face's map mentions the earlier one. *)
Theorem c106_parallel_refuted : forall es f fm e e' a b s, face_map2 es f = Some fm -> joins es e a b -> joins es e' a b -> e < e' -> ~ In (e, s) fm.
Proof.
  intros es f fm e e' a b s HR J J' LT H. destruct (@c106_map es f fm HR) as (_ & S & _). destruct (S _ _ H) as (a' & b' & _ & [JJ L] & _).
  assert (J2 : joins es e' a' b').
  { destruct J as [J|J], JJ as [JJ|JJ]; destruct (runs_fun J JJ) as [ -> -> ]; auto; apply joins_swap; auto. }
  specialize (L _ J2). lia.
Qed.
Example c106_parallel_example : face_map2 [(0, 1); (0, 1); (1, 2); (2, 3); (3, 0)] [[0; 1; 2; 3]] = Some [(1, false); (2, false); (3, false); (4, false)].
Proof. vm_compute. reflexivity. Qed.

(** C106. face_boundary_map has an entry for every face with a loop: its map. *)
Lemma fbm_from_spec es fs : forall i m, fbm_from es i fs = Some m ->
  (forall k fm, In (k, fm) m -> i <= k) /\
  forall k fm, In (k, fm) m <-> exists n f, k = i + Z.of_nat n /\ nth_error fs n = Some f /\ f <> [] /\ face_map2 es f = Some fm.
Proof.
  induction fs as [|f fs IH]; intros i m; cbn [fbm_from].
  - intros H. apply Some_inj in H. subst m. split; [intros ? ? []|]. intros k fm. split; [intros []|]. intros (n & f & _ & E & _). destruct n; discriminate.
  - destruct (face_map2 es f) as [fm0|] eqn:E0; [|discriminate]. destruct (fbm_from es (i + 1) fs) as [r|] eqn:Er; [|discriminate].
    intros H. apply Some_inj in H. destruct (IH _ _ Er) as [A B].
    assert (TAIL : forall k fm, In (k, fm) r <-> exists n f', k = i + Z.of_nat (S n) /\ nth_error (f :: fs) (S n) = Some f' /\ f' <> [] /\ face_map2 es f' = Some fm).
    { intros k fm. rewrite B. split; intros (n & f' & E & X); exists n, f'; (split; [lia|exact X]). }
    destruct f as [|l0 f0] eqn:Ef; rewrite <- ?Ef in *.
    + subst m. split; [intros k fm Hk; apply A in Hk; lia|]. intros k fm. rewrite TAIL. split.
      * intros (n & f' & X). exists (S n), f'. auto.
      * intros (n & f' & X1 & X2 & X3 & X4). destruct n as [|n]; [cbn in X2; congruence|]. exists n, f'. auto.
    + subst m. split; [intros k fm [Hk|Hk]; [injection Hk as <- _; lia|apply A in Hk; lia]|]. intros k fm. cbn [In]. rewrite TAIL. split.
      * intros [E|(n & f' & X)]; [|exists (S n), f'; auto]. injection E as <- <-. exists 0%nat, f. cbn. split; [lia|]. split; auto. split; auto. rewrite Ef; discriminate.
      * intros (n & f' & X1 & X2 & X3 & X4). destruct n as [|n]; [left|right; exists n, f'; auto]. cbn in X2. apply Some_inj in X2. subst f'. f_equal; [lia|congruence].
Qed.
Theorem c106_faces : forall es fs m, face_boundary_map2 es fs = Some m ->
  forall k fm, In (k, fm) m <-> 0 <= k /\ exists f, nth_error fs (Z.to_nat k) = Some f /\ f <> [] /\ face_map2 es f = Some fm.
Proof.
  intros es fs m HR k fm. destruct (@fbm_from_spec es fs 0 m HR) as [_ H]. rewrite H. split.
  - intros (n & f & -> & X). split; [lia|]. exists f. rewrite Z.add_0_l, Nat2Z.id. auto.
  - intros (H0 & f & X). exists (Z.to_nat k), f. split; [lia|auto].
Qed.

(** C106. If no directed side occurs twice in the mesh (the two sides of an edge are different half-edges) and the faces use no edge twice,
    an edge between two different faces has opposite signs in them; so no edge has more than two faces. *)
Lemma NoDup_flat (A B : Type) (g : A -> list B) l i j a b x : NoDup (flat_map g l) -> i <> j -> nth_error l i = Some a -> nth_error l j = Some b -> In x (g a) -> In x (g b) -> False.
Proof.
  assert (APP : forall (u v : list B), NoDup (u ++ v) -> NoDup v /\ forall x, In x u -> ~ In x v).
  { clear. induction u as [|y u IH]; intros v H; [split; [auto|intros ? []]|]. inversion H as [|? ? N H']; subst. destruct (IH _ H') as [H1 H2]. split; auto.
    intros z [<-|Hz]; auto. intros Hv. apply N. apply in_or_app. auto. }
  revert i j. induction l as [|c l IH]; intros i j HN HI Ha Hb Hxa Hxb; [destruct i; discriminate|].
  cbn in HN. apply APP in HN as [HN HD]. destruct i as [|i], j as [|j]; cbn in Ha, Hb.
  - congruence.
  - apply Some_inj in Ha. subst c. apply (HD x Hxa). apply in_flat_map. exists b. split; auto. eapply nth_error_In; eauto.
  - apply Some_inj in Hb. subst c. apply (HD x Hxb). apply in_flat_map. exists a. split; auto. eapply nth_error_In; eauto.
  - eapply (IH i j); eauto.
Qed.
Theorem c106_opposite : forall es fs m i j fi fj e s s', face_boundary_map2 es fs = Some m -> NoDup (flat_map face_sides fs) -> (forall f, In f fs -> uses_once f) ->
  In (i, fi) m -> In (j, fj) m -> i <> j -> In (e, s) fi -> In (e, s') fj -> s' = negb s.
Proof.
  intros es fs m i j fi fj e s s' HR ND U Hi Hj NE He He'. rewrite (@c106_faces es fs m HR) in Hi, Hj.
  destruct Hi as (I0 & f & Ef & _ & Ff), Hj as (J0 & g & Eg & _ & Fg).
  apply (@c106_signs es f fi Ff) in He; [|apply U; eapply nth_error_In; eauto]. apply (@c106_signs es g fj Fg) in He'; [|apply U; eapply nth_error_In; eauto].
  destruct He as (a & b & Hab & _ & R), He' as (a' & b' & Hab' & _ & R').
  assert (NN : Z.to_nat i <> Z.to_nat j) by lia.
  destruct s, s'; auto; exfalso; destruct (runs_fun R R') as [ -> -> ]; eapply (@NoDup_flat _ _ face_sides fs); eauto.
Qed.
(** two squares side by side *)
Example c106_witness : let fs := [[[0; 1; 4; 3]]; [[1; 2; 5; 4]]] in
  face_boundary_map2 [(0, 1); (1, 2); (3, 4); (4, 5); (0, 3); (1, 4); (2, 5)] fs =
    Some [(0, [(0, false); (2, true); (4, true); (5, false)]); (1, [(1, false); (3, true); (5, true); (6, false)])] /\
  NoDup (flat_map face_sides fs) /\ forall f, In f fs -> uses_once f.
Proof.
  split; [vm_compute; reflexivity|]. split; [vm_compute; repeat constructor; cbn; intuition discriminate|].
  intros f [<-|[<-|[]]]; (split; [vm_compute; repeat constructor; cbn; intuition discriminate|]); intros a b H; vm_compute in H;
    repeat (destruct H as [E|H]; [injection E as <- <-; vm_compute; intuition discriminate|]); destruct H.
Qed.
