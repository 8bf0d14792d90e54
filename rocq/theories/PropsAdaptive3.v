(** Property C24, further: the factory on shapes that are not cubes of side 2^k. *)
From Verif Require Import Base Num Grid SmallestEdge SmallestEdgeProofs AdaptiveGrid AdaptiveFactory AdaptiveSpec AdaptiveProofs AdaptiveFaces
  AdaptiveFactoryProofs AdaptiveMore PropsAdaptive.
Local Open Scope Z_scope.

(** the smallest power of two that is at least every side *)
Definition padded_side (s : c3) (q : Z) : Prop :=
  (exists k, 0 <= k /\ q = 2 ^ k) /\ (forall d, (d < 3)%nat -> get3 s d <= q) /\ forall k, 0 <= k -> (forall d, (d < 3)%nat -> get3 s d <= 2 ^ k) -> q <= 2 ^ k.
Lemma padded_lg s : (forall d, (d < 3)%nat -> 1 <= get3 s d) -> padded_side s (pow2 (lg s)).
Proof.
  intros PS. destruct s as [[n m] k]. rewrite all3 in PS. cbn [get3] in PS. unfold lg, max_side, pow2. set (M := Z.max n (Z.max m k)).
  assert (HM : 1 <= M) by lia. assert (L0 := Z.log2_up_nonneg M). rewrite Z2Nat.id by auto.
  assert (LE : M <= 2 ^ Z.log2_up M). { destruct (Z.eq_dec M 1) as [->|]; [reflexivity|]. apply Z.log2_up_spec. lia. }
  split; [eauto|]. split.
  - rewrite all3. cbn [get3]. lia.
  - intros j Hj H. rewrite all3 in H. cbn [get3] in H. apply Z.pow_le_mono_r; [lia|]. apply Z.log2_up_le_pow2; lia.
Qed.
Lemma padded_unique s p q : padded_side s p -> padded_side s q -> p = q.
Proof. intros ((a & A & ->) & A1 & A2) ((b & B & ->) & B1 & B2). assert (X := A2 b B B1). assert (Y := B2 a A A1). lia. Qed.
Lemma lg_pos s : (forall d, (d < 3)%nat -> 1 <= get3 s d) -> (exists d, (d < 3)%nat /\ 2 <= get3 s d) -> (1 <= lg s)%nat.
Proof.
  intros PS (d & Hd & H). destruct (lg s) eqn:E; [|lia]. destruct (padded_lg s PS) as (_ & A & _). specialize (A d Hd). rewrite E in A. change (pow2 0) with 1 in A. lia.
Qed.

(** the map keeps, per flat index, one of the emitted cells, and every emitted flat index has one *)
Lemma fold_from s (l : list acell) : forall m : acells, ssorted Z.compare (keys m) ->
  let r := fold_left (fun m c => map_set Z.compare (index3 s (fst c)) c m) l m in
  ssorted Z.compare (keys r) /\ (forall i b, In (i, b) r -> In (i, b) m \/ (In b l /\ i = index3 s (fst b))) /\
  (forall i b, In (i, b) m -> exists c, In (i, c) r) /\ (forall b, In b l -> exists c, In (index3 s (fst b), c) r).
Proof.
  induction l as [|c l IH]; intros m S; cbn [fold_left].
  - split; [auto|]. split; [auto|]. split; [intros i b H; exists b; exact H|]. intros b [].
  - set (m' := map_set Z.compare (index3 s (fst c)) c m). assert (S' : ssorted Z.compare (keys m')) by (apply (map_set_sorted Zcompare_total); auto).
    assert (F : forall i b, In (i, b) m' <-> map_find Z.compare i m' = Some b) by (intros; symmetry; apply (map_find_Some Zcompare_total); auto).
    assert (F' : forall i b, In (i, b) m <-> map_find Z.compare i m = Some b) by (intros; symmetry; apply (map_find_Some Zcompare_total); auto).
    destruct (IH m' S') as (I1 & I2 & I3 & I4). split; [exact I1|]. split; [|split].
    + intros i b H. apply I2 in H as [H|[H ->]]; [|right; simpl; auto]. apply F in H. unfold m' in H. rewrite (map_find_set Zcompare_total) in H by auto.
      destruct (i ?= index3 s (fst c)) eqn:C; [|left; apply F'; auto..]. apply Z.compare_eq in C. injection H as <-. right. simpl. auto.
    + intros i b H. destruct (i ?= index3 s (fst c)) eqn:C; [apply (I3 i c)|apply (I3 i b)..]; apply F; unfold m'; rewrite (map_find_set Zcompare_total), C by auto; auto; apply F'; auto.
    + intros b [<-|H]; [|apply I4; auto]. apply (I3 _ c). apply F. unfold m'. rewrite (map_find_set Zcompare_total), Z.compare_refl by auto. auto.
Qed.
Lemma factory_from s original ml : ssorted Z.compare (map fst (factory_cells s original ml)) /\
  (forall i b, In (i, b) (factory_cells s original ml) -> In b (emit_cells s original ml) /\ i = index3 s (fst b)) /\
  (forall b, In b (emit_cells s original ml) -> exists c, In (index3 s (fst b), c) (factory_cells s original ml)).
Proof.
  destruct (fold_from s (emit_cells s original ml) [] (ss_nil _)) as (A & B & _ & C). split; [exact A|]. split; [|exact C]. intros i b H. apply B in H as [[]|H]; auto.
Qed.

Section AnyShape.
  Variable s : c3.
  Variable original : c3 -> bool.
  Variable ml : option Z.
  Hypothesis PS : forall d, (d < 3)%nat -> 1 <= get3 s d.
  Hypothesis BIG : exists d, (d < 3)%nat /\ 2 <= get3 s d.
  Let E := emit_cells s original ml.
  Let HK : (1 <= lg s)%nat := lg_pos s PS BIG.
  Lemma emit_shape x : In x E -> exists l c, (l < lg s)%nat /\ (l <= top_level s ml)%nat /\ x = lcell l c.
  Proof. intros Hx. apply emit_cells_In in Hx as (l & c & ? & ? & ? & _); auto. exists l, c; auto. Qed.
  Lemma emit_corner x : In x E -> in_box x (fst x).
  Proof. intros Hx d Hd. destruct (emit_shape x Hx) as (l & c & _ & _ & ->). unfold lcell; cbn [fst snd]. assert (X := pow2_pos l). lia. Qed.
  Lemma emit_in_pad x p : In x E -> in_box x p -> in_grid (cube3 (pow2 (lg s))) p.
  Proof. intros Hx Bp. apply (emit_padded s original ml x p); auto. apply (padded_lg s PS). Qed.

  (** On every shape: distinct ids for the cells; every cell is an aligned cube of side 2^j inside the cube padded to the next power of two, contains
      no active cell of the grid, is filed under the row-major index of its corner, respects the level limit, and two cells never overlap. *)
  Theorem any_shape q : padded_side s q ->
    ssorted Z.compare (map fst (factory_cells s original ml)) /\ disjoint_cells (factory_cells s original ml) /\
    forall i b, In (i, b) (factory_cells s original ml) -> dyadic b /\ i = index3 s (fst b) /\ (forall m, ml = Some m -> 0 <= m -> 2 ^ m < q -> snd b <= 2 ^ m) /\
      forall p, in_box b p -> in_grid (cube3 q) p /\ ~ (in_grid s p /\ original p = true).
  Proof.
    intros PQ. assert (q = pow2 (lg s)) by (eapply padded_unique; [exact PQ|apply padded_lg; auto]). subst q.
    destruct (factory_from s original ml) as (F0 & F1 & _). split; [exact F0|]. split.
    - intros i a j b p Ha Hb Pa Pb. apply F1 in Ha as [Ha ->], Hb as [Hb ->]. f_equal. f_equal. apply (emit_unique s original ml a b p); auto.
    - intros i b Hb. apply F1 in Hb as [Hb ->]. destruct (emit_shape b Hb) as (l & c & L & LT & EQ). split; [|split; [auto|split]].
      + subst b. exists (Z.of_nat l). split; [lia|]. split; auto. intros d Hd. unfold lcell; cbn [fst]. change (2 ^ Z.of_nat l) with (pow2 l).
        destruct c as [[x y] z]. destruct d as [|[|[|d]]]; cbn [get3 scale3]; try lia; apply Z.divide_factor_l.
      + intros m -> Hm Hq. subst b. unfold lcell, pow2; cbn [snd]. apply Z.pow_le_mono_r; [lia|]. unfold pow2 in Hq. apply Z.pow_lt_mono_r_iff in Hq; [|lia|lia].
        unfold top_level in LT. rewrite (proj2 (Z.leb_le _ _)), (proj2 (Z.ltb_lt _ _)) in LT by lia. cbn [andb] in LT. lia.
      + intros p Bp. split; [apply (emit_in_pad b); auto|]. apply (emit_inactive s original ml b p); auto.
  Qed.
  (** If the two faster-running sides are the full power of two, nothing is lost: every unit cell of the padded cube that is not an active cell of the
      grid lies in exactly one cell, whatever the first side. *)
  Theorem first_side_free q p : padded_side s q -> get3 s 1 = q -> get3 s 2 = q ->
    ml <> Some 0 -> (exists m, ml = Some m /\ 0 <= m /\ 2 ^ m < q) \/ (exists a, in_grid s a /\ original a = true) ->
    in_grid (cube3 q) p -> ~ (in_grid s p /\ original p = true) -> exists! ib, In ib (factory_cells s original ml) /\ in_box (snd ib) p.
  Proof.
    intros PQ S1 S2 M0 HA Gp NA. assert (EQQ : q = pow2 (lg s)) by (eapply padded_unique; [exact PQ|apply padded_lg; auto]). rewrite EQQ in *. clear PQ.
    destruct (factory_from s original ml) as (F0 & F1 & F2).
    assert (INJ : forall a b, In a E -> In b E -> index3 s (fst a) = index3 s (fst b) -> a = b).
    { intros a b Ha Hb EI. apply (emit_unique s original ml a b (fst a)); auto; [apply emit_corner; auto|]. assert (EF : fst a = fst b); [|rewrite EF; apply emit_corner; auto].
      assert (Ga := emit_in_pad a _ Ha (emit_corner a Ha)). assert (Gb := emit_in_pad b _ Hb (emit_corner b Hb)). apply (index3_inj (cube3 (pow2 (lg s)))); auto.
      clear - EI S1 S2. unfold get3 in S1, S2. generalize dependent (pow2 (lg s)). destruct s as [[n m] k], (fst a) as [[x y] z], (fst b) as [[u v] w]. intros Q -> ->. cbn [index3 cube3] in *. unfold ravel in *. exact EI. }
    assert (TOP : (top_level s ml < lg s)%nat \/ exists a, active s original a /\ in_cube (pow2 (lg s)) a).
    { destruct HA as [(m & -> & H0 & Hq)|(a & Ga & Ha)].
      - left. unfold pow2 in Hq. apply Z.pow_lt_mono_r_iff in Hq; [|lia|lia]. apply top_lt. lia.
      - right. exists a. split; [split; auto|]. intros d Hd. destruct (padded_lg s PS) as (_ & B & _). specialize (B d Hd). specialize (Ga d Hd).
        destruct d as [|[|[|d]]]; cbn [get3 cube3]; lia. }
    destruct (emit_cover s original ml p) as (x & Hx & Bx); auto.
    { intros T0. exfalso. unfold top_level in T0. destruct ml as [m|]; [|lia]. destruct ((0 <=? m) && (m <? Z.of_nat (lg s))) eqn:B; [|lia]. apply andb_true_iff in B as [B1 B2].
      apply Z.leb_le in B1. apply M0. f_equal. lia. }
    destruct (F2 x Hx) as (c & Hc). assert (XC : c = x). { destruct (F1 _ _ Hc) as [Hc' EI]. apply INJ; auto. } subst c.
    exists (index3 s (fst x), x). split; [split; auto|]. intros [j y] [Hj Hy]. cbn [snd] in Hy. apply F1 in Hj as [Hj ->].
    assert (x = y) by (apply (emit_unique s original ml x y p); auto). subst. auto.
  Qed.
End AnyShape.
Theorem c24_any_shape s original ml q : (forall d, (d < 3)%nat -> 1 <= get3 s d) -> (exists d, (d < 3)%nat /\ 2 <= get3 s d) -> padded_side s q ->
  ssorted Z.compare (map fst (factory_cells s original ml)) /\ disjoint_cells (factory_cells s original ml) /\
  forall i b, In (i, b) (factory_cells s original ml) -> dyadic b /\ i = index3 s (fst b) /\ (forall m, ml = Some m -> 0 <= m -> 2 ^ m < q -> snd b <= 2 ^ m) /\
    forall p, in_box b p -> in_grid (cube3 q) p /\ ~ (in_grid s p /\ original p = true).
Proof. intros. apply any_shape; auto. Qed.
Theorem c24_first_side_free s original ml q p : (forall d, (d < 3)%nat -> 1 <= get3 s d) -> (exists d, (d < 3)%nat /\ 2 <= get3 s d) ->
  padded_side s q -> get3 s 1 = q -> get3 s 2 = q ->
  ml <> Some 0 -> (exists m, ml = Some m /\ 0 <= m /\ 2 ^ m < q) \/ (exists a, in_grid s a /\ original a = true) ->
  in_grid (cube3 q) p -> ~ (in_grid s p /\ original p = true) -> exists! ib, In ib (factory_cells s original ml) /\ in_box (snd ib) p.
Proof. intros. apply first_side_free with q; auto. Qed.
(** Otherwise an inactive cell of the grid can be lost: on the 3x3x3 grid padded to 4x4x4 the padding cell (0,0,3) has the row-major index 3 of the grid cell
    (0,1,0) and replaces it. *)
Definition two_active (p : c3) : bool := c3_eqb p (0, 0, 0) || c3_eqb p (0, 0, 2).
Theorem c24_lost_cell_refuted : let s := (3, 3, 3) in let p := (0, 1, 0) in
  in_grid s p /\ two_active p = false /\ forall ml, (ml = None \/ ml = Some 1) -> forall i, ~ owns (factory_cells s two_active ml) i p.
Proof.
  cbv zeta. split; [unfold in_grid; rewrite all3; cbn; lia|]. split; [reflexivity|]. intros ml HM i (b & Hb & Bp).
  assert (C : forallb (fun ib : Z * acell => let '(_, ((x, y, z), w)) := ib in negb ((x <=? 0) && (0 <? x + w) && (y <=? 1) && (1 <? y + w) && (z <=? 0) && (0 <? z + w))) (factory_cells (3, 3, 3) two_active ml) = true).
  { destruct HM as [ -> | -> ]; vm_compute; reflexivity. }
  rewrite forallb_forall in C. specialize (C _ Hb). destruct b as [[[x y] z] w]. unfold in_box in Bp. rewrite all3 in Bp. cbn [fst snd get3] in Bp.
  apply negb_true_iff in C. rewrite !(proj2 (Z.leb_le _ _)), !(proj2 (Z.ltb_lt _ _)) in C by lia. discriminate.
Qed.
(** a 3x4x4 grid with one active cell meets the hypotheses of c24_first_side_free; its cell (2,3,3) and the padding cell (3,0,0) are both covered *)
Example c24_first_side_example : let s := (3, 4, 4) in padded_side s 4 /\ (exists a, in_grid s a /\ c3_eqb a (0, 0, 0) = true) /\
  length (factory_cells s (fun p => c3_eqb p (0, 0, 0)) None) = 14%nat.
Proof.
  cbv zeta. split; [|split; [exists (0, 0, 0); split; [unfold in_grid; rewrite all3; cbn; lia|reflexivity]|vm_compute; reflexivity]].
  change 4 with (pow2 (lg (3, 4, 4))) at 3. apply padded_lg. rewrite all3. cbn. lia.
Qed.
