From Verif Require Import Base Num Grid SmallestEdge SmallestEdgeProofs AdaptiveGrid AdaptiveSpec AdaptiveProofs.
Local Open Scope Z_scope.

Lemma some_inj' (A : Type) (a b : A) : Some a = Some b -> a = b.
Proof. congruence. Qed.
Lemma fkey_total : TotalCmp fkey_cmp.
Proof. apply pair_cmp_total; [apply Zcompare_total|apply edge_total]. Qed.
Lemma add_fold cells d l : forall m, ssorted fkey_cmp (keys m) ->
  let r := fold_left (add_bdry cells d) l m in
  ssorted fkey_cmp (keys r) /\
  forall k g, map_find fkey_cmp k r = Some g <-> map_find fkey_cmp k m = Some g \/
     (map_find fkey_cmp k m = None /\ exists e, In e l /\ k = (Z.of_nat d, e) /\ bdry_geom cells d (fst e) (snd e) = Some g).
Proof.
  induction l as [|e l IH]; intros m HS; cbn [fold_left].
  - split; auto. intros k g. split; auto. intros [?|(_ & e & [] & _)]; auto.
  - assert (ST : ssorted fkey_cmp (keys (add_bdry cells d m e)) /\
      forall k g, map_find fkey_cmp k (add_bdry cells d m e) = Some g <-> map_find fkey_cmp k m = Some g \/
       (map_find fkey_cmp k m = None /\ k = (Z.of_nat d, e) /\ bdry_geom cells d (fst e) (snd e) = Some g)).
    { unfold add_bdry. destruct (bdry_geom cells d (fst e) (snd e)) as [g0|] eqn:E.
      - unfold map_emplace. destruct (map_find fkey_cmp (Z.of_nat d, e) m) eqn:F.
        + split; auto. intros k g. split; auto. intros [?|(N & -> & _)]; auto. congruence.
        + split; [apply (map_set_sorted fkey_total); auto|]. intros k g. rewrite (map_find_set fkey_total) by auto.
          destruct (fkey_cmp k (Z.of_nat d, e)) eqn:C.
          * apply (tc_eq fkey_total) in C. subst k. rewrite F. split; [intros [= <-]; auto|intros [?|(_ & _ & [= <-])]; congruence].
          * split; auto. intros [?|(_ & -> & _)]; auto. rewrite (tc_refl fkey_total) in C. discriminate.
          * split; auto. intros [?|(_ & -> & _)]; auto. rewrite (tc_refl fkey_total) in C. discriminate.
      - split; auto. intros k g. split; auto. intros [?|(_ & _ & ?)]; [auto|discriminate]. }
    destruct ST as [S1 S2]. destruct (IH _ S1) as [I1 I2]. split; auto. intros k g. rewrite I2, S2. split.
    + intros [[H|(N & -> & G)]|(N & e' & He & -> & G)].
      * auto.
      * right. split; auto. exists e. simpl; auto.
      * right. split; [|exists e'; simpl; auto]. destruct (map_find fkey_cmp (Z.of_nat d, e') m) eqn:F; auto.
        exfalso. assert (X := proj2 (S2 _ _) (or_introl F)). congruence.
    + intros [H|(N & e' & [<-|He] & -> & G)]; auto.
      destruct (map_find fkey_cmp (Z.of_nat d, e') (add_bdry cells d m e)) eqn:F.
      * assert (F' := F). apply S2 in F' as [?|(_ & [= <-] & G')]; [congruence|]. left. right. split; auto.
      * right. split; auto. exists e'. auto.
Qed.
Lemma face_map_spec shape cells g : let r := face_map shape cells g in
  ssorted fkey_cmp (keys r) /\
  forall k q, map_find fkey_cmp k r = Some q <-> exists d e, (d < 3)%nat /\ k = (Z.of_nat d, e) /\ In e (axis_pairs shape g d) /\ bdry_geom cells d (fst e) (snd e) = Some q.
Proof.
  unfold face_map. cbn [fold_left].
  destruct (add_fold cells 0 (axis_pairs shape g 0) [] (ss_nil _)) as [S0 F0].
  destruct (add_fold cells 1 (axis_pairs shape g 1) _ S0) as [S1 F1]. destruct (add_fold cells 2 (axis_pairs shape g 2) _ S1) as [S2 F2].
  set (m0 := fold_left (add_bdry cells 0) _ _) in *. set (m1 := fold_left (add_bdry cells 1) _ m0) in *. set (m2 := fold_left (add_bdry cells 2) _ m1) in *.
  split; auto. intros k q. rewrite F2, F1, F0. split.
  - intros [[[H|(_ & e & ? & -> & ?)]|(_ & e & ? & -> & ?)]|(_ & e & ? & -> & ?)]; [discriminate|exists 0%nat|exists 1%nat|exists 2%nat]; exists e; (split; [lia|auto]).
  - assert (N1 : forall e, map_find fkey_cmp (1, e) m0 = None).
    { intros e. destruct (map_find fkey_cmp (1, e) m0) eqn:E; auto. apply F0 in E as [?|(_ & ? & _ & ? & _)]; discriminate. }
    assert (N2 : forall e, map_find fkey_cmp (2, e) m1 = None).
    { intros e. destruct (map_find fkey_cmp (2, e) m1) eqn:E; auto. apply F1 in E as [E|(_ & ? & _ & ? & _)]; [|discriminate].
      apply F0 in E as [?|(_ & ? & _ & ? & _)]; discriminate. }
    intros ([|[|[|d]]] & e & Hd & -> & H1 & H2); [| | |lia].
    + left. left. right. split; auto. exists e; auto.
    + left. right. split; [apply N1|]. exists e; auto.
    + right. split; [apply N2|]. exists e; auto.
Qed.
Lemma faces_In shape cells g f : In f (faces shape cells g) <->
  (af_axis f < 3)%nat /\ In (af_dual f) (axis_pairs shape g (af_axis f)) /\
  bdry_geom cells (af_axis f) (fst (af_dual f)) (snd (af_dual f)) = Some (af_corner f, af_width f).
Proof.
  destruct (face_map_spec shape cells g) as [S F]. unfold faces. rewrite in_map_iff. split.
  - intros ([[d e] [c w]] & <- & H). apply (map_find_Some fkey_total) in H; auto. apply F in H as (d' & e' & H1 & [= -> ->] & H2 & H3).
    cbn. rewrite Nat2Z.id. auto.
  - destruct f as [c d w e]. cbn. intros (H1 & H2 & H3). exists ((Z.of_nat d, e), (c, w)). split; [rewrite Nat2Z.id; auto|].
    apply (map_find_Some fkey_total); auto. apply F. eauto 10.
Qed.
Lemma faces_NoDup shape cells g : NoDup (map (fun f => (af_axis f, af_dual f)) (faces shape cells g)).
Proof.
  destruct (face_map_spec shape cells g) as [S F]. unfold faces. rewrite map_map.
  apply (ssorted_NoDup fkey_total) in S. unfold keys in S.
  assert (P : forall k q, In (k, q) (face_map shape cells g) -> 0 <= fst k).
  { intros k q H. apply (map_find_Some fkey_total) in H; [|apply face_map_spec]. apply F in H as (d & e & _ & -> & _). simpl. lia. }
  clear F. induction (face_map shape cells g) as [|[[d e] [c w]] l IH]; cbn [map]; [constructor|]. cbn [map fst] in S. inversion S as [|? ? N ND]; subst. constructor.
  - intros H. apply in_map_iff in H as ([[d' e'] [c' w']] & E & H). cbn in E. apply pair_equal_spec in E as [E1 ->].
    assert (P1 := P _ _ (or_introl eq_refl)). assert (P2 := P _ _ (or_intror H)). simpl in P1, P2. assert (d' = d) by lia. subst.
    apply N. apply in_map_iff. exists ((d, e), (c', w')). auto.
  - apply IH; auto. intros k q H. apply (P k q). simpl; auto.
Qed.


Definition pos3 (s : c3) : Prop := forall d, (d < 3)%nat -> 0 < get3 s d.
Lemma add3_get c d k i : (d < 3)%nat -> (i < 3)%nat -> get3 (add3 c d k) i = if Nat.eqb i d then get3 c i + k else get3 c i.
Proof. destruct c as [[x y] z]. intros Hd Hi. destruct d as [|[|[|d]]]; [| | |lia]; destruct i as [|[|[|i]]]; try lia; reflexivity. Qed.
Lemma add3_add3 c d k k' : add3 (add3 c d k) d k' = add3 c d (k + k').
Proof. destruct c as [[x y] z]. destruct d as [|[|d]]; cbn [add3]; rewrite Z.add_assoc; reflexivity. Qed.
Lemma add3_0 c d : add3 c d 0 = c.
Proof. destruct c as [[x y] z]. destruct d as [|[|d]]; cbn [add3]; rewrite Z.add_0_r; reflexivity. Qed.
Lemma loop_pos shape d y : (d < 3)%nat -> In y (loop3 (0, 0, 0) (add3 shape d 1)) <->
  (forall i, (i < 3)%nat -> i <> d -> 0 <= get3 y i < get3 shape i) /\ 0 <= get3 y d <= get3 shape d.
Proof.
  intros Hd. rewrite loop3_In. rewrite !(add3_get shape) by lia. cbn [get3].
  destruct d as [|[|[|d]]]; [| | |lia]; cbn [Nat.eqb]; split; intros H.
  all: try (split; [intros [|[|[|i]]] Hi Hn; try lia; cbn [get3]; tauto|cbn [get3]; lia]).
  all: destruct H as [H1 H2]; assert (A0 := H1 0%nat); assert (A1 := H1 1%nat); assert (A2 := H1 2%nat); cbn [get3] in *; lia.
Qed.
Lemma axis_pairs_In shape g d a b : pos3 shape -> (d < 3)%nat -> In (a, b) (axis_pairs shape g d) <->
  (exists x, in_grid shape x /\ in_grid shape (add3 x d 1) /\ a = g x /\ b = g (add3 x d 1) /\ 0 <= a /\ 0 <= b) \/
  (a = -2 /\ 0 <= b /\ exists x, in_grid shape x /\ get3 x d = 0 /\ b = g x) \/
  (b = -2 /\ 0 <= a /\ exists x, in_grid shape x /\ get3 x d = get3 shape d - 1 /\ a = g x).
Proof.
  intros PS Hd. unfold axis_pairs. rewrite in_flat_map. unfold bdry_pair. assert (PD := PS d Hd). split.
  - intros (y & Hy & H). apply loop_pos in Hy as [H1 H2]; auto. destruct (Z.eqb_spec (get3 y d) 0) as [E|E].
    + destruct (Z.leb_spec 0 (g y)); [|destruct H]. destruct H as [[= <- <-]|[]]. right. left. split; auto. split; auto. exists y. split; auto.
      intros i Hi. destruct (Nat.eq_dec i d) as [->|N]; [lia|auto].
    + destruct (Z.eqb_spec (get3 y d) (get3 shape d)) as [E'|E'].
      * cbn zeta in H. destruct (Z.leb_spec 0 (g (add3 y d (-1)))); [|destruct H]. destruct H as [[= <- <-]|[]]. right. right. split; auto. split; auto.
        exists (add3 y d (-1)). split; [|split; auto; rewrite add3_get, Nat.eqb_refl by auto; lia].
        intros i Hi. rewrite add3_get by auto. destruct (Nat.eqb_spec i d) as [->|N]; [lia|auto].
      * cbn zeta in H. destruct (_ && _) eqn:C; [|destruct H]. apply andb_true_iff in C as [C1 C2]. apply Z.leb_le in C1, C2.
        destruct H as [[= <- <-]|[]]. left. exists (add3 y d (-1)). rewrite add3_add3, add3_0.
        split; [|split; auto]; intros i Hi; rewrite ?add3_get by auto; [destruct (Nat.eqb_spec i d) as [->|N]|destruct (Nat.eq_dec i d) as [->|N]]; auto; lia.
  - intros [(x & G1 & G2 & -> & -> & A & B)|[(-> & B & x & G & E & ->)|(-> & A & x & G & E & ->)]].
    + exists (add3 x d 1). split.
      * apply loop_pos; auto. split; [intros i Hi _; apply G2; auto|]. assert (X := G2 d Hd). lia.
      * assert (X := G1 d Hd). assert (Y := G2 d Hd). rewrite add3_get, Nat.eqb_refl in Y |- * by auto.
        rewrite (proj2 (Z.eqb_neq _ _)), (proj2 (Z.eqb_neq _ _)) by lia. cbn zeta. rewrite add3_add3. change (1 + -1) with 0. rewrite add3_0.
        rewrite (proj2 (Z.leb_le 0 (g (add3 x d 1)))), (proj2 (Z.leb_le 0 (g x))) by auto. simpl; auto.
    + exists x. split.
      * apply loop_pos; auto. split; [intros i Hi _; apply G; auto|lia].
      * rewrite E. cbn. rewrite (proj2 (Z.leb_le _ _)) by auto. simpl; auto.
    + exists (add3 x d 1). split.
      * apply loop_pos; auto. split; [intros i Hi N; rewrite add3_get, (proj2 (Nat.eqb_neq _ _)) by auto; apply G; auto|].
        rewrite add3_get, Nat.eqb_refl by auto. lia.
      * rewrite add3_get, Nat.eqb_refl by auto. rewrite (proj2 (Z.eqb_neq _ _)) by lia. rewrite (proj2 (Z.eqb_eq _ _)) by lia. cbn zeta.
        rewrite add3_add3. change (1 + -1) with 0. rewrite add3_0, (proj2 (Z.leb_le _ _)) by auto. simpl; auto.
Qed.

Section Faces.
  Variable shape : c3.
  Variable cells : acells.
  Hypothesis PS : pos3 shape.
  Hypothesis WF : wf_cells shape cells.
  Hypothesis DJ : disjoint_cells cells.
  Let g := grid_from_cells cells.
  Lemma cellsi i b : In (i, b) cells <-> cell_at cells i = Some b.
  Proof. symmetry. apply (map_find_Some Zcompare_total). apply WF. Qed.
  Lemma own_nn i p : owns cells i p -> 0 <= i.
  Proof. intros (b & H & _). eapply (proj2 WF); eauto. Qed.
  Lemma own_g i p : owns cells i p <-> 0 <= i /\ i = g p.
  Proof.
    split.
    - intros H. assert (N := own_nn _ _ H). split; auto. symmetry. apply (gfc_owner shape); auto.
    - intros [N E]. apply (gfc_owner shape); auto.
  Qed.
  Lemma own_grid i p : owns cells i p -> in_grid shape p.
  Proof. intros (b & H & HB). eapply (proj2 WF); eauto. Qed.
  Lemma own_geom d a b : a <> b -> (exists x y, owns cells a x /\ owns cells b y) -> exists ca cb, cell_at cells a = Some ca /\ cell_at cells b = Some cb /\
    bdry_geom cells d a b = Some (if Z.min (snd ca) (snd cb) =? snd cb then fst cb else add3 (fst ca) d (Z.min (snd ca) (snd cb)), Z.min (snd ca) (snd cb)).
  Proof.
    intros N (x & y & H1 & H2). assert (A := own_nn _ _ H1). assert (B := own_nn _ _ H2). destruct H1 as (ca & Hca & _), H2 as (cb & Hcb & _).
    apply cellsi in Hca, Hcb. exists ca, cb. split; auto. split; auto. unfold bdry_geom.
    rewrite (proj2 (Z.eqb_neq a b)) by auto. rewrite (proj2 (Z.ltb_ge a 0)) by lia. cbn [andb].
    rewrite (proj2 (Z.eqb_neq a (-2))), (proj2 (Z.eqb_neq b (-2))) by lia. cbn [andb]. rewrite Hca, Hcb. destruct ca, cb. reflexivity.
  Qed.
  Lemma low_geom d b p : owns cells b p -> exists cb, cell_at cells b = Some cb /\ bdry_geom cells d (-2) b = Some (fst cb, snd cb).
  Proof.
    intros H. assert (B := own_nn _ _ H). destruct H as (cb & Hcb & _). apply cellsi in Hcb. exists cb. split; auto. unfold bdry_geom.
    rewrite (proj2 (Z.eqb_neq (-2) b)) by lia. rewrite (proj2 (Z.ltb_ge b 0)) by lia. rewrite andb_false_r. cbn [Z.eqb Pos.eqb andb].
    rewrite (proj2 (Z.leb_le 0 b)) by lia. rewrite Hcb. destruct cb; auto.
  Qed.
  Lemma high_geom d a p : owns cells a p -> exists ca, cell_at cells a = Some ca /\ bdry_geom cells d a (-2) = Some (add3 (fst ca) d (snd ca), snd ca).
  Proof.
    intros H. assert (B := own_nn _ _ H). destruct H as (cb & Hcb & _). apply cellsi in Hcb. exists cb. split; auto. unfold bdry_geom.
    rewrite (proj2 (Z.eqb_neq a (-2))) by lia. rewrite (proj2 (Z.ltb_ge a 0)) by lia. cbn [Z.eqb Pos.eqb andb].
    rewrite (proj2 (Z.leb_le 0 a)) by lia. rewrite Hcb. destruct cb; auto.
  Qed.
  Definition adjacent (d : nat) (a b : Z) : Prop :=
    (a <> b /\ exists x, owns cells a x /\ owns cells b (add3 x d 1)) \/
    (a = -2 /\ exists x, owns cells b x /\ get3 x d = 0) \/
    (b = -2 /\ exists x, owns cells a x /\ get3 x d = get3 shape d - 1).
  Lemma pairs_adj d a b : (d < 3)%nat -> a <> b -> In (a, b) (axis_pairs shape g d) <-> adjacent d a b.
  Proof.
    intros Hd N. rewrite axis_pairs_In by auto. unfold adjacent. split.
    - intros [(x & G1 & G2 & E1 & E2 & A & B)|[(-> & B & x & G & E & E2)|(-> & A & x & G & E & E2)]].
      + left. split; auto. exists x. split; apply own_g; auto.
      + right. left. split; auto. exists x. split; auto. apply own_g; auto.
      + right. right. split; auto. exists x. split; auto. apply own_g; auto.
    - intros [(_ & x & H1 & H2)|[(-> & x & H & E)|(-> & x & H & E)]].
      + left. exists x. assert (G1 := own_grid _ _ H1). assert (G2 := own_grid _ _ H2). apply own_g in H1, H2. tauto.
      + right. left. assert (G := own_grid _ _ H). apply own_g in H. split; auto. split; [tauto|]. exists x; tauto.
      + right. right. assert (G := own_grid _ _ H). apply own_g in H. split; auto. split; [tauto|]. exists x; tauto.
  Qed.
  Lemma adj_ne d a b : adjacent d a b -> a <> b.
  Proof.
    intros [(N & _)|[(-> & x & H & _)|(-> & x & H & _)]]; auto; apply own_nn in H; lia.
  Qed.
  Lemma faces_exist d a b : (d < 3)%nat -> (exists f, In f (make_faces shape cells) /\ af_axis f = d /\ af_dual f = (a, b)) <-> adjacent d a b.
  Proof.
    intros Hd. split.
    - intros (f & Hf & <- & E). apply faces_In in Hf as (H1 & H2 & H3). rewrite E in H2, H3. cbn [fst snd] in H3.
      apply pairs_adj; auto. intros ->. unfold bdry_geom in H3. rewrite Z.eqb_refl in H3. discriminate.
    - intros A. assert (N := adj_ne _ _ _ A).
      assert (GE : exists q, bdry_geom cells d a b = Some q).
      { destruct A as [(_ & x & H1 & H2)|[(-> & x & H & E)|(-> & x & H & E)]].
        - destruct (own_geom d a b N) as (ca & cb & _ & _ & ->); eauto.
        - destruct (low_geom d b x H) as (cb & _ & ->); eauto.
        - destruct (high_geom d a x H) as (cb & _ & ->); eauto. }
      destruct GE as [[c w] GE]. exists (mkFace c d w (a, b)). split; auto. apply faces_In. cbn. split; auto. split; auto. apply pairs_adj; auto.
  Qed.
  (** geometry *)
  Lemma nested k K p q x : 0 <= k <= K -> (2 ^ k | p) -> (2 ^ K | q) -> p <= x < p + 2 ^ k -> q <= x < q + 2 ^ K -> q <= p /\ p + 2 ^ k <= q + 2 ^ K.
  Proof.
    intros Hk [u ->] [v ->] H1 H2. assert (E : 2 ^ K = 2 ^ (K - k) * 2 ^ k) by (rewrite <- Z.pow_add_r by lia; f_equal; lia).
    assert (P1 : 0 < 2 ^ k) by (apply Z.pow_pos_nonneg; lia). assert (P2 : 0 < 2 ^ (K - k)) by (apply Z.pow_pos_nonneg; lia).
    rewrite E in *. set (s := 2 ^ k) in *. set (t := 2 ^ (K - k)) in *. clearbody s t.
    assert (v * t <= u < v * t + t) by nia. nia.
  Qed.
  Hypothesis DY : forall i b, In (i, b) cells -> dyadic b.
  Lemma own_box i b p : cell_at cells i = Some b -> owns cells i p <-> in_box b p.
  Proof.
    intros E. split; [|intros H; exists b; split; auto; apply cellsi; auto]. intros (c & Hc & H). apply cellsi in Hc. rewrite E in Hc; injection Hc as <-; exact H.
  Qed.
  Lemma face_geometry f : In f (make_faces shape cells) ->
    let '(a, b) := af_dual f in forall y, on_square (af_corner f) (af_axis f) (af_width f) y <->
      if a =? -2 then owns cells b y /\ get3 y (af_axis f) = 0
      else if b =? -2 then owns cells a (add3 y (af_axis f) (-1)) /\ get3 y (af_axis f) = get3 shape (af_axis f)
      else owns cells a (add3 y (af_axis f) (-1)) /\ owns cells b y.
  Proof.
    intros Hf. destruct f as [c d w [a b]]. cbn [af_dual af_corner af_axis af_width].
    assert (AD : adjacent d a b). { apply faces_exist; [apply faces_In in Hf; apply Hf|]. eexists; split; eauto. }
    apply faces_In in Hf as (Hd & _ & GE). cbn [af_dual af_corner af_axis af_width fst snd] in *. intros y.
    assert (N := adj_ne _ _ _ AD). destruct AD as [(_ & x & H1 & H2)|[(-> & x & H & E)|(-> & x & H & E)]].
    - assert (NA := own_nn _ _ H1). assert (NB := own_nn _ _ H2). rewrite (proj2 (Z.eqb_neq a (-2))), (proj2 (Z.eqb_neq b (-2))) by lia.
      destruct (own_geom d a b N) as (ca & cb & Ca & Cb & G); eauto. rewrite G in GE. clear G. apply some_inj', pair_equal_spec in GE as [<- <-].
      apply (own_box _ _ _ Ca) in H1. apply (own_box _ _ _ Cb) in H2. rewrite (own_box _ _ _ Ca), (own_box _ _ _ Cb).
      destruct (DY a ca) as (ka & Ka & Wa & Da); [apply cellsi; auto|]. destruct (DY b cb) as (kb & Kb & Wb & Db); [apply cellsi; auto|].
      (* planes *)
      assert (Pb : get3 (fst cb) d = get3 x d + 1).
      { assert (X := H2 d Hd). rewrite add3_get, Nat.eqb_refl in X by auto.
        destruct (Z.eq_dec (get3 (fst cb) d) (get3 x d + 1)); auto. exfalso. apply N. apply (DJ a ca b cb x); auto; try (apply cellsi; auto).
        intros i Hi. assert (Y := H2 i Hi). rewrite add3_get in Y by auto. destruct (Nat.eqb_spec i d) as [->|]; lia. }
      assert (Pa : get3 (fst ca) d + snd ca = get3 x d + 1).
      { assert (X := H1 d Hd). 
        destruct (Z.eq_dec (get3 (fst ca) d + snd ca) (get3 x d + 1)); auto. exfalso. apply N. apply (DJ a ca b cb (add3 x d 1)); auto; try (apply cellsi; auto).
        intros i Hi. assert (Y := H1 i Hi). rewrite add3_get by auto. destruct (Nat.eqb_spec i d) as [->|]; lia. }
      assert (Qa : 0 < snd ca) by (rewrite Wa; apply Z.pow_pos_nonneg; lia). assert (Qb : 0 < snd cb) by (rewrite Wb; apply Z.pow_pos_nonneg; lia).
      assert (NS : forall i, (i < 3)%nat -> i <> d ->
        (snd cb <= snd ca -> get3 (fst ca) i <= get3 (fst cb) i /\ get3 (fst cb) i + snd cb <= get3 (fst ca) i + snd ca) /\
        (snd ca <= snd cb -> get3 (fst cb) i <= get3 (fst ca) i /\ get3 (fst ca) i + snd ca <= get3 (fst cb) i + snd cb)).
      { intros i Hi Hn. assert (X := H1 i Hi). assert (Y := H2 i Hi). rewrite add3_get, (proj2 (Nat.eqb_neq _ _)) in Y by auto.
        rewrite Wa, Wb in *. split; intros L.
        - apply (nested kb ka _ _ (get3 x i)); auto. split; [lia|]. apply (Z.pow_le_mono_r_iff 2); lia.
        - apply (nested ka kb _ _ (get3 x i)); auto. split; [lia|]. apply (Z.pow_le_mono_r_iff 2); lia. }
      unfold on_square, in_box.
      destruct (Z.eqb_spec (Z.min (snd ca) (snd cb)) (snd cb)) as [M|M].
      + assert (L : snd cb <= snd ca) by lia. replace (Z.min (snd ca) (snd cb)) with (snd cb) by lia. split.
        * intros [E H]. split; intros i Hi; rewrite ?add3_get by auto; destruct (Nat.eqb_spec i d) as [->|Hn]; try lia;
            try (specialize (H i Hi Hn); destruct (NS i Hi Hn) as [S _]; specialize (S L); lia); destruct (Nat.eq_dec i d) as [->|Hn]; lia || auto.
        * intros [F1 F2]. assert (X := F1 d Hd). assert (Y := F2 d Hd). rewrite add3_get, Nat.eqb_refl in X by auto. split; [lia|].
          intros i Hi Hn. apply F2; auto.
      + assert (L : snd ca <= snd cb) by lia. replace (Z.min (snd ca) (snd cb)) with (snd ca) in * by lia. rewrite add3_get, Nat.eqb_refl by auto. split.
        * intros [E H]. assert (H' : forall i, (i < 3)%nat -> i <> d -> get3 (fst ca) i <= get3 y i < get3 (fst ca) i + snd ca).
          { intros i Hi Hn. specialize (H i Hi Hn). rewrite add3_get, (proj2 (Nat.eqb_neq _ _)) in H by auto. auto. }
          split; intros i Hi; rewrite ?add3_get by auto; destruct (Nat.eqb_spec i d) as [->|Hn]; try lia; auto;
            try (specialize (H' i Hi Hn); destruct (NS i Hi Hn) as [_ S]; specialize (S L); lia).
        * intros [F1 F2]. assert (X := F1 d Hd). assert (Y := F2 d Hd). rewrite add3_get, Nat.eqb_refl in X by auto. split; [lia|].
          intros i Hi Hn. rewrite add3_get, (proj2 (Nat.eqb_neq _ _)) by auto. assert (Z0 := F1 i Hi). rewrite add3_get, (proj2 (Nat.eqb_neq _ _)) in Z0 by auto. auto.
    - rewrite Z.eqb_refl. destruct (low_geom d b x H) as (cb & Cb & G). rewrite G in GE. apply some_inj', pair_equal_spec in GE as [<- <-].
      apply (own_box _ _ _ Cb) in H. rewrite (own_box _ _ _ Cb). assert (LO : get3 (fst cb) d = 0).
      { assert (X := H d Hd). assert (0 < snd cb) by lia. assert (IG : in_box cb (fst cb)) by (intros i Hi; lia).
        assert (Y := proj2 (proj2 (proj2 WF b cb (proj2 (cellsi _ _) Cb))) _ IG d Hd). lia. }
      unfold on_square, in_box. split.
      + intros [E1 E2]. split; [|lia]. intros i Hi. destruct (Nat.eq_dec i d) as [->|Hn]; auto. assert (X := H d Hd). lia.
      + intros [F E1]. split; [lia|]. auto.
    - assert (NA := own_nn _ _ H). rewrite (proj2 (Z.eqb_neq a (-2))), Z.eqb_refl by lia.
      destruct (high_geom d a x H) as (ca & Ca & G). rewrite G in GE. apply some_inj', pair_equal_spec in GE as [<- <-].
      apply (own_box _ _ _ Ca) in H. rewrite (own_box _ _ _ Ca). assert (HI : get3 (fst ca) d + snd ca = get3 shape d).
      { assert (X := H d Hd). assert (0 < snd ca) by lia. 
        assert (IG : in_box ca (add3 x d (get3 (fst ca) d + snd ca - 1 - get3 x d))).
        { intros i Hi. rewrite add3_get by auto. assert (Y := H i Hi). destruct (Nat.eqb_spec i d) as [->|]; lia. }
        assert (Y := proj2 (proj2 (proj2 WF a ca (proj2 (cellsi _ _) Ca))) _ IG d Hd). rewrite add3_get, Nat.eqb_refl in Y by auto. lia. }
      unfold on_square, in_box. rewrite add3_get, Nat.eqb_refl by auto. split.
      + intros [E1 E2]. split; [|lia]. intros i Hi. rewrite add3_get by auto. destruct (Nat.eqb_spec i d) as [->|Hn].
        * assert (X := H d Hd). lia.
        * specialize (E2 i Hi Hn). rewrite add3_get, (proj2 (Nat.eqb_neq _ _)) in E2 by auto. auto.
      + intros [F E1]. split; [lia|]. intros i Hi Hn. rewrite add3_get, (proj2 (Nat.eqb_neq _ _)) by auto. assert (X := F i Hi).
        rewrite add3_get, (proj2 (Nat.eqb_neq _ _)) in X by auto. auto.
  Qed.
End Faces.
