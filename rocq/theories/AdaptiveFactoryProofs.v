From Verif Require Import Base Num Grid SmallestEdge SmallestEdgeProofs AdaptiveGrid AdaptiveFactory AdaptiveSpec AdaptiveProofs.
Local Open Scope Z_scope.

Lemma c3_inj (a b c x y z : Z) : (a, b, c) = (x, y, z) -> a = x /\ b = y /\ c = z.
Proof. intros [=]. auto. Qed.
Definition div3 (l : nat) (p : c3) : c3 := let '(x, y, z) := p in (x / pow2 l, y / pow2 l, z / pow2 l).
Lemma pow2_pos l : 0 < pow2 l.
Proof. unfold pow2. apply Z.pow_pos_nonneg; lia. Qed.
Lemma pow2_S l : pow2 (S l) = 2 * pow2 l.
Proof. unfold pow2. rewrite Nat2Z.inj_succ, Z.pow_succ_r; lia. Qed.
Lemma div_iff q x c : 0 < q -> (q * c <= x < q * c + q <-> x / q = c).
Proof.
  intros Q. split; intros H.
  - symmetry. apply (Z.div_unique x q c (x - q * c)); lia.
  - subst c. assert (X := Z.mul_div_le x q Q). assert (Y := Z.mul_succ_div_gt x q Q). lia.
Qed.
Lemma box_div l c p : in_box (scale3 (pow2 l) c, pow2 l) p <-> div3 l p = c.
Proof.
  unfold in_box. rewrite all3. destruct c as [[a b] e], p as [[x y] z]. cbn [fst snd scale3 get3 div3].
  rewrite !(div_iff (pow2 l)) by apply pow2_pos. split; [intros (-> & -> & ->); auto|intros H; apply c3_inj in H as (<- & <- & <-); auto].
Qed.
Lemma div3_S l p : div3 (S l) p = div3 1 (div3 l p).
Proof.
  destruct p as [[x y] z]. cbn [div3]. assert (P := pow2_pos l). rewrite pow2_S. change (pow2 1) with 2. rewrite (Z.mul_comm 2). rewrite <- !Z.div_div by lia. reflexivity.
Qed.
Lemma div3_0 p : div3 0 p = p.
Proof. destruct p as [[x y] z]. cbn [div3]. change (pow2 0) with 1. rewrite !Z.div_1_r. reflexivity. Qed.
Lemma offsets_In o : In o offsets <-> exists x, o = plus3 x (scale3 (-2) (div3 1 x)).
Proof.
  unfold offsets. rewrite loop3_In. destruct o as [[a b] c]. cbn [get3]. split.
  - intros H. exists (a, b, c). cbn [div3 scale3 plus3]. change (pow2 1) with 2. rewrite !Z.div_small by lia. f_equal; [f_equal|]; lia.
  - intros ([[x y] z] & H). cbn [div3 scale3 plus3] in H. change (pow2 1) with 2 in H. apply c3_inj in H as (-> & -> & ->).
    assert (X := Z.mod_pos_bound x 2 ltac:(lia)). assert (Y := Z.mod_pos_bound y 2 ltac:(lia)). assert (W := Z.mod_pos_bound z 2 ltac:(lia)).
    rewrite Z.mod_eq in X, Y, W by lia. lia.
Qed.
Lemma split2 b o x : In o offsets -> (plus3 (scale3 2 b) o = x <-> b = div3 1 x /\ o = plus3 x (scale3 (-2) (div3 1 x))).
Proof.
  unfold offsets. rewrite loop3_In. destruct o as [[o1 o2] o3], b as [[b1 b2] b3], x as [[x1 x2] x3]. cbn [get3 div3 scale3 plus3]. change (pow2 1) with 2. intros H. split.
  - intros E. apply c3_inj in E as (<- & <- & <-).
    assert (X1 : (2 * b1 + o1) / 2 = b1) by (symmetry; apply (Z.div_unique _ _ _ o1); lia).
    assert (X2 : (2 * b2 + o2) / 2 = b2) by (symmetry; apply (Z.div_unique _ _ _ o2); lia).
    assert (X3 : (2 * b3 + o3) / 2 = b3) by (symmetry; apply (Z.div_unique _ _ _ o3); lia).
    rewrite X1, X2, X3. split; auto. f_equal; [f_equal|]; lia.
  - intros [E1 E2]. apply c3_inj in E1 as (-> & -> & ->), E2 as (-> & -> & ->). f_equal; [f_equal|]; lia.
Qed.

Section Factory.
  Variable shape : c3.
  Variable original : c3 -> bool.
  Definition active (p : c3) : Prop := in_grid shape p /\ original p = true.
  Definition Act (l : nat) (c : c3) : Prop := exists p, active p /\ div3 l p = c.
  Lemma bits_Act l : forall b o, level_bits shape original l b o = true <-> Act l (plus3 (scale3 2 b) o).
  Proof.
    induction l as [|l IH]; intros b o; cbn [level_bits].
    - rewrite andb_true_iff, in3_grid. unfold Act. split.
      + intros H. exists (plus3 (scale3 2 b) o). split; [exact H|apply div3_0].
      + intros (p & H & <-). rewrite div3_0. exact H.
    - rewrite existsb_exists. set (x := plus3 (scale3 2 b) o). split.
      + intros (o' & Ho & H). apply IH in H as (p & HA & E). exists p. split; auto. rewrite div3_S. symmetry in E. apply split2 in E; auto. symmetry. apply E.
      + intros (p & HA & E). rewrite div3_S in E. set (y := div3 l p) in *.
        exists (plus3 y (scale3 (-2) (div3 1 y))). assert (Ho : In (plus3 y (scale3 (-2) (div3 1 y))) offsets) by (apply offsets_In; eauto).
        split; auto. apply IH. exists p. split; auto. fold y. symmetry. apply split2; auto.
  Qed.
  Lemma any_Act l b : any (level_bits shape original l b) = true <-> Act (S l) b.
  Proof.
    unfold any. rewrite existsb_exists. split.
    - intros (o & Ho & H). apply bits_Act in H as (p & HA & E). exists p. split; auto. rewrite div3_S. symmetry in E. apply split2 in E; auto. symmetry; apply E.
    - intros (p & HA & E). rewrite div3_S in E. set (y := div3 l p) in *.
      exists (plus3 y (scale3 (-2) (div3 1 y))). assert (Ho : In (plus3 y (scale3 (-2) (div3 1 y))) offsets) by (apply offsets_In; eauto).
      split; auto. apply bits_Act. exists p. split; auto. fold y. symmetry. apply split2; auto.
  Qed.
  Lemma Act_mono l p : Act l (div3 l p) -> Act (S l) (div3 (S l) p).
  Proof. intros (q & HA & E). exists q. split; auto. rewrite (div3_S l q), (div3_S l p), E. auto. Qed.
  Lemma Act_mono' l k p : (l <= k)%nat -> Act l (div3 l p) -> Act k (div3 k p).
  Proof. induction 1; auto. intros H'. apply Act_mono. auto. Qed.
  Lemma Act_dec l c : Act l c \/ ~ Act l c.
  Proof.
    destruct l as [|l].
    - destruct (in3 shape c && original c) eqn:E.
      + left. apply andb_true_iff in E. rewrite in3_grid in E. exists c. split; auto. apply div3_0.
      + right. intros (p & [H1 H2] & <-). rewrite div3_0 in E. apply in3_grid in H1. rewrite H1, H2 in E. discriminate.
    - destruct (any (level_bits shape original l c)) eqn:E; [left; apply any_Act; auto|right]. intros H. apply any_Act in H. congruence.
  Qed.
  (** the cell of level l at block coordinate c *)
  Definition lcell (l : nat) (c : c3) : acell := (scale3 (pow2 l) c, pow2 l).
  Definition in_cube (n : Z) (c : c3) : Prop := in_grid (cube3 n) c.
  Let K := lg shape.
  (** set of cells emitted by a level that is not the maximal one *)
  Definition inner_cells (l : nat) : list acell :=
    flat_map (fun b => if any (level_bits shape original l b) then block_cells (level_bits shape original l b) l b else []) (loop3 (0, 0, 0) (cube3 (level_side shape l))).
  Definition last_cells (l : nat) : list acell :=
    match l with
    | O => mask_cells shape original 0
    | S k => mask_cells (cube3 (level_side shape k)) (fun b => any (level_bits shape original k b)) l
    end.
  Lemma side_pow l : (l < K)%nat -> level_side shape l = pow2 (K - S l).
  Proof.
    intros H. unfold level_side. fold K. symmetry. apply Z.div_unique_exact; [assert (X := pow2_pos (S l)); lia|]. unfold pow2. rewrite <- Z.pow_add_r by lia. f_equal. lia.
  Qed.
  Lemma cube_half n c : in_cube (pow2 (S n)) c <-> in_cube (pow2 n) (div3 1 c).
  Proof.
    unfold in_cube, in_grid. rewrite !all3. destruct c as [[x y] z]. cbn [get3 cube3 div3]. change (pow2 1) with 2. rewrite pow2_S.
    assert (F : forall x, 0 <= x < 2 * pow2 n <-> 0 <= x / 2 < pow2 n).
    { intros t. assert (X := Z.mul_div_le t 2 ltac:(lia)). assert (Y := Z.mul_succ_div_gt t 2 ltac:(lia)). lia. }
    rewrite !F. tauto.
  Qed.
  Lemma cube_loop n c : In c (loop3 (0, 0, 0) (cube3 n)) <-> in_cube n c.
  Proof. rewrite loop3_In. unfold in_cube, in_grid. rewrite all3. cbn [get3 cube3]. destruct c as [[x y] z]. cbn [get3]. lia. Qed.
  Lemma cube_div l n p : in_cube (pow2 (l + n)) p <-> in_cube (pow2 n) (div3 l p).
  Proof.
    revert n p. induction l as [|l IH]; intros n p; [rewrite div3_0; reflexivity|]. rewrite div3_S, <- cube_half, <- IH.
    replace (l + S n)%nat with (S l + n)%nat by lia. reflexivity.
  Qed.
  Lemma inner_In l x : (l < K)%nat -> In x (inner_cells l) <->
    exists c, in_cube (pow2 (K - l)) c /\ ~ Act l c /\ Act (S l) (div3 1 c) /\ x = lcell l c.
  Proof.
    intros Hl. unfold inner_cells. rewrite in_flat_map, side_pow by auto. replace (K - l)%nat with (S (K - S l)) by lia. split.
    - intros (b & Hb & H). destruct (any _) eqn:A; [|destruct H]. apply any_Act in A. apply cube_loop in Hb. apply in_flat_map in H as (o & Ho & H).
      destruct (level_bits _ _ _ _ _) eqn:B; [destruct H|]. destruct H as [<-|[]]. set (c := plus3 (scale3 2 b) o).
      assert (E := proj1 (split2 b o c Ho) eq_refl). destruct E as [E _]. exists c.
      split; [apply cube_half; rewrite <- E; auto|]. split; [intros H; apply bits_Act in H; congruence|]. split; [rewrite <- E; auto|].
      unfold lcell, c. f_equal. rewrite pow2_S. destruct b as [[b1 b2] b3], o as [[o1 o2] o3]. cbn [plus3 scale3]. f_equal; [f_equal|]; ring.
    - intros (c & Hc & NA & A & ->). exists (div3 1 c). split; [apply cube_loop, cube_half; auto|]. apply any_Act in A. rewrite A.
      set (o := plus3 c (scale3 (-2) (div3 1 c))). assert (Ho : In o offsets) by (apply offsets_In; exists c; reflexivity).
      assert (E : plus3 (scale3 2 (div3 1 c)) o = c) by (apply split2; [exact Ho|split; reflexivity]).
      apply in_flat_map. exists o. split; auto. destruct (level_bits _ _ _ _ _) eqn:B.
      + apply bits_Act in B. rewrite E in B. contradiction.
      + left. unfold lcell. f_equal. rewrite <- E at 2. rewrite pow2_S. destruct (div3 1 c) as [[b1 b2] b3], o as [[o1 o2] o3]. cbn [plus3 scale3]. f_equal; [f_equal|]; ring.
  Qed.
  Lemma last_In l x : (l <= K)%nat -> In x (last_cells l) <->
    exists c, (if Nat.eqb l 0 then in_grid shape c else in_cube (pow2 (K - l)) c) /\ ~ Act l c /\ x = lcell l c.
  Proof.
    intros Hl. destruct l as [|l]; cbn [last_cells Nat.eqb]; unfold mask_cells; rewrite in_flat_map.
    - split.
      + intros (c & Hc & H). destruct (original c) eqn:E; [destruct H|]. destruct H as [<-|[]]. exists c. split; [apply loop3_In in Hc|].
        * unfold in_grid. rewrite all3. exact Hc.
        * split; auto. intros (p & [_ H] & <-). rewrite div3_0 in E. congruence.
      + intros (c & Hc & NA & ->). exists c. split; [apply loop3_In; unfold in_grid in Hc; rewrite all3 in Hc; exact Hc|].
        destruct (original c) eqn:E; [|left; reflexivity]. exfalso. apply NA. exists c. split; [split; auto|apply div3_0].
    - rewrite side_pow by lia. split.
      + intros (c & Hc & H). destruct (any _) eqn:E; [destruct H|]. destruct H as [<-|[]]. exists c. split; [apply cube_loop; auto|]. split; auto.
        intros H. apply any_Act in H. congruence.
      + intros (c & Hc & NA & ->). exists c. split; [apply cube_loop; auto|]. destruct (any _) eqn:E; [|left; reflexivity]. apply any_Act in E. contradiction.
  Qed.
  Lemma emit_In ml x n : forall s, In x (emit_levels shape original ml (seq s n)) <->
    exists l, (s <= l < s + n)%nat /\ (forall j, (s <= j < l)%nat -> ml <> Some (Z.of_nat j)) /\
      ((ml = Some (Z.of_nat l) /\ In x (last_cells l)) \/ (ml <> Some (Z.of_nat l) /\ In x (inner_cells l))).
  Proof.
    induction n as [|n IH]; intros s; cbn [seq emit_levels].
    - split; [intros []|]. intros (l & H & _). lia.
    - destruct (match ml with Some m => m =? Z.of_nat s | None => false end) eqn:E.
      + assert (ES : ml = Some (Z.of_nat s)). { destruct ml; [|discriminate]. apply Z.eqb_eq in E. congruence. }
        change (match s with 0%nat => mask_cells shape original 0 | S k => mask_cells (cube3 (level_side shape k)) (fun b => any (level_bits shape original k b)) s end) with (last_cells s). split.
        * intros H. exists s. split; [lia|]. split; [intros j Hj; lia|]. auto.
        * intros (l & Hl & Hj & H). destruct (Nat.eq_dec l s) as [->|N]; [|exfalso; apply (Hj s); [lia|auto]]. destruct H as [[_ H]|[H _]]; auto. contradiction.
      + assert (ES : ml <> Some (Z.of_nat s)). { intros ->. rewrite Z.eqb_refl in E. discriminate. }
        rewrite in_app_iff. fold (inner_cells s). rewrite IH. split.
        * intros [H|(l & Hl & Hj & H)].
          -- exists s. split; [lia|]. split; [intros; lia|auto].
          -- exists l. split; [lia|]. split; auto. intros j Hj'. destruct (Nat.eq_dec j s) as [->|]; auto. apply Hj; lia.
        * intros (l & Hl & Hj & H). destruct (Nat.eq_dec l s) as [->|N].
          -- destruct H as [[H _]|[_ H]]; [contradiction|auto].
          -- right. exists l. split; [lia|]. split; auto. intros j Hj'. apply Hj; lia.
  Qed.
  (** final characterisation, for grids with K >= 1 *)
  Definition top_level (ml : option Z) : nat := match ml with Some m => if (0 <=? m) && (m <? Z.of_nat K) then Z.to_nat m else K | None => K end.
  Lemma emit_cells_In ml x : (1 <= K)%nat -> In x (emit_cells shape original ml) <->
    exists l c, (l <= top_level ml)%nat /\ (l < K)%nat /\ x = lcell l c /\ ~ Act l c /\
      (if Nat.eqb l (top_level ml) then (if Nat.eqb l 0 then in_grid shape c else in_cube (pow2 (K - l)) c)
       else in_cube (pow2 (K - l)) c /\ Act (S l) (div3 1 c)).
  Proof.
    intros HK. unfold emit_cells. assert (EC : level_count shape = K) by (unfold level_count; fold K; lia). rewrite EC, emit_In. cbn [Nat.add].
    assert (TL : forall l, (l < K)%nat -> (ml = Some (Z.of_nat l) <-> l = top_level ml)).
    { intros l Hl. unfold top_level. destruct ml as [m|]; [|split; [discriminate|lia]]. destruct (Z.leb_spec 0 m), (Z.ltb_spec m (Z.of_nat K)); cbn [andb];
        (split; [intros E; injection E; lia|intros E; f_equal; lia]). }
    assert (TL' : forall l, (l < K)%nat -> (forall j, (0 <= j < l)%nat -> ml <> Some (Z.of_nat j)) <-> (l <= top_level ml)%nat).
    { intros l Hl. split.
      - intros H. destruct (le_lt_dec l (top_level ml)); auto. exfalso. apply (H (top_level ml)); [lia|]. apply TL; lia.
      - intros H j Hj E. apply TL in E; lia. }
    split.
    - intros (l & Hl & Hj & H). apply TL' in Hj; [|lia]. destruct H as [[E H]|[E H]].
      + apply TL in E; [|lia]. apply last_In in H as (c & H1 & H2 & ->); [|lia]. exists l, c. rewrite <- E, Nat.eqb_refl. split; [lia|]. split; [lia|]. auto.
      + rewrite TL in E by lia. apply inner_In in H as (c & H1 & H2 & H3 & ->); [|lia]. exists l, c. rewrite (proj2 (Nat.eqb_neq _ _)) by auto. split; [lia|]. split; [lia|]. auto.
    - intros (l & c & H1 & H2 & -> & NA & H). exists l. split; [lia|]. split; [apply TL'; auto|]. destruct (Nat.eqb_spec l (top_level ml)) as [E|E].
      + left. split; [apply TL; auto|]. apply last_In; [lia|]. exists c. auto.
      + right. rewrite TL by lia. split; auto. apply inner_In; auto. exists c. tauto.
  Qed.
  (** tiling of the padded cube by the emitted cells *)
  Lemma emit_unique ml x y p : (1 <= K)%nat -> In x (emit_cells shape original ml) -> In y (emit_cells shape original ml) -> in_box x p -> in_box y p -> x = y.
  Proof.
    intros HK Hx Hy Bx By. apply emit_cells_In in Hx as (l & c & L1 & L2 & -> & NA & H); auto. apply emit_cells_In in Hy as (l' & c' & L1' & L2' & -> & NA' & H'); auto.
    apply box_div in Bx, By. subst c c'. destruct (lt_eq_lt_dec l l') as [[L|L]|L].
    - exfalso. destruct (Nat.eqb_spec l (top_level ml)); [lia|]. destruct H as [_ H]. rewrite <- div3_S in H. apply NA'. apply (Act_mono' (S l)); [lia|auto].
    - subst l'. auto.
    - exfalso. destruct (Nat.eqb_spec l' (top_level ml)); [lia|]. destruct H' as [_ H']. rewrite <- div3_S in H'. apply NA. apply (Act_mono' (S l')); [lia|auto].
  Qed.
  Lemma emit_inactive ml x p : (1 <= K)%nat -> In x (emit_cells shape original ml) -> in_box x p -> ~ active p.
  Proof.
    intros HK Hx Bx HA. apply emit_cells_In in Hx as (l & c & L1 & L2 & -> & NA & _); auto. apply box_div in Bx. subst c. apply NA. exists p. auto.
  Qed.
  Lemma emit_padded ml x p : (1 <= K)%nat -> (forall d, (d < 3)%nat -> get3 shape d <= pow2 K) -> In x (emit_cells shape original ml) -> in_box x p -> in_cube (pow2 K) p.
  Proof.
    intros HK PS Hx Bx. apply emit_cells_In in Hx as (l & c & L1 & L2 & -> & NA & H); auto. apply box_div in Bx. subst c.
    replace K with (l + (K - l))%nat by lia. apply cube_div. destruct (Nat.eqb_spec l (top_level ml)); [|tauto]. destruct (Nat.eqb_spec l 0) as [->|]; auto.
    rewrite div3_0 in *. rewrite Nat.sub_0_r. intros d Hd. specialize (H d Hd). specialize (PS d Hd). destruct d as [|[|[|d]]]; cbn [get3 cube3]; lia.
  Qed.
  Lemma lt_find (P : nat -> Prop) n : (forall j, P j \/ ~ P j) -> ~ P 0%nat -> P n -> exists l, (l < n)%nat /\ ~ P l /\ P (S l).
  Proof.
    intros D H0. induction n as [|n IH]; intros Hn; [contradiction|]. destruct (D n) as [H|H].
    - destruct (IH H) as (l & ? & ?). exists l. split; [lia|auto].
    - exists n. auto.
  Qed.
  Lemma emit_cover ml p : (1 <= K)%nat -> in_cube (pow2 K) p -> ~ active p ->
    (top_level ml = 0%nat -> in_grid shape p) -> ((top_level ml < K)%nat \/ exists q, active q /\ in_cube (pow2 K) q) ->
    exists x, In x (emit_cells shape original ml) /\ in_box x p.
  Proof.
    intros HK Hp NA HT HA. set (t := top_level ml) in *. assert (TK : (t <= K)%nat).
    { unfold t, top_level. destruct ml as [m|]; [|lia]. destruct (Z.leb_spec 0 m), (Z.ltb_spec m (Z.of_nat K)); cbn [andb]; lia. }
    assert (N0 : ~ Act 0 (div3 0 p)). { intros (q & Hq & E). rewrite !div3_0 in E. subst q. contradiction. }
    assert (CD : forall l, (l <= K)%nat -> in_cube (pow2 (K - l)) (div3 l p)). { intros l Hl. apply cube_div. replace (l + (K - l))%nat with K by lia. auto. }
    destruct (Act_dec t (div3 t p)) as [A|A].
    - destruct (lt_find (fun l => Act l (div3 l p)) t) as (l & L1 & L2 & L3); auto. { intros j. apply Act_dec. }
      exists (lcell l (div3 l p)). split; [|apply box_div; auto]. apply emit_cells_In; auto. exists l, (div3 l p). fold t.
      rewrite (proj2 (Nat.eqb_neq l t)) by lia. split; [lia|]. split; [lia|]. split; auto. split; auto. split; [apply CD; lia|]. rewrite <- div3_S. auto.
    - destruct (Nat.eq_dec t K) as [E|N].
      + exfalso. rewrite E in *. apply A. destruct HA as [?|(q & HA & HQ)]; [lia|]. exists q. split; auto.
        assert (Z0 : forall r, in_cube (pow2 K) r -> div3 K r = (0, 0, 0)).
        { intros r Hr. replace K with (K + 0)%nat in Hr by lia. apply cube_div in Hr. unfold in_cube, in_grid in Hr. rewrite all3 in Hr. change (pow2 0) with 1 in Hr.
          destruct (div3 K r) as [[a b] c]. cbn [get3 cube3] in Hr. f_equal; [f_equal|]; lia. }
        rewrite !Z0 by auto. auto.
      + exists (lcell t (div3 t p)). split; [|apply box_div; auto]. apply emit_cells_In; auto. exists t, (div3 t p). fold t. rewrite Nat.eqb_refl.
        split; [lia|]. split; [lia|]. split; auto. split; auto. destruct (Nat.eqb_spec t 0) as [E0|]; [|apply CD; lia]. rewrite E0, div3_0. auto.
  Qed.
End Factory.

(** *** the std::map of cells *)
Lemma index3_inj s a b : in_grid s a -> in_grid s b -> index3 s a = index3 s b -> a = b.
Proof.
  rewrite <- !in3_grid. destruct s as [[n m] k], a as [[x y] z], b as [[u v] w]. cbn [in3 index3]. intros H1 H2 E.
  apply (ravel_inj _ _ _ H1 H2) in E. injection E as -> -> ->. auto.
Qed.
Lemma index3_nonneg s a : in_grid s a -> 0 <= index3 s a.
Proof.
  rewrite <- in3_grid. destruct s as [[n m] k], a as [[x y] z]. cbn [in3 index3]. intros H. apply ravel_range in H. lia.
Qed.
Lemma map_fold s (l : list acell) : forall m : acells, ssorted Z.compare (keys m) ->
  (forall a b, In a l -> In b l -> fst a = fst b -> a = b) -> (forall a, In a l -> in_grid s (fst a)) ->
  (forall i b, In (i, b) m -> (exists a, In a l /\ index3 s (fst a) = i) -> In b l /\ index3 s (fst b) = i) ->
  let r := fold_left (fun m c => map_set Z.compare (index3 s (fst c)) c m) l m in
  ssorted Z.compare (keys r) /\ forall i b, map_find Z.compare i r = Some b <-> (In b l /\ i = index3 s (fst b)) \/ (map_find Z.compare i m = Some b /\ forall a, In a l -> index3 s (fst a) <> i).
Proof.
  intros m. revert m.
  assert (G : forall (l : list acell) (m : acells), ssorted Z.compare (keys m) -> (forall a b, In a l -> In b l -> fst a = fst b -> a = b) -> (forall a, In a l -> in_grid s (fst a)) ->
     let r := fold_left (fun m c => map_set Z.compare (index3 s (fst c)) c m) l m in
     ssorted Z.compare (keys r) /\ forall i b, map_find Z.compare i r = Some b <-> (In b l /\ i = index3 s (fst b)) \/ (map_find Z.compare i m = Some b /\ forall a, In a l -> index3 s (fst a) <> i)).
  2:{ intros m H1 H2 H3 _. apply G; auto. }
  clear l. induction l as [|c l IH]; intros m HS HD HG; cbn [fold_left].
  - split; auto. intros i b. split; [intros H; right; split; auto|intros [[[] _]|[H _]]; auto].
  - destruct (IH (map_set Z.compare (index3 s (fst c)) c m)) as [I1 I2].
    { apply (map_set_sorted Zcompare_total); auto. } { intros; apply HD; simpl; auto. } { intros; apply HG; simpl; auto. }
    split; auto. intros i b. rewrite I2, (map_find_set Zcompare_total) by auto. split.
    + intros [[H ->]|[H N]]; [left; simpl; auto|]. destruct (i ?= index3 s (fst c)) eqn:C.
      * apply Z.compare_eq in C. injection H as <-. left. simpl; auto.
      * right. split; auto. intros a [<-|Ha]; auto. intros E. rewrite E, Z.compare_refl in C. discriminate.
      * right. split; auto. intros a [<-|Ha]; auto. intros E. rewrite E, Z.compare_refl in C. discriminate.
    + intros [[[<-|H] ->]|[H N]].
      * destruct (in_dec Z.eq_dec (index3 s (fst c)) (map (fun a => index3 s (fst a)) l)) as [J|J].
        -- left. apply in_map_iff in J as (a & E & Ha). assert (a = c); [|subst; auto]. apply HD; simpl; auto. apply (index3_inj s); simpl; auto; apply HG; simpl; auto.
        -- right. rewrite Z.compare_refl. split; auto. intros a Ha E. apply J. apply in_map_iff. exists a; auto.
      * left. auto.
      * right. split; [|intros a Ha; apply N; simpl; auto]. destruct (i ?= index3 s (fst c)) eqn:C; auto. apply Z.compare_eq in C. exfalso. apply (N c); simpl; auto.
Qed.
Lemma factory_In shape original ml : (forall a b, In a (emit_cells shape original ml) -> In b (emit_cells shape original ml) -> fst a = fst b -> a = b) ->
  (forall a, In a (emit_cells shape original ml) -> in_grid shape (fst a)) ->
  ssorted Z.compare (map fst (factory_cells shape original ml)) /\
  forall i b, In (i, b) (factory_cells shape original ml) <-> In b (emit_cells shape original ml) /\ i = index3 shape (fst b).
Proof.
  intros HD HG. destruct (map_fold shape (emit_cells shape original ml) [] (ss_nil _) HD HG) as [S F]; [intros i b []|].
  split; [exact S|]. intros i b. rewrite <- (map_find_Some Zcompare_total) by exact S. unfold factory_cells. rewrite F. split; [intros [H|[H _]]; [auto|discriminate]|auto].
Qed.
