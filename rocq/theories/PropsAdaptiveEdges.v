(** C159: the edges of the factory (AdaptiveEdges.v). *)
From Verif Require Import Base Num Grid SmallestEdge SmallestEdgeProofs AdaptiveGrid AdaptiveFactory AdaptiveSpec AdaptiveProofs AdaptiveFactoryProofs PropsAdaptive3 AdaptiveEdges.
From Coq Require Import Sorted.
Set Implicit Arguments.
Local Open Scope Z_scope.

(** ** the words of the statements *)
(** the edge along axis d starting at the grid point e is one of the twelve edges of the unit cell x *)
Definition edge_of_cell (d : nat) (e x : c3) : Prop := get3 e d = get3 x d /\ forall a, (a < 3)%nat -> a <> d -> get3 e a = get3 x a \/ get3 e a = get3 x a + 1.
(** the same edge on the boundary of, or inside, the closed 2 x 2 x 2 block b *)
Definition edge_of_block (d : nat) (e b : c3) : Prop := exists x, div3 1 x = b /\ edge_of_cell d e x.
(** the loops' order *)
Definition before (a b : c3) : Prop := let '(x, y, z) := a in let '(u, v, w) := b in x < u \/ (x = u /\ (y < v \/ (y = v /\ z < w))).

(** ** lists *)
Lemma before_irr a : ~ before a a.
Proof. destruct a as [[x y] z]. cbn. lia. Qed.
Lemma before_asym a b : before a b -> ~ before b a.
Proof. destruct a as [[x y] z], b as [[u v] w]. cbn. lia. Qed.
Lemma sorted_flat (A B : Type) (R : B -> B -> Prop) (Q : A -> A -> Prop) (f : A -> list B) l : StronglySorted Q l -> (forall a, In a l -> StronglySorted R (f a)) ->
  (forall a a' x y, Q a a' -> In x (f a) -> In y (f a') -> R x y) -> StronglySorted R (flat_map f l).
Proof.
  intros S F X. induction S as [|a l S IH H]; cbn [flat_map]; [constructor|]. assert (G : forall m n, StronglySorted R m -> StronglySorted R n -> (forall x y, In x m -> In y n -> R x y) -> StronglySorted R (m ++ n)).
  { clear. induction m as [|x m IH]; intros n Sm Sn C; auto. inversion_clear Sm. cbn. constructor; [apply IH; auto; intros; apply C; auto; right; auto|]. apply Forall_app. split; auto. apply Forall_forall. intros y I. apply C; auto. left. auto. }
  apply G; [apply F; left; auto|apply IH; intros; apply F; right; auto|]. intros x y Ix Iy. apply in_flat_map in Iy as (a' & Ia & Iy). rewrite Forall_forall in H. eapply X; eauto.
Qed.
Lemma zrange_sorted a n : StronglySorted Z.lt (zrange a n).
Proof.
  unfold zrange. generalize 0%nat. induction n as [|n IH]; intros k; cbn; constructor; auto. apply Forall_forall. intros x I. apply in_map_iff in I as (j & <- & I). apply in_seq in I. lia.
Qed.
Lemma loop3_sorted c s : StronglySorted before (loop3 c s).
Proof.
  destruct c as [[x y] z], s as [[u v] w]. unfold loop3. eapply sorted_flat; [apply zrange_sorted| |].
  - intros a _. eapply sorted_flat; [apply zrange_sorted| |].
    + intros b _. assert (G := zrange_sorted z (Z.to_nat w)). induction G as [|k l G IH H]; cbn; constructor; auto. apply Forall_forall. intros p I. apply in_map_iff in I as (k' & <- & I). rewrite Forall_forall in H. specialize (H _ I). cbn. lia.
    + intros b b' p q L I J. apply in_map_iff in I as (k & <- & _), J as (k' & <- & _). cbn. lia.
  - intros a a' p q L I J. apply in_flat_map in I as (b & _ & I), J as (b' & _ & J). apply in_map_iff in I as (k & <- & _), J as (k' & <- & _). cbn. lia.
Qed.
Lemma last_such (P Q : c3 -> Prop) l : StronglySorted before l ->
  (exists pre b post, l = pre ++ b :: post /\ P b /\ forall b', In b' post -> Q b') <-> (exists b, In b l /\ P b /\ forall b', In b' l -> before b b' -> Q b').
Proof.
  intros S. split.
  - intros (pre & b & post & -> & HP & HQ). exists b. split; [apply in_or_app; right; left; auto|]. split; auto. intros b' I L. apply in_app_iff in I as [I|[<-|I]]; auto; exfalso.
    + assert (before b' b); [|eapply before_asym; eauto]. clear - S I. induction pre as [|x pre IH]; [destruct I|]. inversion_clear S. destruct I as [<-|I]; [|auto]. rewrite Forall_forall in H0. apply H0. apply in_or_app. right. left. auto.
    + eapply before_irr; eauto.
  - intros (b & I & HP & HQ). apply in_split in I as (pre & post & ->). exists pre, b, post. split; auto. split; auto. intros b' I. apply HQ; [apply in_or_app; right; right; auto|].
    clear - S I. induction pre as [|x pre IH]; [|inversion_clear S; auto]. inversion_clear S. rewrite Forall_forall in H0. auto.
Qed.
(** ** the masks *)
Lemma mv_app st a b d c : mask_value st (a ++ b) d c = mask_value (mask_value st a d c) b d c.
Proof. unfold mask_value. apply fold_left_app. Qed.
Lemma mv_const v ws d c : (forall x, In (d, c, x) ws -> x = v) -> forall st, mask_value st ws d c = v /\ (exists x, In (d, c, x) ws) \/ mask_value st ws d c = st /\ forall x, ~ In (d, c, x) ws.
Proof.
  unfold mask_value. induction ws as [|[[k x] b] ws IH]; intros H st; [right; split; auto; intros x []|]. cbn [fold_left]. destruct (Nat.eqb_spec k d) as [->|NE]; cbn [andb].
  - destruct (c3_eqb x c) eqn:E.
    + apply c3_eqb_eq in E. subst x. assert (b = v) by (apply H; left; auto). subst b. left. destruct (IH (fun x I => H x (or_intror I)) v) as [[E _]|[E _]]; rewrite E; split; auto; exists v; left; auto.
    + destruct (IH (fun y I => H y (or_intror I)) st) as [[Q [y I]]|[Q N]]; [left; split; auto; exists y; right; auto|right; split; auto]. intros y [J|J]; [|exact (N y J)]. apply pair_equal_spec in J as [J _]. apply pair_equal_spec in J as [_ ->]. rewrite (proj2 (c3_eqb_eq c c) eq_refl) in E. discriminate.
  - destruct (IH (fun y I => H y (or_intror I)) st) as [[Q [y I]]|[Q N]]; [left; split; auto; exists y; right; auto|right; split; auto]. intros y [J|J]; [|exact (N y J)]. apply pair_equal_spec in J as [J _]. apply pair_equal_spec in J as [-> _]. auto.
Qed.
Lemma nat3 (d : nat) : (d < 3)%nat -> d = 0%nat \/ d = 1%nat \/ d = 2%nat.
Proof. lia. Qed.
Lemma edge_cell_iff d e x : (d < 3)%nat -> edge_of_cell d e x <-> exists i j, (i = 0 \/ i = 1) /\ (j = 0 \/ j = 1) /\ e = add3 (add3 x (axis_x d) i) (axis_y d) j.
Proof.
  intros D. unfold edge_of_cell. destruct e as [[e0 e1] e2], x as [[x0 x1] x2]. split.
  - intros [E H]. assert (H0 := H 0%nat). assert (H1 := H 1%nat). assert (H2 := H 2%nat). cbn [get3] in *. apply nat3 in D as [-> |[-> | ->]]; cbn [get3] in *.
    + exists (e1 - x1), (e2 - x2). change (axis_x 0) with 1%nat. change (axis_y 0) with 2%nat. cbn [add3]. specialize (H1 ltac:(lia) ltac:(lia)). specialize (H2 ltac:(lia) ltac:(lia)). split; [lia|]. split; [lia|]. repeat f_equal; lia.
    + exists (e2 - x2), (e0 - x0). change (axis_x 1) with 2%nat. change (axis_y 1) with 0%nat. cbn [add3]. specialize (H0 ltac:(lia) ltac:(lia)). specialize (H2 ltac:(lia) ltac:(lia)). split; [lia|]. split; [lia|]. repeat f_equal; lia.
    + exists (e0 - x0), (e1 - x1). change (axis_x 2) with 0%nat. change (axis_y 2) with 1%nat. cbn [add3]. specialize (H0 ltac:(lia) ltac:(lia)). specialize (H1 ltac:(lia) ltac:(lia)). split; [lia|]. split; [lia|]. repeat f_equal; lia.
  - intros (i & j & Hi & Hj & E). apply nat3 in D as [-> |[-> | ->]]; [change (axis_x 0) with 1%nat in E; change (axis_y 0) with 2%nat in E|change (axis_x 1) with 2%nat in E; change (axis_y 1) with 0%nat in E|change (axis_x 2) with 0%nat in E; change (axis_y 2) with 1%nat in E];
      cbn [add3] in E; apply c3_inj in E as (-> & -> & ->); cbn [get3]; split; auto; intros [|[|[|a]]] A N; cbn [get3]; lia.
Qed.
Lemma clear_In shape corner acc d c v : (d < 3)%nat -> In (d, c, v) (clear_writes shape corner acc) <-> v = false /\ exists x, In x (loop3 (0, 0, 0) shape) /\ acc x = true /\ edge_of_cell d c (plus3 x corner).
Proof.
  intros D. unfold clear_writes. rewrite in_flat_map. split.
  - intros (x & Ix & H). destruct (acc x) eqn:A; [|destruct H]. apply in_flat_map in H as (d' & _ & H). apply in_map_iff in H as (ij & E & I). apply pair_equal_spec in E as [E <-]. apply pair_equal_spec in E as [-> <-]. split; auto. exists x. split; auto. split; auto.
    apply edge_cell_iff; auto. exists (fst ij), (snd ij). cbn [In] in I. destruct I as [<-|[<-|[<-|[<-|[]]]]]; cbn; auto.
  - intros (-> & x & Ix & A & H). exists x. split; auto. rewrite A. apply edge_cell_iff in H as (i & j & Hi & Hj & ->); auto. apply in_flat_map. exists d. split; [cbn; lia|]. apply in_map_iff. exists (i, j). split; auto. cbn [In]. destruct Hi as [-> | ->], Hj as [-> | ->]; auto.
Qed.
Lemma edge_block_iff d e b : (d < 3)%nat -> edge_of_block d e b <-> In e (loop3 (scale3 2 b) (eshape d (2, 2, 2))).
Proof.
  intros D. rewrite loop3_In. unfold edge_of_block. destruct e as [[e0 e1] e2], b as [[b0 b1] b2]. split.
  - intros (x & E & H). apply edge_cell_iff in H as (i & j & Hi & Hj & H); auto. destruct x as [[x0 x1] x2]. cbn [div3] in E. change (pow2 1) with 2 in E. apply c3_inj in E as (E0 & E1 & E2).
    assert (R : forall x b, x / 2 = b -> 2 * b <= x < 2 * b + 2) by (intros y b Q; assert (Y := Z.mul_div_le y 2 ltac:(lia)); assert (Y' := Z.mul_succ_div_gt y 2 ltac:(lia)); lia). apply R in E0, E1, E2.
    apply nat3 in D as [-> |[-> | ->]]; unfold eshape; [change (axis_x 0) with 1%nat in *; change (axis_y 0) with 2%nat in *|change (axis_x 1) with 2%nat in *; change (axis_y 1) with 0%nat in *|change (axis_x 2) with 0%nat in *; change (axis_y 2) with 1%nat in *];
      cbn [add3] in *; apply c3_inj in H as (-> & -> & ->); cbn [get3 scale3]; lia.
  - intros H. assert (R : forall x b, 2 * b <= x < 2 * b + 2 -> x / 2 = b) by (intros y b Q; symmetry; apply (Z.div_unique y 2 b (y - 2 * b)); lia).
    assert (T : forall y b, 2 * b <= y < 2 * b + 3 -> exists i, (i = 0 \/ i = 1) /\ 2 * b <= y - i < 2 * b + 2) by (intros y b Q; destruct (Z.eq_dec y (2 * b + 2)); [exists 1|exists 0]; lia).
    apply nat3 in D as [-> |[-> | ->]]; unfold eshape in H; [change (axis_x 0) with 1%nat in *; change (axis_y 0) with 2%nat in *|change (axis_x 1) with 2%nat in *; change (axis_y 1) with 0%nat in *|change (axis_x 2) with 0%nat in *; change (axis_y 2) with 1%nat in *];
      cbn [add3 get3 scale3] in H; destruct H as (H0 & H1 & H2).
    + destruct (T e1 b1 ltac:(lia)) as (i & Hi & Ti), (T e2 b2 ltac:(lia)) as (j & Hj & Tj). exists (e0, e1 - i, e2 - j). split; [cbn [div3]; change (pow2 1) with 2; rewrite !(R _ _) with (b := b0) || idtac; f_equal; [f_equal|]; apply R; lia|]. apply edge_cell_iff; [lia|]. exists i, j. split; auto. split; auto. cbn. repeat f_equal; lia.
    + destruct (T e2 b2 ltac:(lia)) as (i & Hi & Ti), (T e0 b0 ltac:(lia)) as (j & Hj & Tj). exists (e0 - j, e1, e2 - i). split; [cbn [div3]; change (pow2 1) with 2; f_equal; [f_equal|]; apply R; lia|]. apply edge_cell_iff; [lia|]. exists i, j. split; auto. split; auto. cbn. repeat f_equal; lia.
    + destruct (T e0 b0 ltac:(lia)) as (i & Hi & Ti), (T e1 b1 ltac:(lia)) as (j & Hj & Tj). exists (e0 - i, e1 - j, e2). split; [cbn [div3]; change (pow2 1) with 2; f_equal; [f_equal|]; apply R; lia|]. apply edge_cell_iff; [lia|]. exists i, j. split; auto. split; auto. cbn. repeat f_equal; lia.
Qed.
Lemma fill_In b d c v : (d < 3)%nat -> In (d, c, v) (fill_writes b) <-> v = true /\ edge_of_block d c b.
Proof.
  intros D. unfold fill_writes. rewrite edge_block_iff by auto. rewrite in_flat_map. split.
  - intros (k & _ & H). apply in_map_iff in H as (x & E & I). apply pair_equal_spec in E as [E <-]. apply pair_equal_spec in E as [-> ->]. auto.
  - intros [-> I]. exists d. split; [cbn; lia|]. apply in_map_iff. exists c. auto.
Qed.
Lemma grid_mask_spec s m d e : (d < 3)%nat -> grid_mask s m d e = true <-> forall x, in_grid s x -> edge_of_cell d e x -> m x = false.
Proof.
  intros D. unfold grid_mask. assert (P0 : forall x : c3, plus3 x (0, 0, 0) = x) by (intros [[x y] z]; cbn; repeat f_equal; lia). assert (LG : forall x, In x (loop3 (0, 0, 0) s) <-> in_grid s x) by (intros x; rewrite loop3_In; unfold in_grid; rewrite all3; cbn [get3]; destruct x as [[x y] z], s as [[u v] w]; cbn [get3]; lia).
  destruct (@mv_const false (clear_writes s (0, 0, 0) m) d e) with (st := true) as [[E [v H]]|[E H]].
  - intros v H. apply clear_In in H; tauto.
  - rewrite E. split; [discriminate|]. intros N. apply clear_In in H as (-> & x & I & A & C); auto. rewrite P0 in C. apply LG in I. rewrite (N x I C) in A. discriminate.
  - rewrite E. split; auto. intros _ x I C. destruct (m x) eqn:A; auto. exfalso. apply (H false). apply clear_In; auto. split; auto. exists x. rewrite P0. split; [apply LG; auto|auto].
Qed.
Lemma block_mask_spec s bits d e : (d < 3)%nat -> block_mask s bits d e = true <->
  exists b, (In b (loop3 (0, 0, 0) s) /\ any (bits b) = true /\ edge_of_block d e b /\ forall o, In o offsets -> edge_of_cell d e (plus3 (scale3 2 b) o) -> bits b o = false) /\
    forall b', In b' (loop3 (0, 0, 0) s) -> before b b' -> any (bits b') = true -> ~ edge_of_block d e b'.
Proof.
  intros D. set (one := fun b => if any (bits b) then fill_writes b ++ clear_writes (2, 2, 2) (scale3 2 b) (bits b) else []).
  assert (PC : forall a b : c3, plus3 a b = plus3 b a) by (intros [[x y] z] [[u v] w]; cbn; f_equal; [f_equal|]; ring).
  assert (ED : forall b, edge_of_block d e b \/ ~ edge_of_block d e b). { intros b. rewrite edge_block_iff by auto. destruct (in_dec (fun x y : c3 => ltac:(decide equality; try apply Z.eq_dec; decide equality; apply Z.eq_dec)) e (loop3 (scale3 2 b) (eshape d (2, 2, 2)))); auto. }
  set (C := fun b => exists o, In o offsets /\ bits b o = true /\ edge_of_cell d e (plus3 (scale3 2 b) o)).
  assert (O : forall st b, (any (bits b) = true /\ edge_of_block d e b -> (mask_value st (one b) d e = true <-> ~ C b)) /\ (~ (any (bits b) = true /\ edge_of_block d e b) -> mask_value st (one b) d e = st)).
  { intros st b. unfold one. destruct (any (bits b)) eqn:A; [|split; [intros [X _]; discriminate|auto]].
    rewrite mv_app. destruct (@mv_const true (fill_writes b) d e) with (st := st) as [[E [v H]]|[E H]]; [intros v H; apply fill_In in H; tauto| |]; rewrite E.
    - apply fill_In in H as [-> H]; auto. split; [intros _|intros N; exfalso; apply N; auto]. destruct (@mv_const false (clear_writes (2, 2, 2) (scale3 2 b) (bits b)) d e) with (st := true) as [[E' [v H']]|[E' H']]; [intros v H'; apply clear_In in H'; tauto| |]; rewrite E'.
      + split; [discriminate|]. intros N. exfalso. apply N. apply clear_In in H' as (_ & x & I & Bx & HC); auto. exists x. rewrite PC. auto.
      + split; auto. intros _ (o & Ho & Bo & HC). apply (H' false). apply clear_In; auto. split; auto. exists o. rewrite PC. auto.
    - assert (N : ~ edge_of_block d e b) by (intros X; apply (H true); apply fill_In; auto). split; [intros [_ X]; contradiction|]. intros _. destruct (@mv_const false (clear_writes (2, 2, 2) (scale3 2 b) (bits b)) d e) with (st := st) as [[E' [v H']]|[E' H']]; [intros v H'; apply clear_In in H'; tauto| |]; auto.
      exfalso. apply N. apply clear_In in H' as (_ & x & I & _ & HC); auto. rewrite PC in HC. exists (plus3 (scale3 2 b) x). split; auto. symmetry. apply (proj1 (split2 b x (plus3 (scale3 2 b) x) I) eq_refl). }
  assert (G : forall l, mask_value false (flat_map one l) d e = true <-> exists pre b post, l = pre ++ b :: post /\ (any (bits b) = true /\ edge_of_block d e b /\ ~ C b) /\ forall b', In b' post -> ~ (any (bits b') = true /\ edge_of_block d e b')).
  { induction l as [|b l IH] using rev_ind; [split; [discriminate|]; intros (pre & b & post & E & _); destruct pre; discriminate|]. rewrite flat_map_app, mv_app. cbn [flat_map]. rewrite app_nil_r. destruct (O (mask_value false (flat_map one l) d e) b) as [O1 O2].
    assert (DD : (any (bits b) = true /\ edge_of_block d e b) \/ ~ (any (bits b) = true /\ edge_of_block d e b)). { destruct (any (bits b)); [|right; intros [X _]; discriminate]. destruct (ED b); [left; auto|right; tauto]. }
    destruct DD as [Y|N].
    - rewrite (O1 Y). split.
      + intros NC. exists l, b, []. split; auto. split; [tauto|intros b' []].
      + intros (pre & b1 & post & E & HP & HQ). destruct post as [|p post] using rev_ind; [apply app_inj_tail in E as [_ ->]; tauto|]. clear IHpost. rewrite app_comm_cons, app_assoc in E. apply app_inj_tail in E as [_ ->]. exfalso. apply (HQ p); auto. apply in_or_app. right. left. auto.
    - rewrite (O2 N), IH. split.
      + intros (pre & b1 & post & -> & HP & HQ). exists pre, b1, (post ++ [b]). split; [rewrite <- app_assoc; auto|]. split; auto. intros b' I. apply in_app_iff in I as [I|[<-|[]]]; auto.
      + intros (pre & b1 & post & E & HP & HQ). destruct post as [|p post] using rev_ind; [apply app_inj_tail in E as [_ ->]; tauto|]. clear IHpost. rewrite app_comm_cons, app_assoc in E. apply app_inj_tail in E as [-> ->]. exists pre, b1, post. split; auto. split; auto. intros b' I. apply HQ. apply in_or_app. auto. }
  unfold block_mask, block_writes. fold one. rewrite G, (last_such _ _ (loop3_sorted _ _)). split.
  - intros (b & I & (A & HB & NC) & L). exists b. split; [split; auto; split; auto; split; auto|intros b' I' Lb' A' B'; apply (L b' I' Lb'); auto]. intros o Ho HC. destruct (bits b o) eqn:Bo; auto. exfalso. apply NC. exists o. auto.
  - intros (b & (I & A & HB & NC) & L). exists b. split; auto. split; [split; auto; split; auto; intros (o & Ho & Bo & HC); rewrite (NC o Ho HC) in Bo; discriminate|]. intros b' I' Lb' [A' B']. exact (L b' I' Lb' A' B').
Qed.

(** ** the edges *)
Section Edges.
  Variables (shape : c3) (original : c3 -> bool).
  Hypothesis POS : forall d, (d < 3)%nat -> 1 <= get3 shape d.
  Hypothesis HK : (1 <= lg shape)%nat.
  Let K := lg shape.
  Let act := Act shape original.
  Let top := top_level shape.
  Lemma shape_le d : (d < 3)%nat -> get3 shape d <= pow2 K.
  Proof. intros D. assert (A := proj1 (proj2 (padded_lg shape POS))).  exact (A d D). Qed.
  Lemma act_range l c : (l <= K)%nat -> act l c -> in_cube (pow2 (K - l)) c.
  Proof.
    intros L (p & [G _] & <-). apply (@cube_div shape original). replace (l + (K - l))%nat with K by lia. unfold in_cube, in_grid. intros d D. specialize (G d D). assert (S := shape_le D). destruct d as [|[|[|d]]]; cbn [get3 cube3] in *; lia.
  Qed.
  (** the cells of level l that the top level looks at *)
  Definition level_grid (l : nat) : c3 := match l with O => shape | S _ => cube3 (pow2 (K - l)) end.
  Lemma lmask_shape_eq l : (l <= K)%nat -> lmask_shape shape l = level_grid l.
  Proof. intros L. destruct l as [|l]; [reflexivity|]. cbn [lmask_shape level_grid]. rewrite side_pow by (fold K; lia). reflexivity. Qed.
  Definition the_level (ml : option Z) (l : nat) : elevel :=
    if Nat.eqb l (top ml) then mkEl l (lmask_shape shape l) (grid_mask (lmask_shape shape l) (lmask shape original l))
    else mkEl l (scale3 2 (cube3 (level_side shape l))) (block_mask (cube3 (level_side shape l)) (level_bits shape original l)).
  Lemma levels_In ml L : In L (all_levels shape original ml) <-> exists l, (l <= top ml)%nat /\ (l < K)%nat /\ L = the_level ml l.
  Proof.
    unfold all_levels. assert (EC : level_count shape = K) by (unfold level_count; fold K; lia). rewrite EC.
    assert (TL : forall l, (l < K)%nat -> (ml = Some (Z.of_nat l) <-> l = top ml)).
    { intros l Hl. unfold top, top_level. fold K. destruct ml as [m|]; [|split; [discriminate|lia]]. destruct (Z.leb_spec 0 m), (Z.ltb_spec m (Z.of_nat K)); cbn [andb];
        (split; [intros E; injection E; lia|intros E; f_equal; lia]). }
    assert (G : forall n s, (s + n = K)%nat -> In L (edge_levels shape original ml (seq s n)) <-> exists l, (s <= l < K)%nat /\ (forall j, (s <= j < l)%nat -> j <> top ml) /\ L = the_level ml l).
    { induction n as [|n IH]; intros s E; cbn [seq edge_levels]; [split; [intros []|intros (l & H & _); lia]|].
      destruct (match ml with Some m => m =? Z.of_nat s | None => false end) eqn:Q.
      - assert (ES : s = top ml). { apply TL; [lia|]. destruct ml; [|discriminate]. apply Z.eqb_eq in Q. congruence. }
        assert (TE : the_level ml s = mkEl s (lmask_shape shape s) (grid_mask (lmask_shape shape s) (lmask shape original s))) by (unfold the_level; rewrite <- ES, Nat.eqb_refl; auto). split.
        + intros [<-|[]]. exists s. split; [lia|]. split; [intros; lia|auto].
        + intros (l & Hl & Hj & ->). destruct (Nat.eq_dec l s) as [->|N]; [left; auto|exfalso; apply (Hj s); [lia|auto]].
      - assert (ES : s <> top ml). { intros X. apply TL in X; [|lia]. rewrite X, Z.eqb_refl in Q. discriminate. }
        assert (TE : the_level ml s = mkEl s (scale3 2 (cube3 (level_side shape s))) (block_mask (cube3 (level_side shape s)) (level_bits shape original s))) by (unfold the_level; rewrite (proj2 (Nat.eqb_neq _ _)); auto). cbn [In]. rewrite IH by lia. split.
        + intros [<-|(l & Hl & Hj & ->)]; [exists s; split; [lia|split; [intros; lia|auto]]|]. exists l. split; [lia|]. split; auto. intros j Hj'. destruct (Nat.eq_dec j s) as [->|]; auto. apply Hj. lia.
        + intros (l & Hl & Hj & ->). destruct (Nat.eq_dec l s) as [->|N]; [left; auto|right]. exists l. split; [lia|]. split; auto. intros j Hj'. apply Hj. lia. }
    rewrite (G K 0%nat) by lia. split.
    - intros (l & Hl & Hj & ->). exists l. split; [|split; [lia|auto]]. destruct (le_lt_dec l (top ml)); auto. exfalso. apply (Hj (top ml)); lia.
    - intros (l & H1 & H2 & ->). exists l. split; [lia|]. split; [intros j Hj; lia|auto].
  Qed.
  (** level l has the edge starting at e (in units of 2^l) along d *)
  Definition has_edge (ml : option Z) (l d : nat) (e : c3) : Prop :=
    if Nat.eqb l (top ml) then in_grid (eshape d (level_grid l)) e /\ forall x, in_grid (level_grid l) x -> edge_of_cell d e x -> ~ act l x
    else exists b, act (S l) b /\ edge_of_block d e b /\ (forall x, div3 1 x = b -> edge_of_cell d e x -> ~ act l x) /\ forall b', act (S l) b' -> before b b' -> ~ edge_of_block d e b'.
  Lemma level_edges_In ml l d u : (l <= top ml)%nat -> (l < K)%nat -> (d < 3)%nat -> In u (level_edges shape (the_level ml l) d) <-> exists e, has_edge ml l d e /\ u = get_edge shape (scale3 (pow2 l) e) (pow2 l) d.
  Proof.
    intros T L D. unfold level_edges, has_edge, the_level. assert (LG : forall s x, In x (loop3 (0, 0, 0) s) <-> in_grid s x) by (intros s x; rewrite loop3_In; unfold in_grid; rewrite all3; cbn [get3]; destruct x as [[x y] z], s as [[u' v] w]; cbn [get3]; lia).
    destruct (Nat.eqb_spec l (top ml)) as [E|NE]; cbn [el_n el_shape el_mask].
    - rewrite lmask_shape_eq by lia. rewrite in_flat_map. assert (LM : forall x, in_grid (level_grid l) x -> (lmask shape original l x = false <-> ~ act l x)).
      { intros x G. destruct l as [|l]; cbn [lmask level_grid] in *.
        - unfold act, Act. split; [intros F (p & [_ A] & P); rewrite div3_0 in P; congruence|]. intros N. destruct (original x) eqn:F; auto. exfalso. apply N. exists x. split; [split; auto|apply div3_0].
        - unfold act. rewrite <- any_Act. destruct (any _); split; congruence. }
      split.
      + intros (e & I & H). destruct (grid_mask _ _ _ _) eqn:M; [|destruct H]. destruct H as [<-|[]]. exists e. split; auto. split; [apply LG; auto|]. intros x G C. apply LM; auto. apply (proj1 (grid_mask_spec (level_grid l) (lmask shape original l) e D) M); auto.
      + intros (e & [I H] & ->). exists e. split; [apply LG; auto|]. rewrite (proj2 (grid_mask_spec (level_grid l) (lmask shape original l) e D)); [left; auto|]. intros x G C. apply LM; auto.
    - rewrite in_flat_map. assert (BM := @block_mask_spec (cube3 (level_side shape l)) (level_bits shape original l) d). rewrite side_pow in * by (fold K; lia). fold K in BM |- *.
      assert (AB : forall b, In b (loop3 (0, 0, 0) (cube3 (pow2 (K - S l)))) /\ any (level_bits shape original l b) = true <-> act (S l) b).
      { intros b. rewrite any_Act. fold act. split; [tauto|]. intros A. split; auto. apply LG. apply (@act_range (S l) b); [lia|auto]. }
      assert (MS : forall e, block_mask (cube3 (pow2 (K - S l))) (level_bits shape original l) d e = true <-> exists b, act (S l) b /\ edge_of_block d e b /\ (forall x, div3 1 x = b -> edge_of_cell d e x -> ~ act l x) /\ forall b', act (S l) b' -> before b b' -> ~ edge_of_block d e b').
      { intros e. rewrite BM by auto. split.
        - intros (b & (I & A & HB & N) & LST). exists b. split; [apply AB; auto|]. split; auto. split.
          + intros x E C HA. set (o := plus3 x (scale3 (-2) (div3 1 x))). assert (Ho : In o offsets) by (apply offsets_In; exists x; auto). assert (P : plus3 (scale3 2 b) o = x) by (apply split2; [exact Ho|rewrite E; split; auto]; unfold o; rewrite E; auto).
            rewrite <- P in C, HA. apply bits_Act in HA. rewrite (N o Ho C) in HA. discriminate.
          + intros b' A' Lb. apply AB in A' as [I' A']. exact (LST b' I' Lb A').
        - intros (b & A & HB & N & LST). exists b. split; [apply AB in A as [I A]; split; auto; split; auto; split; auto|].
          + intros o Ho C. destruct (level_bits shape original l b o) eqn:Q; auto. apply bits_Act in Q. exfalso. apply (N (plus3 (scale3 2 b) o)); auto. symmetry. apply (proj1 (split2 b o _ Ho) eq_refl).
          + intros b' I' Lb A' . apply LST; auto. apply AB. auto. }
      split.
      + intros (e & I & H). destruct (block_mask _ _ _ _) eqn:M; [|destruct H]. destruct H as [<-|[]]. exists e. split; auto. apply MS. auto.
      + intros (e & H & ->). exists e. assert (M := proj2 (MS e) H). rewrite M. split; [|left; auto]. destruct H as (b & A & HB & _). apply act_range in A; [|lia]. apply edge_block_iff in HB; auto. apply loop3_In in HB. apply LG. unfold in_cube, in_grid in A. rewrite all3 in A.
        destruct b as [[b0 b1] b2], e as [[e0 e1] e2]. unfold in_grid. rewrite all3. set (q := pow2 (K - S l)) in *. clearbody q. clear - A HB D. apply nat3 in D as [-> |[-> | ->]]; unfold eshape in *; [change (axis_x 0) with 1%nat in *; change (axis_y 0) with 2%nat in *|change (axis_x 1) with 2%nat in *; change (axis_y 1) with 0%nat in *|change (axis_x 2) with 0%nat in *; change (axis_y 2) with 1%nat in *]; cbn [add3 get3 scale3 cube3] in *; lia.
  Qed.
  (** the edges of the factory, exactly: level l contributes the edges of its 2 x 2 x 2 blocks that hold an active cell, except that only the last such block around an edge decides, and it leaves the edge out if one of its own
      cells along it is active or subdivided; the level [ml], if there is one, contributes the edges of its grid none of whose cells is active or subdivided *)
  Theorem c159_edges : forall ml u, In u (compute_edges shape original ml) <->
    exists l d e, (l <= top ml)%nat /\ (l < K)%nat /\ (d < 3)%nat /\ has_edge ml l d e /\ u = get_edge shape (scale3 (pow2 l) e) (pow2 l) d.
  Proof.
    intros ml u. assert (TC : TotalCmp edge_cmp) by apply edge_total. unfold compute_edges. rewrite (set_of_list_In TC), in_flat_map. split.
    - intros (d & Id & H). unfold axial_edges in H. rewrite (set_of_list_In TC) in H. apply in_flat_map in H as (L & IL & H). apply levels_In in IL as (l & T & LK & ->). assert (D : (d < 3)%nat) by (cbn in Id; lia). apply level_edges_In in H as (e & H & ->); auto. exists l, d, e. auto.
    - intros (l & d & e & T & LK & D & H & ->). exists d. split; [cbn; lia|]. unfold axial_edges. rewrite (set_of_list_In TC). apply in_flat_map. exists (the_level ml l). split; [apply levels_In; exists l; auto|]. apply level_edges_In; auto. exists e. auto.
  Qed.
End Edges.
(** the segment of length w along d from the grid point p is an edge of the cell x *)
Definition cell_edge (d : nat) (p : c3) (w : Z) (x : acell) : Prop := snd x = w /\ get3 p d = get3 (fst x) d /\ forall a, (a < 3)%nat -> a <> d -> get3 p a = get3 (fst x) a \/ get3 p a = get3 (fst x) a + w.
(** the pair of vertex numbers of that segment in a grid of (q + 1) x (q + 1) x (q + 1) vertices *)
Definition numbers (q : Z) (p : c3) (w : Z) (d : nat) : edge := (index3 (q + 1, q + 1, q + 1) p, index3 (q + 1, q + 1, q + 1) (add3 p d w)).
Lemma get_scale k c d : get3 (scale3 k c) d = k * get3 c d.
Proof. destruct c as [[x y] z], d as [|[|d]]; reflexivity. Qed.
Lemma cell_edge_scaled l d e c : (d < 3)%nat -> cell_edge d (scale3 (pow2 l) e) (pow2 l) (lcell l c) <-> edge_of_cell d e c.
Proof.
  intros D. assert (P := pow2_pos l). unfold cell_edge, edge_of_cell, lcell. cbn [fst snd]. rewrite !get_scale. split.
  - intros (_ & E & H). split; [apply Z.mul_reg_l with (pow2 l); lia|]. intros a A N. specialize (H a A N). rewrite !get_scale in H. destruct H as [H|H]; [left; apply Z.mul_reg_l with (pow2 l); lia|right; apply Z.mul_reg_l with (pow2 l); lia].
  - intros [E H]. split; auto. split; [rewrite E; auto|]. intros a A N. rewrite !get_scale. destruct (H a A N) as [-> | ->]; [left|right]; ring.
Qed.
Lemma cell_edge_at l d p c : (d < 3)%nat -> cell_edge d p (pow2 l) (lcell l c) -> exists e, p = scale3 (pow2 l) e /\ edge_of_cell d e c.
Proof.
  intros D H. assert (X : exists e, p = scale3 (pow2 l) e).
  { destruct H as (_ & E & H). unfold lcell in *. cbn [fst snd] in *. rewrite get_scale in E. assert (G : forall a, (a < 3)%nat -> exists v, get3 p a = pow2 l * v).
    { intros a A. destruct (Nat.eq_dec a d) as [->|N]; [eauto|]. destruct (H a A N) as [Q|Q]; rewrite get_scale in Q; [eauto|exists (get3 c a + 1); rewrite Q; ring]. }
    destruct (G 0%nat ltac:(lia)) as [x X], (G 1%nat ltac:(lia)) as [y Y], (G 2%nat ltac:(lia)) as [z ZZ]. exists (x, y, z). destruct p as [[p0 p1] p2]. cbn in *. congruence. }
  destruct X as [e ->]. exists e. split; auto. apply (cell_edge_scaled l) in H; auto.
Qed.
Lemma last_ex (P : c3 -> Prop) l : (forall b, P b \/ ~ P b) -> StronglySorted before l -> (exists b, In b l /\ P b) -> exists b, In b l /\ P b /\ forall b', In b' l -> before b b' -> ~ P b'.
Proof.
  intros DP S. induction S as [|a l S IH H]; intros (b & I & HP); [destruct I|].
  assert (D : (exists b, In b l /\ P b) \/ ~ exists b, In b l /\ P b). { clear - DP. induction l as [|x l IH]; [right; intros (b & [] & _)|]. destruct (DP x) as [Y|N]; [left; exists x; split; [left|]; auto|]. destruct IH as [(b & I & HP)|NE]; [left; exists b; split; [right|]; auto|right]. intros (b & [<-|I] & HP); [auto|]. apply NE. eauto. }
  destruct D as [D|D].
  - destruct (IH D) as (c & Ic & Pc & L). exists c. split; [right; auto|]. split; auto. intros b' [<-|I'] LT; [|auto]. exfalso. rewrite Forall_forall in H. eapply before_asym; [exact LT|auto].
  - destruct I as [<-|I]; [|exfalso; apply D; eauto]. exists a. split; [left; auto|]. split; auto. intros b' [<-|I'] LT Pb'; [eapply before_irr; eauto|]. apply D. eauto.
Qed.
Lemma edge_block_dec d e b : (d < 3)%nat -> edge_of_block d e b \/ ~ edge_of_block d e b.
Proof.
  intros D. rewrite edge_block_iff by auto. destruct (in_dec (fun x y : c3 => ltac:(decide equality; try apply Z.eq_dec; decide equality; apply Z.eq_dec)) e (loop3 (scale3 2 b) (eshape d (2, 2, 2)))); auto.
Qed.
(** a cell of the grid along an edge of the edge grid *)
Lemma edge_grid_cell d s e : (d < 3)%nat -> (forall a, (a < 3)%nat -> 1 <= get3 s a) -> in_grid (eshape d s) e <-> exists x, in_grid s x /\ edge_of_cell d e x.
Proof.
  intros D PS. split.
  - intros G. set (cl := fun a => if Nat.eqb a d then get3 e a else Z.min (get3 e a) (get3 s a - 1)). exists (cl 0%nat, cl 1%nat, cl 2%nat).
    assert (GC : forall a, (a < 3)%nat -> get3 (cl 0%nat, cl 1%nat, cl 2%nat) a = cl a) by (intros [|[|[|a]]] A; cbn; auto; lia).
    assert (GE : forall a, (a < 3)%nat -> 0 <= get3 e a < get3 s a + (if Nat.eqb a d then 0 else 1)).
    { intros a A. specialize (G a A). unfold eshape in G. destruct s as [[s0 s1] s2]. apply nat3 in D as [-> |[-> | ->]]; [change (axis_x 0) with 1%nat in *; change (axis_y 0) with 2%nat in *|change (axis_x 1) with 2%nat in *; change (axis_y 1) with 0%nat in *|change (axis_x 2) with 0%nat in *; change (axis_y 2) with 1%nat in *];
        cbn [add3] in G; apply nat3 in A as [-> |[-> | ->]]; cbn [get3 Nat.eqb] in *; lia. }
    split.
    + intros a A. rewrite GC by auto. specialize (GE a A). specialize (PS a A). unfold cl. destruct (Nat.eqb a d); lia.
    + split; [rewrite GC by auto; unfold cl; rewrite Nat.eqb_refl; auto|]. intros a A N. rewrite GC by auto. specialize (GE a A). unfold cl. rewrite (proj2 (Nat.eqb_neq _ _) N) in *. lia.
  - intros (x & G & [E C]) a A. assert (GS := G a A). assert (V : get3 e a = get3 x a \/ (a <> d /\ get3 e a = get3 x a + 1)) by (destruct (Nat.eq_dec a d) as [->|N]; [auto|destruct (C a A N); auto]). clear E C G. unfold eshape. destruct s as [[s0 s1] s2].
    apply nat3 in D as [-> |[-> | ->]]; [change (axis_x 0) with 1%nat; change (axis_y 0) with 2%nat|change (axis_x 1) with 2%nat; change (axis_y 1) with 0%nat|change (axis_x 2) with 0%nat; change (axis_y 2) with 1%nat];
      cbn [add3]; apply nat3 in A as [-> |[-> | ->]]; cbn [get3] in *; lia.
Qed.
Lemma numbers_eq s q p w d : (forall a, (a < 3)%nat -> 1 <= get3 s a) -> padded_side s q -> get_edge s p w d = numbers q p w d.
Proof. intros PS Q. rewrite (padded_unique s q _ Q (padded_lg s PS)). reflexivity. Qed.
(** every edge of the factory is an edge of one of its cells, so no edge runs along active cells only, and its numbers are those of the corners in the vertex grid of the padded cube *)
Theorem c159_cell_edges : forall s original ml q u, (forall d, (d < 3)%nat -> 1 <= get3 s d) -> (exists d, (d < 3)%nat /\ 2 <= get3 s d) -> padded_side s q ->
  In u (compute_edges s original ml) -> exists x p d, In x (emit_cells s original ml) /\ (d < 3)%nat /\ cell_edge d p (snd x) x /\ u = numbers q p (snd x) d.
Proof.
  intros s original ml q u PS BIG Q H. assert (HK := lg_pos s PS BIG). apply c159_edges in H as (l & d & e & T & LK & D & H & ->); auto. rewrite (numbers_eq _ _ _ PS Q).
  assert (X : exists c, edge_of_cell d e c /\ In (lcell l c) (emit_cells s original ml)).
  { unfold has_edge in H. destruct (Nat.eqb_spec l (top_level s ml)) as [E|NE].
    - destruct H as [G N]. assert (PL : forall a, (a < 3)%nat -> 1 <= get3 (level_grid s l) a). { destruct l as [|l]; [auto|]. intros a A. assert (P := pow2_pos (lg s - S l)). apply nat3 in A as [-> |[-> | ->]]; cbn [level_grid cube3 get3]; lia. }
      apply edge_grid_cell in G as (c & G & C); auto. exists c. split; auto. apply emit_cells_In; auto. exists l, c. split; auto. split; auto. split; auto. split; [apply N; auto|]. rewrite <- E, Nat.eqb_refl. destruct l; exact G.
    - destruct H as (b & A & B & N & _). destruct B as (c & DC & C). exists c. split; auto. apply emit_cells_In; auto. exists l, c. split; auto. split; auto. split; auto. split; [apply N; auto|]. rewrite (proj2 (Nat.eqb_neq _ _) NE). rewrite DC. split; auto.
      apply act_range in A; [|exact PS|exact HK|lia]. replace (lg s - l)%nat with (S (lg s - S l)) by lia. apply (cube_half s original). rewrite DC. auto. }
  destruct X as (c & C & I). exists (lcell l c), (scale3 (pow2 l) e), d. split; auto. split; auto. split; [apply cell_edge_scaled; auto|reflexivity].
Qed.
(** an edge of one of the factory's cells is among its edges, unless it runs along a cell of the same size that holds an active cell *)
Theorem c159_complete : forall s original ml q x p d, (forall d, (d < 3)%nat -> 1 <= get3 s d) -> (exists d, (d < 3)%nat /\ 2 <= get3 s d) -> padded_side s q ->
  In x (emit_cells s original ml) -> (d < 3)%nat -> cell_edge d p (snd x) x ->
  (forall y a, cell_edge d p (snd x) y -> (forall i, (i < 3)%nat -> (snd y | get3 (fst y) i)) -> in_box y a -> in_grid s a -> original a = false) ->
  In (numbers q p (snd x) d) (compute_edges s original ml).
Proof.
  intros s original ml q x p d PS BIG Q Ix D CE FREE. assert (HK := lg_pos s PS BIG). rewrite <- (numbers_eq _ _ _ PS Q). apply c159_edges; auto. apply emit_cells_In in Ix as (l & c & T & LK & -> & NA & H); auto. cbn [lcell snd] in CE, FREE |- *.
  destruct (@cell_edge_at l d p c D CE) as (e & -> & C). exists l, d, e. split; auto. split; auto. split; auto. split; auto.
  assert (FR : forall c', edge_of_cell d e c' -> ~ Act s original l c').
  { intros c' C' (a & [Ga Aa] & P). assert (F : original a = false); [|congruence]. apply (FREE (lcell l c')); auto; [apply cell_edge_scaled; auto| |apply box_div; auto]. intros i Hi. cbn [lcell fst snd]. rewrite get_scale. apply Z.divide_factor_l. }
  unfold has_edge. destruct (Nat.eqb_spec l (top_level s ml)) as [E|NE].
  - assert (PL : forall a, (a < 3)%nat -> 1 <= get3 (level_grid s l) a). { destruct l as [|l]; [auto|]. intros a A. assert (P := pow2_pos (lg s - S l)). apply nat3 in A as [-> |[-> | ->]]; cbn [level_grid cube3 get3]; lia. }
    split; [apply edge_grid_cell; auto; exists c; split; auto; destruct l; exact H|]. intros y _ Cy. apply FR; auto.
  - destruct H as [G A]. set (R := loop3 (0, 0, 0) (cube3 (pow2 (lg s - S l)))). assert (RI : forall b, Act s original (S l) b -> In b R) by (intros b Ab; apply (@cube_loop s); apply (@act_range s original PS HK); [lia|exact Ab]).
    destruct (@last_ex (fun b => Act s original (S l) b /\ edge_of_block d e b) R) as (b & Ib & [Ab Bb] & L).
    + intros b. destruct (Act_dec s original (S l) b), (edge_block_dec e b D); tauto.
    + apply loop3_sorted.
    + exists (div3 1 c). split; [auto|]. split; auto. exists c. auto.
    + exists b. split; auto. split; auto. split; [auto|]. intros b' A' LT B'. apply (L b'); auto.
Qed.

(** ** what does not hold *)
Definition among (l : list c3) (p : c3) : bool := existsb (c3_eqb p) l.
(** REFUTED: mirrored activity gives mirrored edges.  With the cells (1,1,0) and (3,3,0) active the unit edge up from (2,2,0), an edge of the active cell (1,1,0), is there; with their mirror images (2,2,0) and (0,0,0)
    active, the same edge is its own mirror image and is missing: of the blocks around an edge the last one decides *)
Theorem c159_mirror_refuted : exists A B, (forall p, In p B <-> exists x y z, In (x, y, z) A /\ p = (3 - x, 3 - y, z)) /\
  In (numbers 4 (2, 2, 0) 1 2) (compute_edges (4, 4, 4) (among A) None) /\ ~ In (numbers 4 (2, 2, 0) 1 2) (compute_edges (4, 4, 4) (among B) None).
Proof.
  exists [(1, 1, 0); (3, 3, 0)], [(2, 2, 0); (0, 0, 0)]. split; [|split].
  - intros p. cbn [In]. split; [intros [<-|[<-|[]]]; [exists 1, 1, 0|exists 3, 3, 0]; auto|]. intros (x & y & z & [E|[E|[]]] & ->); apply c3_inj in E as (<- & <- & <-); auto.
  - set (L := compute_edges _ _ _). assert (H : existsb (fun x => (fst x =? fst (numbers 4 (2, 2, 0) 1 2)) && (snd x =? snd (numbers 4 (2, 2, 0) 1 2))) L = true) by (vm_compute; reflexivity).
    apply existsb_exists in H as (x & I & E). apply andb_true_iff in E as [E1 E2]. apply Z.eqb_eq in E1, E2. destruct x as [a b]. cbn [fst snd] in *. replace (numbers 4 (2, 2, 0) 1 2) with (a, b); auto. rewrite E1, E2. destruct (numbers _ _ _ _). reflexivity.
  - intros H. set (L := compute_edges _ _ _) in H. assert (F : existsb (fun x => (fst x =? fst (numbers 4 (2, 2, 0) 1 2)) && (snd x =? snd (numbers 4 (2, 2, 0) 1 2))) L = false) by (vm_compute; reflexivity).
    assert (T := proj2 (existsb_exists (fun x => (fst x =? fst (numbers 4 (2, 2, 0) 1 2)) && (snd x =? snd (numbers 4 (2, 2, 0) 1 2))) L)). rewrite F in T. assert (X : false = true); [|discriminate]. apply T. exists (numbers 4 (2, 2, 0) 1 2). split; [exact H|]. rewrite !Z.eqb_refl. auto.
Qed.
(** REFUTED: the edges do not overlap.  With (2,2,0) and (7,7,0) active the edge of length 2 up from (4,4,0) is there together with its lower half *)
Theorem c159_overlap_refuted : exists A, In (numbers 8 (4, 4, 0) 2 2) (compute_edges (8, 8, 8) (among A) None) /\ In (numbers 8 (4, 4, 0) 1 2) (compute_edges (8, 8, 8) (among A) None).
Proof.
  assert (G : forall L u, existsb (fun x : edge => (fst x =? fst u) && (snd x =? snd u)) L = true -> In u L).
  { intros L u H. apply existsb_exists in H as (x & I & E). apply andb_true_iff in E as [E1 E2]. apply Z.eqb_eq in E1, E2. destruct x as [a b], u as [v w]. cbn [fst snd] in *. subst. auto. }
  exists [(2, 2, 0); (7, 7, 0)]. split; apply G; vm_compute; reflexivity.
Qed.
(** REFUTED: the numbers are those of the grid's own vertices.  They are where the sides of the grid are equal powers of two; a grid of 1 x 1 x 2 cells has 12 vertices, and its edges mention vertices 12 and more *)
Theorem c159_numbers : forall s original ml k u, 0 < k -> s = (2 ^ k, 2 ^ k, 2 ^ k) -> In u (compute_edges s original ml) ->
  exists p w d, u = (index3 (plus3 s (1, 1, 1)) p, index3 (plus3 s (1, 1, 1)) (add3 p d w)) /\ in_grid (plus3 s (1, 1, 1)) p /\ in_grid (plus3 s (1, 1, 1)) (add3 p d w).
Proof.
  intros s original ml k u HK -> H. assert (P1 : 2 <= 2 ^ k) by (change 2 with (2 ^ 1) at 1; apply Z.pow_le_mono_r; lia). set (q := 2 ^ k) in *. set (s := (q, q, q)) in *.
  assert (PS : forall d, (d < 3)%nat -> 1 <= get3 s d) by (rewrite all3; cbn; lia). assert (BIG : exists d, (d < 3)%nat /\ 2 <= get3 s d) by (exists 0%nat; split; [lia|cbn; lia]).
  assert (Q : padded_side s q). { split; [exists k; split; [lia|auto]|]. split; [rewrite all3; cbn; lia|]. intros j Hj B. exact (B 0%nat ltac:(lia)). }
  destruct (@c159_cell_edges s original ml q u PS BIG Q H) as (x & p & d & Ix & D & CE & ->). exists p, (snd x), d. change (plus3 s (1, 1, 1)) with (q + 1, q + 1, q + 1). split; [reflexivity|].
  assert (IB : forall a, in_box x a -> in_grid (q, q, q) a). { intros a B. assert (HL := lg_pos s PS BIG). assert (X := @emit_padded s original ml x a HL). rewrite (padded_unique s q _ Q (padded_lg s PS)). apply X; auto. apply (padded_lg s PS). }
  assert (PW : 0 < snd x). { assert (HL := lg_pos s PS BIG). apply emit_cells_In in Ix as (l & c & _ & _ & -> & _); auto. apply pow2_pos. }
  assert (LO := IB (fst x)). assert (HI := IB (plus3 (fst x) (snd x - 1, snd x - 1, snd x - 1))). assert (L' : forall a, (a < 3)%nat -> 0 <= get3 (fst x) a /\ get3 (fst x) a + snd x <= q).
  { intros a A. specialize (LO ltac:(intros i Hi; lia) a A). specialize (HI ltac:(intros i Hi; destruct (fst x) as [[x0 x1] x2]; apply nat3 in Hi as [-> |[-> | ->]]; cbn; lia) a A). destruct (fst x) as [[x0 x1] x2]. apply nat3 in A as [-> |[-> | ->]]; cbn in *; lia. }
  destruct CE as (_ & E & C). assert (PA : forall a, (a < 3)%nat -> 0 <= get3 p a <= q /\ (a = d -> get3 p a + snd x <= q)). { intros a A. specialize (L' a A). destruct (Nat.eq_dec a d) as [->|N]; [lia|]. specialize (C a A N). lia. }
  split; intros a A; specialize (PA a A); destruct p as [[p0 p1] p2]; apply nat3 in A as [-> |[-> | ->]]; apply nat3 in D as [-> |[-> | ->]]; cbn in *; lia.
Qed.
Theorem c159_numbers_refuted : exists a b, In (a, b) (compute_edges (1, 1, 2) (fun p => c3_eqb p (0, 0, 0)) None) /\ forall p, in_grid (2, 2, 3) p -> index3 (2, 2, 3) p < b.
Proof.
  assert (G : forall L u, existsb (fun x : edge => (fst x =? fst u) && (snd x =? snd u)) L = true -> In u L).
  { intros L u H. apply existsb_exists in H as (x & I & E). apply andb_true_iff in E as [E1 E2]. apply Z.eqb_eq in E1, E2. destruct x as [a b], u as [v w]. cbn [fst snd] in *. subst. auto. }
  exists 25, 26. split; [apply G; vm_compute; reflexivity|]. intros [[x y] z] H. assert (X := H 0%nat ltac:(lia)). assert (Y := H 1%nat ltac:(lia)). assert (W := H 2%nat ltac:(lia)). cbn in *. lia.
Qed.

(** ** the boundary edges that get_edges reports besides *)
(** an edge inside or on the border is entered under both axes across it or not at all; on the border of the first axis across it it is entered, on the border of the second axis alone it is not *)
Theorem c159_border : forall s L og d c l, border_entries s L og d c = Some l ->
  let e := get_edge s (scale3 (pow2 (el_n L)) c) (pow2 (el_n L)) d in let both := [(axis_x d, get3 c (axis_x d), e); (axis_y d, get3 c (axis_y d), e)] in
  (l = [] \/ l = both) /\ (at_border d (axis_x d) (el_shape L) c = true -> l = both) /\ (at_border d (axis_x d) (el_shape L) c = false -> at_border d (axis_y d) (el_shape L) c = true -> l = []).
Proof.
  intros s L og d c l H. cbn zeta. unfold border_entries in H. destruct (at_border d (axis_x d) (el_shape L) c), (at_border d (axis_y d) (el_shape L) c); cbn [orb app] in H; try (injection H as H; subst l; split; auto; split; auto; discriminate).
  destruct (near_hole _ _ _) as [[|]|]; [| |discriminate]; injection H as H; subst l; split; auto; split; auto; discriminate.
Qed.
(** REFUTED: the edges on the border of the grid are among the boundary edges.  On a 4 x 4 x 4 grid with the cell (1,1,1) active the unit edge along x from (0,1,0), in the face z = 0, is an edge and is not entered; the one from (0,0,1), in the face y = 0, is *)
Theorem c159_border_refuted : exists s original E, level_border s original (the_level s original None 0) = Some E /\
  In (get_edge s (0, 1, 0) 1 0) (compute_edges s original None) /\ (forall a i, ~ In (a, i, get_edge s (0, 1, 0) 1 0) E) /\
  In (get_edge s (0, 0, 1) 1 0) (compute_edges s original None) /\ In (1%nat, 0, get_edge s (0, 0, 1) 1 0) E.
Proof.
  assert (G : forall L u, existsb (fun x : edge => (fst x =? fst u) && (snd x =? snd u)) L = true -> In u L).
  { intros L u H. apply existsb_exists in H as (x & I & E). apply andb_true_iff in E as [E1 E2]. apply Z.eqb_eq in E1, E2. destruct x as [a b], u as [v w]. cbn [fst snd] in *. subst. auto. }
  exists (4, 4, 4), (among [(1, 1, 1)]). destruct (level_border (4, 4, 4) (among [(1, 1, 1)]) (the_level (4, 4, 4) (among [(1, 1, 1)]) None 0)) as [E|] eqn:Q; [|exfalso; vm_compute in Q; discriminate]. exists E. split; auto.
  assert (T : match level_border (4, 4, 4) (among [(1, 1, 1)]) (the_level (4, 4, 4) (among [(1, 1, 1)]) None 0) with
    | Some E => negb (existsb (fun x => (fst (snd x) =? fst (get_edge (4, 4, 4) (0, 1, 0) 1 0)) && (snd (snd x) =? snd (get_edge (4, 4, 4) (0, 1, 0) 1 0))) E)
        && existsb (fun x => Nat.eqb (fst (fst x)) 1 && (snd (fst x) =? 0) && (fst (snd x) =? fst (get_edge (4, 4, 4) (0, 0, 1) 1 0)) && (snd (snd x) =? snd (get_edge (4, 4, 4) (0, 0, 1) 1 0))) E
    | None => false end = true) by (vm_compute; reflexivity). rewrite Q in T. apply andb_true_iff in T as [T1 T2].
  split; [apply G; vm_compute; reflexivity|]. split; [|split; [apply G; vm_compute; reflexivity|]].
  - intros a i I. apply Bool.negb_true_iff in T1. assert (F : existsb (fun x => (fst (snd x) =? fst (get_edge (4, 4, 4) (0, 1, 0) 1 0)) && (snd (snd x) =? snd (get_edge (4, 4, 4) (0, 1, 0) 1 0))) E = true) by (apply existsb_exists; eexists; split; [exact I|]; cbn [fst snd]; rewrite !Z.eqb_refl; auto). congruence.
  - apply existsb_exists in T2 as ([[a i] [v w]] & I & H). cbn [fst snd] in H. apply andb_true_iff in H as [H E3]. apply andb_true_iff in H as [H E2]. apply andb_true_iff in H as [H E1]. apply Nat.eqb_eq in H. apply Z.eqb_eq in E1, E2, E3. rewrite H, E1, E2, E3 in I. destruct (get_edge (4, 4, 4) (0, 0, 1) 1 0). exact I.
Qed.
(** REFUTED: the masks are read inside their range.  On a grid of 4 x 2 x 2 cells with (0,0,0) active, level 0 asks the mask of the grid about edges beyond its end *)
Theorem c159_read_refuted : exists s original, level_border s original (the_level s original None 0) = None.
Proof. exists (4, 2, 2), (fun p => c3_eqb p (0, 0, 0)). vm_compute. reflexivity. Qed.

(** ** the hypotheses are met *)
Example c159_edges_ex : (forall d, (d < 3)%nat -> 1 <= get3 (4, 4, 4) d) /\ (1 <= lg (4, 4, 4)%Z)%nat /\ length (compute_edges (4, 4, 4)%Z (among [(1, 1, 0); (3, 3, 0)]) None) = 114%nat.
Proof. split; [rewrite all3; cbn; lia|]. split; [vm_compute; lia|]. vm_compute. reflexivity. Qed.
Example c159_complete_ex : let s := (4, 4, 4) in let original := among [(1, 1, 1)] in In ((0, 0, 0), 1) (emit_cells s original None) /\ cell_edge 0 (0, 0, 1) 1 ((0, 0, 0), 1) /\ padded_side s 4 /\
  (forall y a, cell_edge 0 (0, 0, 1) 1 y -> (forall i, (i < 3)%nat -> (snd y | get3 (fst y) i)) -> in_box y a -> in_grid s a -> original a = false).
Proof.
  cbn zeta. split; [vm_compute; auto|]. split; [split; [reflexivity|]; split; [reflexivity|]; intros [|[|[|a]]] A N; cbn; lia|]. split; [change 4 with (pow2 (lg (4, 4, 4))) at 4; apply padded_lg; rewrite all3; cbn; lia|].
  intros [[[y0 y1] y2] w] [[a0 a1] a2] (E & E0 & C) _ B _. cbn [fst snd get3] in *. subst w. assert (B0 := B 0%nat ltac:(lia)). cbn in B0. unfold among. cbn [existsb]. destruct (c3_eqb (a0, a1, a2) (1, 1, 1)) eqn:Q; auto. apply c3_eqb_eq in Q. apply c3_inj in Q as (-> & -> & ->). exfalso. lia.
Qed.
