From Verif Require Import Base Num Grid SmallestEdge AdaptiveGrid AdaptiveFactory AdaptiveSpec.
Local Open Scope Z_scope.

Lemma loop3_In c s p : In p (loop3 c s) <->
  (get3 c 0 <= get3 p 0 < get3 c 0 + get3 s 0) /\ (get3 c 1 <= get3 p 1 < get3 c 1 + get3 s 1) /\ (get3 c 2 <= get3 p 2 < get3 c 2 + get3 s 2).
Proof.
  destruct c as [[x y] z], s as [[u v] w], p as [[a b] e]. unfold loop3; cbn [get3]. rewrite in_flat_map. split.
  - intros (a' & Ha & H). apply in_flat_map in H as (b' & Hb & H). apply in_map_iff in H as (e' & [= -> -> ->] & He).
    apply zrange_In in Ha, Hb, He. lia.
  - intros H. exists a. split; [apply zrange_In; lia|]. apply in_flat_map. exists b. split; [apply zrange_In; lia|].
    apply in_map_iff. exists e. split; auto. apply zrange_In; lia.
Qed.
Lemma loop3_NoDup c s : NoDup (loop3 c s).
Proof.
  destruct c as [[x y] z], s as [[u v] w]. unfold loop3. apply NoDup_flat_map; [apply NoDup_zrange| |].
  - intros a _. apply NoDup_flat_map; [apply NoDup_zrange| |].
    + intros b _. apply FinFun.Injective_map_NoDup; [intros ? ? [=]; auto|apply NoDup_zrange].
    + intros b b' p _ _ H1 H2. apply in_map_iff in H1 as (? & <- & _). apply in_map_iff in H2 as (? & [=] & _). auto.
  - intros a a' p _ _ H1 H2. apply in_flat_map in H1 as (? & _ & H1). apply in_map_iff in H1 as (? & <- & _).
    apply in_flat_map in H2 as (? & _ & H2). apply in_map_iff in H2 as (? & [=] & _). auto.
Qed.
Lemma all3 (P : nat -> Prop) : (forall d, (d < 3)%nat -> P d) <-> P 0%nat /\ P 1%nat /\ P 2%nat.
Proof. split; [intros H; repeat split; apply H; lia|]. intros (H0 & H1 & H2) [|[|[|d]]] Hd; auto; lia. Qed.
Lemma box_In b p : In p (box_coords b) <-> in_box b p.
Proof. unfold box_coords, in_box. rewrite loop3_In, all3. destruct b as [[[x y] z] w]. cbn [fst snd get3]. tauto. Qed.
Lemma in3_grid s p : in3 s p = true <-> in_grid s p.
Proof.
  unfold in_grid. rewrite all3. destruct s as [[n m] k], p as [[x y] z]. cbn [in3 in_shape get3]. rewrite !andb_true_iff, !Z.leb_le, !Z.ltb_lt. tauto.
Qed.
Lemma c3_eqb_eq a b : c3_eqb a b = true <-> a = b.
Proof.
  destruct a as [[x y] z], b as [[u v] w]. unfold c3_eqb. rewrite !andb_true_iff, !Z.eqb_eq. split; [intros [[-> ->] ->]; auto|intros [= -> -> ->]; auto].
Qed.
Lemma c3_ext a b : get3 a 0 = get3 b 0 -> get3 a 1 = get3 b 1 -> get3 a 2 = get3 b 2 -> a = b.
Proof. destruct a as [[x y] z], b as [[u v] w]. cbn. congruence. Qed.

Definition c3_dec (a b : c3) : {a = b} + {a <> b}.
Proof. repeat decide equality. Defined.
(** *** grid_from_cells *)
Lemma own_fold cid l : 0 <= cid -> forall g p, fold_left (own_step cid) l g p = if (g p =? -1) && (if in_dec c3_dec p l then true else false) then cid else g p.
Proof.
  intros Hc. induction l as [|c l IH]; intros g p; cbn [fold_left].
  - destruct (in_dec _ p []) as [[]|]. rewrite andb_false_r; auto.
  - rewrite IH. unfold own_step, gset.
    destruct (in_dec _ p l) as [I|I], (in_dec _ p (c :: l)) as [J|J]; try (exfalso; apply J; right; exact I).
    + destruct (Z.eqb_spec (g c) (-1)); [|auto]. destruct (c3_eqb p c) eqn:E; auto.
      apply c3_eqb_eq in E; subst. rewrite (proj2 (Z.eqb_eq (g c) (-1))) by auto. rewrite (proj2 (Z.eqb_neq cid (-1))) by lia. auto.
    + rewrite andb_false_r. assert (c = p) as -> by (destruct J; tauto). destruct (Z.eqb_spec (g p) (-1)); cbn [andb].
      * rewrite (proj2 (c3_eqb_eq p p)); auto.
      * auto.
    + rewrite !andb_false_r. destruct (Z.eqb_spec (g c) (-1)); auto. destruct (c3_eqb p c) eqn:E; auto.
      apply c3_eqb_eq in E; subst. exfalso. apply J; left; auto.
Qed.
(** the first cell (in id order) containing the unit cell owns it *)
Lemma gfc_spec cells : (forall i b, In (i, b) cells -> 0 <= i) -> forall p,
  (exists pre i b post, cells = pre ++ (i, b) :: post /\ in_box b p /\ (forall j c, In (j, c) pre -> ~ in_box c p) /\ grid_from_cells cells p = i) \/
  ((forall j c, In (j, c) cells -> ~ in_box c p) /\ grid_from_cells cells p = -1).
Proof.
  intros HI p. unfold grid_from_cells.
  assert (G : forall cells, (forall i b, In (i, b) cells -> 0 <= i) -> forall g : gdata,
    let r := fold_left (fun g '(cid, b) => fold_left (own_step cid) (box_coords b) g) cells g p in
    (g p <> -1 /\ r = g p) \/ (g p = -1 /\
     ((exists pre i b post, cells = pre ++ (i, b) :: post /\ in_box b p /\ (forall j c, In (j, c) pre -> ~ in_box c p) /\ r = i) \/
      ((forall j c, In (j, c) cells -> ~ in_box c p) /\ r = -1)))).
  { clear. induction cells as [|[i b] cells IH]; intros HI g; cbn [fold_left].
    - destruct (Z.eq_dec (g p) (-1)) as [E|E]; [right|left; auto]. split; auto.
    - assert (Hi : 0 <= i) by (eapply HI; left; eauto).
      destruct (IH (fun j c H => HI j c (or_intror H)) (fold_left (own_step i) (box_coords b) g)) as [[N E]|[N E]]; rewrite own_fold in N by auto; try rewrite own_fold in E by auto;
        destruct (in_dec _ p (box_coords b)) as [I|I]; rewrite ?box_In in I; rewrite ?andb_false_r, ?andb_true_r in N; rewrite ?andb_false_r, ?andb_true_r in E.
      + destruct (Z.eqb_spec (g p) (-1)) as [G|G]; [|left; auto]. right. split; auto. left. exists [], i, b, cells. split; [auto|]. split; [auto|]. split; [intros j c []|auto].
      + left; auto.
      + destruct (Z.eqb_spec (g p) (-1)) as [G|G]; [lia|congruence].
      + right. split; auto. destruct E as [(pre & j & c & post & -> & H1 & H2 & H3)|[H1 H2]].
        * left. exists ((i, b) :: pre), j, c, post. split; [auto|]. split; [auto|]. split; [|auto]. intros j' c' [[= <- <-]|Hin]; auto. eapply H2; eauto.
        * right. split; [|auto]. intros j c [[= <- <-]|Hin]; auto. eapply H1; eauto. }
  destruct (G cells HI (fun _ => -1)) as [[N _]|[_ H]]; [congruence|exact H].
Qed.
Lemma gfc_owner shape cells p i : wf_cells shape cells -> disjoint_cells cells -> 0 <= i -> (grid_from_cells cells p = i <-> owns cells i p).
Proof.
  intros [W1 W2] D Hi. destruct (gfc_spec cells (fun i b H => proj1 (W2 i b H)) p) as [(pre & j & b & post & E & HB & _ & ->)|[H ->]].
  - split; [intros <-; exists b; split; auto; rewrite E; apply in_app_iff; simpl; auto|]. intros (c & Hc & HC).
    symmetry. eapply (D i c j b p); eauto. rewrite E; apply in_app_iff; simpl; auto.
  - split; [lia|]. intros (c & Hc & HC). exfalso. eapply H; eauto.
Qed.
Lemma gfc_nonneg cells p : (forall i b, In (i, b) cells -> 0 <= i) -> 0 <= grid_from_cells cells p <-> exists i, owns cells i p.
Proof.
  intros HI. destruct (gfc_spec cells HI p) as [(pre & j & b & post & E & HB & _ & ->)|[H ->]].
  - assert (In (j, b) cells) by (rewrite E; apply in_app_iff; simpl; auto). split; [|intros _; eapply HI; eauto]. intros _. exists j, b. auto.
  - split; [lia|]. intros (i & c & Hc & HC). exfalso. eapply H; eauto.
Qed.
