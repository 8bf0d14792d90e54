From Verif Require Import Base Num CoordMask Vertex VertexSpec VertexProofs VertexTypes Grid Crossings CrossingsSpec.
Local Open Scope Z_scope.

Lemma vkey_total : TotalCmp vkey_cmp.
Proof. exact key_total. Qed.

Definition grid_key (k : vkey) : Prop := Forall (fun q => q = 0%Qc) (snd k).

Lemma flags_exact_grid v : flags_exact v -> (is_grid_vertex v = true <-> grid_key (vkey_of v)).
Proof.
  unfold flags_exact, is_grid_vertex, grid_key, vkey_of; simpl.
  induction 1 as [|b q bs qs H HF IH]; simpl; [split; auto|].
  rewrite andb_true_iff, IH, H. split; [intros []; constructor; auto|intros HH; inversion HH; auto].
Qed.

Record inv (s : list Z) (m : list (vkey * Z)) (count : Z) (P : vkey -> Prop) : Prop := {
  inv_sorted : ssorted vkey_cmp (keys m);
  inv_count : shape_size s <= count;
  inv_dom : forall k, P k <-> exists i, map_find vkey_cmp k m = Some i;
  inv_grid : forall k i, map_find vkey_cmp k m = Some i -> grid_key k -> in_shape s (fst k) = true /\ i = ravel s (fst k);
  inv_new : forall k i, map_find vkey_cmp k m = Some i -> ~ grid_key k -> shape_size s <= i < count;
  inv_inj : forall k k' i, map_find vkey_cmp k m = Some i -> map_find vkey_cmp k' m = Some i ->
     length (snd k) = length (snd k') -> k = k';
  inv_surj : forall i, shape_size s <= i < count -> exists k, map_find vkey_cmp k m = Some i /\ ~ grid_key k }.

Lemma grid_key_dec k : {grid_key k} + {~ grid_key k}.
Proof. apply Forall_dec. intros q. apply Qc_eq_dec. Qed.

Lemma grid_key_eq (k k' : vkey) : grid_key k -> grid_key k' -> length (snd k) = length (snd k') -> fst k = fst k' -> k = k'.
Proof.
  destruct k as [c q], k' as [c' q']; unfold grid_key; simpl. intros H H' HL ->. f_equal.
  revert q' H' HL; induction H as [|x q Hx H IH]; intros [|y q'] H' HL; simpl in HL; try discriminate; auto.
  inversion H'; subst. f_equal; auto.
Qed.

Lemma fuse_loop_spec D s vs : forall m count P r c,
  inv s m count P ->
  (forall k, P k -> length (snd k) = D) ->
  Forall (good_crossing D s) vs ->
  fuse_loop s m count vs = (r, c) ->
  exists m', inv s m' c (fun k => P k \/ exists v, In v vs /\ k = vkey_of v) /\
    (forall k i, map_find vkey_cmp k m = Some i -> map_find vkey_cmp k m' = Some i) /\
    length r = length vs /\
    forall j v i, nth_error vs j = Some v -> nth_error r j = Some i -> map_find vkey_cmp (vkey_of v) m' = Some i.
Proof.
  induction vs as [|v vs IH]; intros m count P r c HI HP HG HF; simpl in HF.
  - injection HF as <- <-. exists m. split; [|split; [auto|split; [auto|intros [|j]; discriminate]]].
    destruct HI. constructor; auto. intros k. rewrite <- inv_dom0. firstorder.
  - inversion HG as [|? ? Hv HG']; subst. destruct Hv as (Hwf & Hn & Hfl & Hin).
    assert (HGK := flags_exact_grid v Hfl).
    assert (HLv : length (snd (vkey_of v)) = D) by (destruct Hwf as (? & ? & ?); auto).
    (* generic continuation *)
    assert (STEP : forall m1 count1 i, inv s m1 count1 (fun k => P k \/ k = vkey_of v) ->
       (forall k j, map_find vkey_cmp k m = Some j -> map_find vkey_cmp k m1 = Some j) ->
       map_find vkey_cmp (vkey_of v) m1 = Some i ->
       forall r1 c1, fuse_loop s m1 count1 vs = (r1, c1) ->
       exists m', inv s m' c1 (fun k => P k \/ exists v0, In v0 (v :: vs) /\ k = vkey_of v0) /\
         (forall k j, map_find vkey_cmp k m = Some j -> map_find vkey_cmp k m' = Some j) /\
         length (i :: r1) = length (v :: vs) /\
         forall j w x, nth_error (v :: vs) j = Some w -> nth_error (i :: r1) j = Some x -> map_find vkey_cmp (vkey_of w) m' = Some x).
    { intros m1 count1 i HI1 Hext Hfi r1 c1 HF1.
      destruct (IH m1 count1 _ r1 c1 HI1) as (m' & HI' & Hext' & HL & Hres); auto.
      { intros k [Hk| ->]; auto. }
      exists m'. split; [|split; [|split]].
      - destruct HI'. constructor; auto. intros k. rewrite <- inv_dom0. split.
        + intros [Hk|(w & [<-|Hw] & ->)]; eauto.
        + intros [[Hk| ->]|(w & Hw & ->)]; [auto| |]; right; eexists; split; eauto; simpl; auto.
      - intros; auto.
      - simpl; congruence.
      - intros [|j] w x; simpl.
        + intros [= <-] [= <-]; auto.
        + intros; eapply Hres; eauto. }
    destruct (is_grid_vertex v) eqn:EG.
    + assert (GK : grid_key (vkey_of v)) by (apply HGK; auto).
      assert (Hs : in_shape s (v_coord v) = true) by auto.
      assert (HR := ravel_range _ _ Hs).
      destruct (fuse_loop s (map_set vkey_cmp (vkey_of v) (ravel s (v_coord v)) m) count vs) as [r1 c1] eqn:EF.
      injection HF as <- <-.
      set (i := ravel s (v_coord v)) in *.
      assert (FS : forall k, map_find vkey_cmp k (map_set vkey_cmp (vkey_of v) i m) =
         match vkey_cmp k (vkey_of v) with Eq => Some i | _ => map_find vkey_cmp k m end).
      { intros k; apply (map_find_set vkey_total); apply HI. }
      assert (EXT : forall k j, map_find vkey_cmp k m = Some j -> map_find vkey_cmp k (map_set vkey_cmp (vkey_of v) i m) = Some j).
      { intros k j Hk. rewrite FS. destruct (vkey_cmp k (vkey_of v)) eqn:E; auto.
        apply (tc_eq vkey_total) in E; subst k. destruct (inv_grid _ _ _ _ HI _ _ Hk GK) as [_ ->]. reflexivity. }
      apply (STEP (map_set vkey_cmp (vkey_of v) i m) count i); auto.
      * destruct HI. constructor; auto.
        -- apply (map_set_sorted vkey_total); auto.
        -- intros k. rewrite FS. split.
           ++ intros [Hk| ->]; [|rewrite (tc_refl vkey_total); eauto].
              apply inv_dom0 in Hk as [j Hj]. rewrite <- FS. exists j; auto.
           ++ destruct (vkey_cmp k (vkey_of v)) eqn:E; intros [j Hj]; [right; apply (tc_eq vkey_total); auto| |]; left; apply inv_dom0; eauto.
        -- intros k j Hj Gk. rewrite FS in Hj. destruct (vkey_cmp k (vkey_of v)) eqn:E; eauto.
           apply (tc_eq vkey_total) in E; subst k. apply Some_inj in Hj. auto.
        -- intros k j Hj Gk. rewrite FS in Hj. destruct (vkey_cmp k (vkey_of v)) eqn:E; eauto.
           apply (tc_eq vkey_total) in E; subst k. contradiction.
        -- assert (AUX : forall k' j, map_find vkey_cmp k' m = Some j -> j = i -> length (snd k') = D -> k' = vkey_of v).
           { intros k' j Hj -> HL'. destruct (grid_key_dec k') as [Gk'|Gk'].
             - destruct (inv_grid0 _ _ Hj Gk') as [S1 S2]. apply grid_key_eq; auto; [congruence|].
               apply (ravel_inj s); auto.
             - assert (B := inv_new0 _ _ Hj Gk'). lia. }
           intros k k' j Hj Hj' HL. rewrite FS in Hj, Hj'.
           destruct (vkey_cmp k (vkey_of v)) eqn:E; destruct (vkey_cmp k' (vkey_of v)) eqn:E';
             try (apply (tc_eq vkey_total) in E; subst k); try (apply (tc_eq vkey_total) in E'; subst k'); auto;
             try (apply Some_inj in Hj; subst j; symmetry; eapply AUX; eauto; congruence);
             try (apply Some_inj in Hj'; subst j; eapply AUX; eauto; congruence); eauto.
        -- intros j Hj. destruct (inv_surj0 j Hj) as (k & Hk & Gk). exists k; split; auto.
      * rewrite FS, (tc_refl vkey_total); auto.
    + assert (GK : ~ grid_key (vkey_of v)) by (rewrite <- HGK; congruence).
      destruct (map_find vkey_cmp (vkey_of v) m) as [i|] eqn:EM.
      * destruct (fuse_loop s m count vs) as [r1 c1] eqn:EF. injection HF as <- <-.
        apply (STEP m count i); auto.
        destruct HI. constructor; auto. intros k. rewrite <- inv_dom0. split; auto.
        intros [?| ->]; auto. apply inv_dom0; eauto.
      * destruct (fuse_loop s (map_set vkey_cmp (vkey_of v) count m) (count + 1) vs) as [r1 c1] eqn:EF.
        injection HF as <- <-.
        assert (FS : forall k, map_find vkey_cmp k (map_set vkey_cmp (vkey_of v) count m) =
           match vkey_cmp k (vkey_of v) with Eq => Some count | _ => map_find vkey_cmp k m end).
        { intros k; apply (map_find_set vkey_total); apply HI. }
        assert (EXT : forall k j, map_find vkey_cmp k m = Some j -> map_find vkey_cmp k (map_set vkey_cmp (vkey_of v) count m) = Some j).
        { intros k j Hk. rewrite FS. destruct (vkey_cmp k (vkey_of v)) eqn:E; auto.
          apply (tc_eq vkey_total) in E; subst k. congruence. }
        apply (STEP (map_set vkey_cmp (vkey_of v) count m) (count + 1) count); auto.
        -- assert (HLT : forall k j, map_find vkey_cmp k m = Some j -> j < count).
           { intros k j Hj. destruct (grid_key_dec k) as [Gk|Gk].
             - destruct (inv_grid _ _ _ _ HI _ _ Hj Gk) as [S1 ->]. assert (B := ravel_range _ _ S1).
               assert (B' := inv_count _ _ _ _ HI). lia.
             - assert (B := inv_new _ _ _ _ HI _ _ Hj Gk). lia. }
           destruct HI. constructor; auto.
           ++ apply (map_set_sorted vkey_total); auto.
           ++ lia.
           ++ intros k. rewrite FS. split.
              ** intros [Hk| ->]; [|rewrite (tc_refl vkey_total); eauto].
                 apply inv_dom0 in Hk as [j Hj]. rewrite <- FS. exists j; auto.
              ** destruct (vkey_cmp k (vkey_of v)) eqn:E; intros [j Hj]; [right; apply (tc_eq vkey_total); auto| |]; left; apply inv_dom0; eauto.
           ++ intros k j Hj Gk. rewrite FS in Hj. destruct (vkey_cmp k (vkey_of v)) eqn:E; eauto.
              apply (tc_eq vkey_total) in E; subst k. contradiction.
           ++ intros k j Hj Gk. rewrite FS in Hj. destruct (vkey_cmp k (vkey_of v)) eqn:E.
              ** apply Some_inj in Hj. lia.
              ** assert (B := inv_new0 _ _ Hj Gk). lia.
              ** assert (B := inv_new0 _ _ Hj Gk). lia.
           ++ intros k k' j Hj Hj' HL. rewrite FS in Hj, Hj'.
              destruct (vkey_cmp k (vkey_of v)) eqn:E; destruct (vkey_cmp k' (vkey_of v)) eqn:E';
               try (apply (tc_eq vkey_total) in E; subst k); try (apply (tc_eq vkey_total) in E'; subst k'); auto;
               try (apply Some_inj in Hj; subst j; apply HLT in Hj'; lia);
               try (apply Some_inj in Hj'; subst j; apply HLT in Hj; lia); eauto.
           ++ intros j Hj. destruct (Z.eq_dec j count) as [->|Hne].
              ** exists (vkey_of v). split; auto. rewrite FS, (tc_refl vkey_total); auto.
              ** destruct (inv_surj0 j ltac:(lia)) as (k & Hk & Gk). exists k; split; auto.
        -- rewrite FS, (tc_refl vkey_total); auto.
Qed.

Lemma inv_init s : inv s [] (shape_size s) (fun _ => False).
Proof.
  constructor; simpl; try discriminate; try lia; try constructor.
  - intros [].
  - intros [? ?]; discriminate.
Qed.

Lemma vkey_pos D a b : v_wf D a -> v_wf D b -> normalised a -> normalised b ->
  (vkey_of a = vkey_of b <-> pos a = pos b).
Proof.
  intros HA HB NA NB. unfold vkey_of. split.
  - intros [= H1 H2]. unfold pos. congruence.
  - intros H. destruct (pos_inj D a b) as [-> ->]; auto.
Qed.

Lemma compute_crossings_spec D s vs r c : Forall (good_crossing D s) vs -> compute_crossings s vs = (r, c) ->
  length r = length vs /\
  (forall j k v w i i', nth_error vs j = Some v -> nth_error vs k = Some w ->
     nth_error r j = Some i -> nth_error r k = Some i' -> (i = i' <-> pos v = pos w)) /\
  (forall j v i, nth_error vs j = Some v -> nth_error r j = Some i ->
     (is_grid_vertex v = true -> i = ravel s (v_coord v) /\ 0 <= i < shape_size s) /\
     (is_grid_vertex v = false -> shape_size s <= i < c)) /\
  (forall i, shape_size s <= i < c -> exists j v, nth_error vs j = Some v /\ nth_error r j = Some i /\ is_grid_vertex v = false).
Proof.
  intros HG HF.
  destruct (fuse_loop_spec D s vs [] (shape_size s) (fun _ => False) r c (inv_init s) ltac:(intros; contradiction) HG HF)
    as (m' & HI & _ & HL & HR).
  assert (GOOD : forall j v, nth_error vs j = Some v -> good_crossing D s v).
  { intros j v Hj. rewrite Forall_forall in HG. apply HG. eapply nth_error_In; eauto. }
  split; [auto|]. split; [|split].
  - intros j k v w i i' Hj Hk Hi Hi'.
    assert (F1 := HR _ _ _ Hj Hi). assert (F2 := HR _ _ _ Hk Hi').
    destruct (GOOD _ _ Hj) as (W1 & N1 & _), (GOOD _ _ Hk) as (W2 & N2 & _).
    rewrite <- (vkey_pos D) by auto. split.
    + intros <-. apply (inv_inj _ _ _ _ HI _ _ _ F1 F2).
      destruct W1 as (? & Q1 & ?), W2 as (? & Q2 & ?). simpl. congruence.
    + intros E. rewrite E in F1. congruence.
  - intros j v i Hj Hi. assert (F := HR _ _ _ Hj Hi). destruct (GOOD _ _ Hj) as (W & N & FL & IN).
    assert (G := flags_exact_grid v FL). split; intros E.
    + apply G in E. destruct (inv_grid _ _ _ _ HI _ _ F E) as [S1 ->]. split; auto. apply ravel_range; auto.
    + apply (inv_new _ _ _ _ HI _ _ F). rewrite <- G. congruence.
  - intros i Hi. destruct (inv_surj _ _ _ _ HI i Hi) as (k & Hk & Gk).
    assert (HD := proj2 (inv_dom _ _ _ _ HI k) (ex_intro _ _ Hk)). destruct HD as [[]|(v & Hv & ->)].
    apply In_nth_error in Hv as [j Hj]. exists j, v. split; auto.
    destruct (nth_error_lt _ r j) as [i' Hi']; [rewrite HL; eapply nth_error_Some_lt; eauto|].
    assert (F := HR _ _ _ Hj Hi'). assert (i' = i) by congruence. subst.
    split; auto. destruct (GOOD _ _ Hj) as (_ & _ & FL & _). assert (G := flags_exact_grid v FL).
    destruct (is_grid_vertex v); auto. exfalso; apply Gk, G; auto.
Qed.

Lemma fold_max_ge l : forall a, a <= fold_left (fun size i => Z.max size (i + 1)) l a /\
  (forall i, In i l -> i < fold_left (fun size i => Z.max size (i + 1)) l a) /\
  (fold_left (fun size i => Z.max size (i + 1)) l a = a \/ exists i, In i l /\ fold_left (fun size i => Z.max size (i + 1)) l a = i + 1).
Proof.
  induction l as [|x l IH]; intros a; simpl; [split; [lia|split; [intros ? []|auto]]|].
  destruct (IH (Z.max a (x + 1))) as (H1 & H2 & H3). split; [lia|]. split.
  - intros i [<-|Hi]; auto. lia.
  - destruct H3 as [H3|(i & Hi & H3)]; [|eauto].
    destruct (Z.max_spec a (x + 1)) as [[? E]|[? E]]; rewrite E in *; eauto.
Qed.

(** cut_vertex_size is the final counter *)
Lemma cut_vertex_size_spec D s vs r c : Forall (good_crossing D s) vs -> compute_crossings s vs = (r, c) ->
  cut_vertex_size s r = c.
Proof.
  intros HG HF. destruct (compute_crossings_spec D s vs r c HG HF) as (HL & _ & HR & HS).
  unfold cut_vertex_size. destruct (fold_max_ge r (shape_size s)) as (H1 & H2 & H3).
  set (z := fold_left _ r _) in *.
  assert (LE : z <= c).
  { assert (shape_size s <= c).
    { destruct (fuse_loop_spec D s vs [] (shape_size s) (fun _ => False) r c (inv_init s) ltac:(intros; contradiction) HG HF) as (m' & HI & _).
      apply HI. }
    destruct H3 as [->|(i & Hi & ->)]; auto.
    apply In_nth_error in Hi as [j Hj]. destruct (nth_error_lt _ vs j) as [v Hv]; [rewrite <- HL; eapply nth_error_Some_lt; eauto|].
    destruct (HR _ _ _ Hv Hj) as [A B]. destruct (is_grid_vertex v); [destruct (A eq_refl)|specialize (B eq_refl)]; lia. }
  destruct (Z_lt_le_dec z c) as [Hlt|]; [exfalso|lia].
  destruct (HS z ltac:(lia)) as (j & v & _ & Hj & _). apply nth_error_In in Hj. apply H2 in Hj. lia.
Qed.
