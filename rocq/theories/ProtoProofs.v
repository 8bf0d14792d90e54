From Coq Require Import Permutation.
From Verif Require Import Base Num CoordMask CoordMaskSpec CoordMaskProofs Vertex VertexSpec VertexProofs Grid SmallestEdge AdaptiveGrid Mesh Proto.
Set Implicit Arguments.
Local Open Scope Z_scope.

(** two maps with the same entries are the same *)
Lemma map_ext_sorted (V : Type) (a b : list (Z * V)) : ssorted Z.compare (keys a) -> ssorted Z.compare (keys b) ->
  (forall k v, In (k, v) a <-> In (k, v) b) -> a = b.
Proof.
  revert b. induction a as [|[k v] a IH]; intros [|[k' v'] b] SA SB H; auto.
  - destruct (H k' v') as [_ X]. destruct X; cbn; auto.
  - destruct (H k v) as [X _]. destruct X; cbn; auto.
  - cbn in SA, SB. inversion SA as [|? ? FA SA']; inversion SB as [|? ? FB SB']; subst. rewrite Forall_forall in FA, FB.
    assert (KK : k = k' /\ v = v').
    { assert (I1 := proj1 (H k v) (or_introl eq_refl)). assert (I2 := proj2 (H k' v') (or_introl eq_refl)).
      destruct I1 as [[= -> ->]|I1]; auto. destruct I2 as [[= -> ->]|I2]; auto.
      apply (in_map fst) in I1, I2. apply FB in I1. apply FA in I2. cbn in I1, I2. rewrite Z.compare_lt_iff in *. lia. }
    destruct KK as [<- <-]. f_equal. apply IH; auto. intros q w. specialize (H q w). cbn in H. split; intros I.
    + destruct (proj1 H (or_intror I)) as [[= <- <-]|J]; auto. apply (in_map fst) in I. apply FA in I. cbn in I. rewrite Z.compare_lt_iff in I. lia.
    + destruct (proj2 H (or_intror I)) as [[= <- <-]|J]; auto. apply (in_map fst) in I. apply FB in I. cbn in I. rewrite Z.compare_lt_iff in I. lia.
Qed.
Lemma load_fold (V : Type) (l : list (Z * V)) : forall m, ssorted Z.compare (keys m) -> NoDup (keys l) -> (forall k, In k (keys l) -> ~ In k (keys m)) ->
  let r := fold_left (fun m '(a, b) => map_set Z.compare a b m) l m in
  ssorted Z.compare (keys r) /\ forall k v, In (k, v) r <-> In (k, v) m \/ In (k, v) l.
Proof.
  induction l as [|[k v] l IH]; intros m SM ND DJ; cbn; [tauto|]. cbn in ND. inversion ND as [|? ? NI ND']; subst.
  assert (S2 : ssorted Z.compare (keys (map_set Z.compare k v m))) by (apply map_set_sorted; auto; apply Zcompare_total).
  destruct (IH (map_set Z.compare k v m)) as [R1 R2]; auto.
  - intros q Hq Hm. rewrite map_set_keys, (set_insert_In Zcompare_total) in Hm. destruct Hm as [->|Hm]; auto. apply (DJ q); cbn; auto.
  - split; auto. intros q w. rewrite R2. rewrite <- (map_find_Some Zcompare_total) by auto. rewrite (map_find_set Zcompare_total) by auto.
    destruct (q ?= k) eqn:E.
    + apply Z.compare_eq in E. subst q. split.
      * intros [[= ->]|I]; auto.
      * intros [I|[I|I]]; [|left; congruence|auto]. exfalso. apply (DJ k); cbn; auto. apply (in_map fst) in I. auto.
    + rewrite (map_find_Some Zcompare_total) by auto. assert (q <> k) by (rewrite Z.compare_lt_iff in E; lia). split; [tauto|intros [I|[I|I]]; auto; congruence].
    + rewrite (map_find_Some Zcompare_total) by auto. assert (q <> k) by (rewrite Z.compare_gt_iff in E; lia). split; [tauto|intros [I|[I|I]]; auto; congruence].
Qed.
Lemma load_map_perm (V : Type) (m l : list (Z * V)) : ssorted Z.compare (keys m) -> Permutation m l -> load_map l = m.
Proof.
  intros SM P. assert (ND : NoDup (keys l)). { apply (Permutation_NoDup (Permutation_map fst P)). apply (ssorted_NoDup Zcompare_total); auto. }
  destruct (@load_fold V l []) as [R1 R2]; [constructor|auto|intros ? _ []|]. apply map_ext_sorted; auto. intros k v. rewrite R2. cbn. split.
  - intros [[]|I]. eapply Permutation_in; [apply Permutation_sym|]; eauto.
  - intros I. right. eapply Permutation_in; eauto.
Qed.
Lemma set_load (A : Type) cmp (TC : TotalCmp cmp) (l : list A) : ssorted cmp l -> fold_left (fun s x => set_insert cmp x s) l [] = l.
Proof.
  intros S. apply (ssorted_ext TC); auto. apply (fold_insert_sorted TC); constructor. intros x. rewrite (fold_insert_In TC). cbn. tauto.
Qed.
Lemma vertex_rt v : v_wf 3 v -> de_vertex (ser_vertex v) = v.
Proof.
  destruct v as [c q b]. intros (A & B & C). cbn in A, B, C.
  destruct c as [|c0 [|c1 [|c2 [|]]]]; try discriminate. destruct q as [|q0 [|q1 [|q2 [|]]]]; try discriminate. destruct b as [|b0 [|b1 [|b2 [|]]]]; try discriminate. reflexivity.
Qed.

(** ** masks *)
Lemma get_mask_masked vs V i m : 0 <= i -> pos_shape vs -> get_mask vs V i = Some m <-> exists v, masked_vertex vs V i = Some v /\ v_mask v = m.
Proof.
  intros H0 HP. unfold get_mask, masked_vertex. rewrite (proj2 (Z.ltb_ge i 0)) by lia. destruct (Z.leb_spec (shape_size vs) i), (Z.ltb_spec i (shape_size vs)); try lia.
  - destruct (nth_error V _) as [v|]; cbn; split; [intros [= <-]; eauto|intros (? & [= <-] & <-); auto|discriminate|intros (? & [=] & _)].
  - assert (E : forall c, v_mask (vertex_of_coord c) = mask_of_coord c).
    { induction c as [|x c IH]; auto. unfold v_mask, vertex_of_coord, mask_of_coord in *. cbn in *. rewrite IH. auto. }
    split; [intros [= <-]; eexists; split; eauto|intros (? & [= <-] & <-); f_equal; auto].
Qed.
Lemma mask_fold_none vs V l : fold_left (mask_step vs V) l None = None.
Proof. induction l; auto. Qed.
Lemma mask_fold_app vs V ls m0 : fold_left (fun m l => fold_left (mask_step vs V) l m) ls m0 = fold_left (mask_step vs V) (concat ls) m0.
Proof. revert m0. induction ls as [|l ls IH]; intros m0; cbn; auto. rewrite fold_left_app. auto. Qed.
Section Masks.
  Variables (vs : list Z) (V : list vertex).
  Hypothesis HP : pos_shape vs.
  Hypothesis HV : forall v, In v V -> v_wf (length vs) v /\ normalised v.
  Lemma masked_wf i v : masked_vertex vs V i = Some v -> v_wf (length vs) v /\ normalised v.
  Proof.
    unfold masked_vertex. destruct (i <? 0) eqn:E0; [discriminate|]. destruct (i <? shape_size vs) eqn:E1.
    - intros [= <-]. apply Z.ltb_ge in E0. apply Z.ltb_lt in E1. assert (U : in_shape vs (unravel vs i) = true) by (apply unravel_in; auto; lia). apply in_shape_length in U.
      unfold v_wf, vertex_of_coord, normalised. cbn. rewrite !repeat_length, U. split; auto. apply Forall_forall. intros q Hq. apply repeat_spec in Hq. subst. split; [apply Qcle_refl|reflexivity].
    - intros H. apply nth_error_In in H. auto.
  Qed.
  (** the mask of an element binds axis d to c exactly when all its vertices lie on that plane *)
  Definition on_plane (d : nat) (c : Z) (i : Z) : Prop := exists v, masked_vertex vs V i = Some v /\ nth_error (pos v) d = Some (Z2Qc c).
  Lemma vmask_plane v d c : v_wf (length vs) v -> normalised v -> binds (v_mask v) d c <-> nth_error (pos v) d = Some (Z2Qc c).
  Proof.
    intros W N. destruct (le_lt_dec (length vs) d) as [L|L].
    - unfold binds. split; intros H; exfalso; apply nth_error_Some_lt in H; [rewrite (v_mask_length _ _ W) in H|rewrite (pos_length _ _ W) in H]; lia.
    - destruct (pos_nth_wf _ _ _ W L) as (x & q & b & X & Q & _). rewrite (v_mask_binds _ _ _ _ X Q). rewrite (pos_nth_error _ _ _ _ X Q). split.
      + intros [-> ->]. f_equal. qc_lra.
      + intros H. apply Some_inj in H. apply (normalised_integral _ _ _ _ _ N X Q) in H as [-> ->]. auto.
  Qed.
  Lemma fold_mask_spec l : forall m0 m, (forall i, In i l -> 0 <= i) -> length m0 = length vs -> fold_left (mask_step vs V) l (Some m0) = Some m ->
    length m = length vs /\ (forall i, In i l -> exists v, masked_vertex vs V i = Some v) /\ forall d c, binds m d c <-> binds m0 d c /\ forall i, In i l -> on_plane d c i.
  Proof.
    induction l as [|i l IH]; intros m0 m H0 L0 E.
    - injection E as <-. split; auto. split; [intros ? []|]. intros d c. split; [intros B; split; auto; intros ? []|tauto].
    - cbn [fold_left] in E. unfold mask_step at 2 in E. destruct (get_mask vs V i) as [b|] eqn:G; [|rewrite mask_fold_none in E; discriminate].
      apply get_mask_masked in G as (v & MV & <-); auto; [|apply H0; cbn; auto]. destruct (masked_wf _ MV) as [W N].
      assert (LV := v_mask_length _ _ W). apply IH in E as (LM & DEF & B); [|intros; apply H0; cbn; auto|rewrite mask_and_length; congruence].
      split; auto. split; [intros k [<-|K]; eauto|]. intros d c. rewrite B, mask_and_binds by congruence. rewrite (vmask_plane d c W N). split.
      + intros [[B1 B2] B3]. split; auto. intros k [<-|K]; auto. exists v; auto.
      + intros [B1 B2]. split; [split; auto|intros; apply B2; cbn; auto]. destruct (B2 i) as (v' & E' & P'); cbn; auto. congruence.
  Qed.
  Lemma update_mask_spec loops m : (forall l i, In l loops -> In i l -> 0 <= i) -> update_mask vs V loops = Some m ->
    length m = length vs /\ (forall l i, In l loops -> In i l -> exists v, masked_vertex vs V i = Some v) /\
    forall d c, binds m d c <-> forall l i, In l loops -> In i l -> on_plane d c i.
  Proof.
    intros H0. unfold update_mask. destruct loops as [|[|i0 l0] ls]; try discriminate. rewrite mask_fold_app. intros E.
    set (L := (i0 :: l0) :: ls) in *. assert (H1 : forall i, In i (concat L) -> 0 <= i). { intros i Hi. apply in_concat in Hi as (l & A & B). eauto. }
    destruct (get_mask vs V i0) as [m0|] eqn:G; [|rewrite mask_fold_none in E; discriminate].
    apply get_mask_masked in G as (v & MV & G); auto; [|apply (H0 (i0 :: l0)); cbn; auto]. destruct (masked_wf _ MV) as [W N]. subst m0.
    apply fold_mask_spec in E as (LM & DEF & B); auto; [|apply v_mask_length; auto]. split; auto. split; [intros l i A C; apply DEF, in_concat; eauto|].
    intros d c. rewrite B. split.
    - intros [_ X] l i A C. apply X, in_concat. eauto.
    - intros X. split; [|intros i Hi; apply in_concat in Hi as (l & A & C); eauto]. apply (vmask_plane d c W N). destruct (X (i0 :: l0) i0) as (v' & E' & P'); cbn; auto. congruence.
  Qed.
  Lemma update_mask_defined loops : loops <> [] -> (forall l, In l loops -> l <> []) -> (forall l i, In l loops -> In i l -> 0 <= i /\ exists v, masked_vertex vs V i = Some v) ->
    exists m, update_mask vs V loops = Some m.
  Proof.
    intros N1 N2 H. destruct loops as [|[|i0 l0] ls]; [congruence|destruct (N2 []); cbn; auto|]. unfold update_mask. rewrite mask_fold_app.
    set (L := (i0 :: l0) :: ls) in *. assert (K : forall i, In i (concat L) -> exists m, get_mask vs V i = Some m).
    { intros i Hi. apply in_concat in Hi as (l & A & B). destruct (H _ _ A B) as [P (v & E)]. exists (v_mask v). apply get_mask_masked; eauto. }
    destruct (K i0) as [m0 E0]; [cbn; auto|]. rewrite E0. clear E0. revert m0 K. generalize (concat L). intros l. induction l as [|i l IH]; intros m0 K; [exists m0; auto|].
    cbn [fold_left]. destruct (K i) as [b EB]; [cbn; auto|]. assert (ST : mask_step vs V (Some m0) i = Some (mask_and m0 b)) by (unfold mask_step; rewrite EB; auto). rewrite ST. apply IH. intros; apply K; cbn; auto.
  Qed.
End Masks.
