From Verif Require Import Base Num CoordMask Grid SmallestEdge SmallestEdgeProofs ExteriorGrid.
Local Open Scope Z_scope.

Lemma upd_length (A : Type) (l : list A) i x : length (upd l i x) = length l.
Proof. revert i; induction l as [|a l IH]; intros [|i]; cbn; auto. Qed.
Lemma upd_nth (A : Type) (l : list A) i x j d : (i < length l)%nat -> nth j (upd l i x) d = if Nat.eqb j i then x else nth j l d.
Proof.
  revert i j; induction l as [|a l IH]; intros [|i] [|j] H; cbn in *; try lia; auto. apply IH. lia.
Qed.
Lemma upd_nth_error (A : Type) (l : list A) i x j : (i < length l)%nat -> nth_error (upd l i x) j = if Nat.eqb j i then Some x else nth_error l j.
Proof. revert i j; induction l as [|a l IH]; intros [|i] [|j] H; cbn in *; try lia; auto. apply IH. lia. Qed.
Lemma list_ext0 (a b : list Z) : length a = length b -> (forall j, (j < length a)%nat -> at0 a j = at0 b j) -> a = b.
Proof. intros H E. apply (nth_ext a b 0 0); auto. Qed.
Lemma in_shape_pt s c : in_shape s c = true <-> length c = length s /\ forall j, (j < length s)%nat -> 0 <= at0 c j < at0 s j.
Proof.
  rewrite in_shape_iff. unfold at0. split.
  - intros H. split; [induction H; cbn; auto|]. induction H as [|n x s c H1 H2 IH]; intros [|j] Hj; cbn in *; try lia. apply IH. lia.
  - revert c. induction s as [|n s IH]; intros [|x c] [L H]; cbn in *; try lia; constructor; [apply (H 0%nat); lia|]. apply IH. split; [lia|]. intros j Hj. apply (H (S j)). lia.
Qed.
Lemma coord_eqb_eq a b : coord_eqb a b = true <-> a = b.
Proof. unfold coord_eqb. destruct (list_eq_dec _ a b); split; auto; discriminate. Qed.

(** *** numbering *)
Lemma number_spec mask cs : forall n, snd (number_cells mask cs n) = n + Z.of_nat (length (filter mask cs)) /\ map fst (fst (number_cells mask cs n)) = cs /\
  forall c i, In (c, i) (fst (number_cells mask cs n)) <-> (In c cs /\ mask c = false /\ i = -1) \/ (exists k, nth_error (filter mask cs) k = Some c /\ i = n + Z.of_nat k).
Proof.
  induction cs as [|c cs IH]; intros n; cbn [number_cells filter].
  - cbn. split; [lia|]. split; auto. intros c i. split; [intros []|]. intros [[[] _]|(k & H & _)]. destruct k; discriminate.
  - destruct (mask c) eqn:M.
    + destruct (IH (n + 1)) as (I1 & I2 & I3). destruct (number_cells mask cs (n + 1)) as [r m]. cbn [fst snd map length] in *. split; [lia|]. split; [congruence|].
      intros c' i. cbn [In]. rewrite I3. split.
      * intros [[= <- <-]|[(H1 & H2 & H3)|(k & H1 & H2)]]; [right; exists 0%nat; split; [auto|lia]|left; auto|right; exists (S k); split; [auto|lia]].
      * intros [([<-|H1] & H2 & H3)|([|k] & H1 & H2)].
        -- congruence.
        -- right. left. auto.
        -- left. cbn in H1. f_equal; [congruence|lia].
        -- right. right. exists k. split; [auto|lia].
    + destruct (IH n) as (I1 & I2 & I3). destruct (number_cells mask cs n) as [r m]. cbn [fst snd map length] in *. split; [lia|]. split; [congruence|].
      intros c' i. cbn [In]. rewrite I3. split.
      * intros [[= <- <-]|[(H1 & H2 & H3)|(k & H1 & H2)]]; eauto 10.
      * intros [([<-|H1] & H2 & H3)|(k & H1 & H2)]; [left; congruence|right; left; auto|right; right; eauto].
Qed.
Section Ext.
  Variable shape : list Z.
  Variable mask : coord -> bool.
  Let ext := filter mask (all_coords shape).
  Let ix := cell_ix shape mask.
  Lemma ext_NoDup : NoDup ext.
  Proof. apply NoDup_filter, all_coords_NoDup. Qed.
  Lemma ext_In c : In c ext <-> in_shape shape c = true /\ mask c = true.
  Proof. unfold ext. rewrite filter_In, all_coords_In. tauto. Qed.
  Lemma table_find c i : In (c, i) (cell_table shape mask) -> ix c = i.
  Proof.
    intros H. unfold ix, cell_ix, table_get. destruct (number_spec mask (all_coords shape) 0) as (_ & F & _). fold (cell_table shape mask) in F.
    assert (ND : NoDup (map fst (cell_table shape mask))) by (rewrite F; apply all_coords_NoDup). clear F. induction (cell_table shape mask) as [|[a j] t IH]; [destruct H|].
    cbn [find fst]. cbn [map fst] in ND. inversion ND; subst. destruct (coord_eqb a c) eqn:E.
    - apply coord_eqb_eq in E. subst. destruct H as [[= ->]|H]; auto. exfalso. apply H2. apply in_map_iff. exists (c, i). auto.
    - apply IH; auto. destruct H as [[= -> ->]|H]; auto. rewrite (proj2 (coord_eqb_eq c c)) in E by auto. discriminate.
  Qed.
  Lemma table_none c : in_shape shape c = false -> ix c = -1.
  Proof.
    intros H. unfold ix, cell_ix, table_get. destruct (find _ _) as [[a i]|] eqn:F; auto. apply find_some in F as [F1 F2]. cbn in F2. apply coord_eqb_eq in F2. subst a.
    destruct (number_spec mask (all_coords shape) 0) as (_ & N & _). fold (cell_table shape mask) in N. apply (in_map fst) in F1. rewrite N in F1. cbn in F1. apply all_coords_In in F1. congruence.
  Qed.
  Lemma ix_ext c k : nth_error ext k = Some c -> ix c = Z.of_nat k.
  Proof. intros H. apply table_find. apply (number_spec mask (all_coords shape) 0). right. exists k. auto. Qed.
  Lemma ix_neg c : ~ In c ext -> ix c = -1.
  Proof.
    intros H. destruct (in_shape shape c) eqn:E; [|apply table_none; auto]. apply table_find. apply (number_spec mask (all_coords shape) 0). left. rewrite all_coords_In. split; auto. split; auto.
    destruct (mask c) eqn:M; auto. exfalso. apply H. apply ext_In; auto.
  Qed.
  Lemma ix_cases c : (In c ext /\ exists k, nth_error ext k = Some c /\ ix c = Z.of_nat k) \/ (~ In c ext /\ ix c = -1).
  Proof.
    destruct (in_dec (list_eq_dec Z.eq_dec) c ext) as [H|H]; [left|right; split; auto; apply ix_neg; auto]. split; auto.
    apply In_nth_error in H as [k H]. exists k. split; auto. apply ix_ext; auto.
  Qed.
  Lemma ix_nn c : 0 <= ix c <-> In c ext.
  Proof. destruct (ix_cases c) as [[H (k & _ & ->)]|[H ->]]; split; intros; auto; try lia. contradiction. Qed.
  Lemma ix_m1 c : ix c = -1 <-> ~ In c ext.
  Proof. rewrite <- ix_nn. destruct (ix_cases c) as [[H (k & _ & ->)]|[H ->]]; lia. Qed.
  Lemma ix_inj c c' : In c ext -> In c' ext -> ix c = ix c' -> c = c'.
  Proof.
    intros H H' E. destruct (ix_cases c) as [[_ (k & H1 & H2)]|[? _]]; [|contradiction]. destruct (ix_cases c') as [[_ (k' & H1' & H2')]|[? _]]; [|contradiction].
    assert (k = k') by lia. subst. congruence.
  Qed.
  Lemma num_cells : ext_num_cells shape mask = Z.of_nat (length ext).
  Proof. unfold ext_num_cells. rewrite (proj1 (number_spec mask (all_coords shape) 0)). auto. Qed.
  Lemma coords_ext : cell_coords shape mask = ext.
  Proof.
    unfold cell_coords. rewrite num_cells, Nat2Z.id.
    assert (G : forall (t : list (coord * Z)) l, NoDup (map fst t) -> length l = length ext -> (forall c i, In (c, i) t -> 0 <= i -> nth_error ext (Z.to_nat i) = Some c) ->
      let r := fold_left (fun l '(c, i) => if 0 <=? i then upd l (Z.to_nat i) c else l) t l in
      length r = length ext /\ forall j, (exists c i, In (c, i) t /\ 0 <= i /\ Z.to_nat i = j) \/ nth_error l j = nth_error ext j -> nth_error r j = nth_error ext j).
    { induction t as [|[c i] t IH]; intros l ND L H; cbn [fold_left].
      - split; auto. intros j [(c & i & [] & _)|E]; auto.
      - cbn [map fst] in ND. inversion ND; subst. destruct (Z.leb_spec 0 i) as [Hi|Hi].
        + assert (E := H c i (or_introl eq_refl) Hi). assert (LT : (Z.to_nat i < length l)%nat) by (rewrite L; apply nth_error_Some; congruence).
          destruct (IH (upd l (Z.to_nat i) c)) as [R1 R2]; auto; [rewrite upd_length; auto|intros; apply H; simpl; auto|]. split; auto.
          intros j HJ. apply R2. rewrite upd_nth_error by auto. destruct (Nat.eqb_spec j (Z.to_nat i)) as [->|N]; [right; auto|].
          destruct HJ as [(c' & i' & [[= <- <-]|HI] & P & Q)|HJ]; [congruence|left; eauto|right; auto].
        + destruct (IH l) as [R1 R2]; auto; [intros; apply H; simpl; auto|]. split; auto. intros j HJ. apply R2.
          destruct HJ as [(c' & i' & [[= <- <-]|HI] & P & Q)|HJ]; [lia|left; eauto|right; auto]. }
    destruct (number_spec mask (all_coords shape) 0) as (_ & F & S). fold (cell_table shape mask) in F, S. fold ext in S.
    destruct (G (cell_table shape mask) (repeat (repeat 0 (length shape)) (length ext))) as [R1 R2].
    - rewrite F; apply all_coords_NoDup.
    - apply repeat_length.
    - intros c i Hi P. apply S in Hi as [(_ & _ & ->)|(k & E & ->)]; [lia|]. rewrite Z.add_0_l, Nat2Z.id. auto.
    - apply nth_error_ext. intros j. apply R2. destruct (nth_error ext j) as [c|] eqn:E.
      + left. exists c, (0 + Z.of_nat j). split; [apply S; right; eauto|]. split; lia.
      + right. apply nth_error_None. apply nth_error_None in E. rewrite repeat_length. auto.
  Qed.

  (** *** facets *)
  Lemma upd_shape i n v : (i < length shape)%nat -> in_shape (upd shape i n) v = true <->
    length v = length shape /\ 0 <= at0 v i < n /\ forall j, (j < length shape)%nat -> j <> i -> 0 <= at0 v j < at0 shape j.
  Proof.
    intros Hi. rewrite in_shape_pt, upd_length. split.
    - intros [L H]. split; auto. split.
      + specialize (H i Hi). unfold at0 in *. rewrite upd_nth, Nat.eqb_refl in H by auto. auto.
      + intros j Hj N. specialize (H j Hj). unfold at0 in *. rewrite upd_nth, (proj2 (Nat.eqb_neq _ _)) in H by auto. auto.
    - intros (L & H & H'). split; auto. intros j Hj. unfold at0 in *. rewrite upd_nth by auto. destruct (Nat.eqb_spec j i) as [->|N]; auto.
  Qed.
  Lemma at0_upd v i x j : (i < length v)%nat -> at0 (upd v i x) j = if Nat.eqb j i then x else at0 v j.
  Proof. intros. unfold at0. apply upd_nth; auto. Qed.
  Lemma upd_upd (v : list Z) i x y : upd (upd v i x) i y = upd v i y.
  Proof. revert i; induction v as [|a v IH]; intros [|i]; cbn; auto. f_equal. auto. Qed.
  Lemma upd_same (v : list Z) i : upd v i (at0 v i) = v.
  Proof. unfold at0. revert i; induction v as [|a v IH]; intros [|i]; cbn; auto. f_equal. auto. Qed.
  (** next cell along an axis *)
  Definition step (c : coord) (i : nat) : coord := upd c i (at0 c i + 1).
  Lemma ext_shape c : In c ext -> length c = length shape /\ forall j, (j < length shape)%nat -> 0 <= at0 c j < at0 shape j.
  Proof. intros H. apply ext_In in H as [H _]. apply in_shape_pt; auto. Qed.
  Lemma axis_facets_In i a b : (i < length shape)%nat -> In (a, b) (axis_facets shape ix i) <->
    (a = -2 /\ exists c, In c ext /\ at0 c i = 0 /\ b = ix c) \/
    (exists c, In c ext /\ In (step c i) ext /\ a = ix c /\ b = ix (step c i)) \/
    (2 <= at0 shape i /\ b = -2 /\ exists c, In c ext /\ at0 c i = at0 shape i - 1 /\ a = ix c).
  Proof.
    intros Hi. unfold axis_facets. cbv zeta. rewrite in_app_iff, at0_upd, Nat.eqb_refl by auto. 
    assert (P1 : In (a, b) (flat_map (fun v => if 0 <=? ix v then [(-2, ix v)] else []) (all_coords (upd shape i 1))) <-> a = -2 /\ exists c, In c ext /\ at0 c i = 0 /\ b = ix c).
    { rewrite in_flat_map. split.
      - intros (v & Hv & H). apply all_coords_In, upd_shape in Hv as (L & B & _); auto. destruct (Z.leb_spec 0 (ix v)) as [N|N]; [|destruct H]. destruct H as [[= <- <-]|[]].
        split; auto. exists v. apply ix_nn in N. split; auto. split; [lia|auto].
      - intros (-> & c & Hc & Z0 & ->). exists c. split.
        + apply all_coords_In, upd_shape; auto. destruct (ext_shape c Hc) as [L B]. split; auto. split; [lia|]. auto.
        + rewrite (proj2 (Z.leb_le _ _)) by (apply ix_nn; auto). simpl; auto. }
    rewrite P1. destruct (Z.ltb_spec (at0 shape i - 1) 1) as [SM|SM].
    - split.
      + intros [H|[]]; auto.
      + intros [H|[(c & H1 & H2 & _)|(H & _)]]; auto; [|lia]. exfalso. destruct (ext_shape c H1) as [L B]. destruct (ext_shape _ H2) as [L2 B2].
        specialize (B2 i Hi). unfold step in B2. rewrite at0_upd, Nat.eqb_refl in B2 by lia. specialize (B i Hi). lia.
    - rewrite in_app_iff, !in_flat_map. split.
      + intros [H|[(v & Hv & H)|(v & Hv & H)]]; auto.
        * right. left. fold (step v i) in H. exists v. destruct (Z.eqb_spec (ix v) (-1)) as [E|E]; [destruct H|]. destruct (Z.eqb_spec (ix (step v i)) (-1)) as [E'|E']; [destruct H|].
          destruct H as [[= <- <-]|[]].
          assert (D : forall c, ix c <> -1 -> In c ext). { intros c HH. destruct (in_dec (list_eq_dec Z.eq_dec) c ext) as [I|I]; auto. apply ix_m1 in I. contradiction. }
          split; [apply D; auto|]. split; [apply D; auto|]. auto.
        * right. right. split; [lia|]. rewrite upd_upd in Hv. apply all_coords_In, upd_shape in Hv as (L & B & _); auto.
          destruct (Z.leb_spec 0 (ix (upd v i (at0 shape i - 1)))) as [N|N]; [|destruct H]. destruct H as [[= <- <-]|[]]. split; auto. exists (upd v i (at0 shape i - 1)). apply ix_nn in N. split; auto.
          split; auto. rewrite at0_upd, Nat.eqb_refl by lia. auto.
      + intros [H|[(c & H1 & H2 & -> & ->)|(_ & -> & c & Hc & E & ->)]]; auto.
        * right. left. exists c. destruct (ext_shape c H1) as [L B]. destruct (ext_shape _ H2) as [L2 B2]. split.
          -- apply all_coords_In, upd_shape; auto. split; auto. split; [|auto]. specialize (B2 i Hi). unfold step in B2. rewrite at0_upd, Nat.eqb_refl in B2 by lia. specialize (B i Hi). lia.
          -- fold (step c i). rewrite (proj2 (Z.eqb_neq (ix c) (-1))) by (rewrite ix_m1; auto). rewrite (proj2 (Z.eqb_neq (ix (step c i)) (-1))) by (rewrite ix_m1; auto). simpl; auto.
        * right. right. exists (upd c i 0). destruct (ext_shape c Hc) as [L B]. split.
          -- rewrite upd_upd. apply all_coords_In, upd_shape; auto. split; [rewrite upd_length; auto|]. split; [rewrite at0_upd, Nat.eqb_refl by lia; lia|].
             intros j Hj N. rewrite at0_upd, (proj2 (Nat.eqb_neq _ _)) by (auto; lia). auto.
          -- rewrite upd_upd, <- E, upd_same. rewrite (proj2 (Z.leb_le _ _)) by (apply ix_nn; auto). simpl; auto.
  Qed.
  Lemma NoDup_app (A : Type) (l l' : list A) : NoDup l -> NoDup l' -> (forall x, In x l -> In x l' -> False) -> NoDup (l ++ l').
  Proof.
    induction l as [|a l IH]; intros H1 H2 H3; cbn; auto. inversion H1; subst. constructor.
    - rewrite in_app_iff. intros [H|H]; auto. eapply H3; simpl; eauto.
    - apply IH; auto. intros x Hx. apply H3. simpl; auto.
  Qed.
  Lemma axis_facets_NoDup i : (i < length shape)%nat -> NoDup (axis_facets shape ix i).
  Proof.
    intros Hi. unfold axis_facets. cbv zeta. rewrite at0_upd, Nat.eqb_refl by auto. 
    assert (S1 : forall (A : Type) (b : bool) (x : A), NoDup (if b then [x] else [])) by (intros A [|] x; repeat constructor; auto).
    assert (S2 : forall (A : Type) (b : bool) (x : A), NoDup (if b then [] else [x])) by (intros A [|] x; repeat constructor; auto).
    apply NoDup_app.
    - apply NoDup_flat_map; [apply all_coords_NoDup|intros; apply S1|]. intros v v' x Hv Hv' H H'.
      destruct (Z.leb_spec 0 (ix v)) as [N|N]; [|destruct H]. destruct (Z.leb_spec 0 (ix v')) as [N'|N']; [|destruct H'].
      destruct H as [<-|[]], H' as [[= E]|[]]. apply ix_inj; try (apply ix_nn; auto). auto.
    - destruct (_ <? 1) eqn:SM; [constructor|]. apply NoDup_app.
      + apply NoDup_flat_map; [apply all_coords_NoDup|intros; apply S2|]. intros v v' x Hv Hv' H H'.
        destruct (Z.eqb_spec (ix v) (-1)) as [E|E]; [destruct H|]. destruct (ix (upd v i _) =? -1); [destruct H|]. destruct (Z.eqb_spec (ix v') (-1)) as [E'|E']; [destruct H'|]. destruct (ix (upd v' i _) =? -1); [destruct H'|].
        destruct H as [<-|[]], H' as [[= EE _]|[]]. symmetry. rewrite ix_m1 in E, E'. apply ix_inj; auto; match goal with |- In ?c ext => destruct (in_dec (list_eq_dec Z.eq_dec) c ext); tauto end.
      + apply NoDup_flat_map; [apply all_coords_NoDup|intros; apply S1|]. intros v v' x Hv Hv' H H'. rewrite upd_upd in Hv, Hv'. apply all_coords_In, upd_shape in Hv as (L & B & _), Hv' as (L' & B' & _); auto.
        destruct (Z.leb_spec 0 (ix (upd v i (at0 shape i - 1)))) as [N|N]; [|destruct H]. destruct (Z.leb_spec 0 (ix (upd v' i (at0 shape i - 1)))) as [N'|N']; [|destruct H'].
        destruct H as [<-|[]], H' as [[= E]|[]]. apply ix_inj in E; try (apply ix_nn; auto). rewrite <- (upd_same v i), <- (upd_same v' i). replace (at0 v i) with 0 by lia. replace (at0 v' i) with 0 by lia.
        rewrite <- (upd_upd v i (at0 shape i - 1)), <- (upd_upd v' i (at0 shape i - 1)). congruence.
      + intros [p q] H1 H2. apply in_flat_map in H1 as (v & _ & H1), H2 as (v' & _ & H2). destruct (_ || _) eqn:O in H1; [destruct H1|]. apply orb_false_iff in O as [O1 O2]. apply Z.eqb_neq in O1, O2.
        destruct (0 <=? _); [|destruct H2]. destruct H1 as [[= <- <-]|[]], H2 as [[= _ E]|[]]. destruct (ix_cases (upd v i (at0 v i + 1))) as [[_ (k & _ & E2)]|[_ E2]]; lia.
    - intros [p q] H1 H2. apply in_flat_map in H1 as (v & _ & H1). destruct (Z.leb_spec 0 (ix v)) as [N|N]; [|destruct H1]. destruct H1 as [[= <- <-]|[]].
      destruct (_ <? 1); [destruct H2|]. apply in_app_iff in H2 as [H2|H2]; apply in_flat_map in H2 as (v' & _ & H2).
      + destruct (_ || _) eqn:O in H2; [destruct H2|]. destruct H2 as [[= E _]|[]]. destruct (ix_cases v') as [[_ (k & _ & E2)]|[_ E2]]; lia.
      + destruct (Z.leb_spec 0 (ix (upd v' i (at0 shape i - 1)))); [|destruct H2]. destruct H2 as [[= E _]|[]]. lia.
  Qed.
  Lemma facets_In i e : In (i, e) (facets shape mask) <-> (i < length shape)%nat /\ In e (axis_facets shape ix i).
  Proof.
    unfold facets. rewrite in_flat_map. split.
    - intros (j & Hj & H). apply in_map_iff in H as (e' & [= -> ->] & H). apply in_seq in Hj. split; [lia|auto].
    - intros [H1 H2]. exists i. split; [apply in_seq; lia|]. apply in_map; auto.
  Qed.
  Lemma facets_NoDup : NoDup (facets shape mask).
  Proof.
    unfold facets. apply NoDup_flat_map; [apply seq_NoDup| |].
    - intros i Hi. apply in_seq in Hi. apply FinFun.Injective_map_NoDup; [intros x y [=]; auto|]. apply axis_facets_NoDup. lia.
    - intros i j e _ _ H1 H2. apply in_map_iff in H1 as (? & <- & _), H2 as (? & [=] & _). auto.
  Qed.
End Ext.
