From Verif Require Import Base CoordMask CoordMaskSpec.
Local Open Scope Z_scope.

Lemma mask_and_binds a b i v : length a = length b ->
  (binds (mask_and a b) i v <-> binds a i v /\ binds b i v).
Proof.
  intros HL; unfold binds, mask_and; rewrite nth_error_zipwith.
  destruct (nth_error a i) as [[x|]|] eqn:Ea; destruct (nth_error b i) as [[y|]|] eqn:Eb; simpl;
    try (split; [congruence|intros [? ?]; congruence]).
  destruct (x =? y) eqn:E.
  - apply Z.eqb_eq in E; subst. intuition.
  - apply Z.eqb_neq in E. split; [congruence|]. intros [[= ->] [= ->]]; congruence.
Qed.

Lemma mask_ext a b : length a = length b ->
  (forall i v, binds a i v <-> binds b i v) -> a = b.
Proof.
  intros HL H; apply nth_error_ext; intros i.
  destruct (nth_error a i) as [oa|] eqn:Ea.
  - assert (i < length b)%nat by (rewrite <- HL; apply nth_error_Some; congruence).
    destruct (nth_error b i) as [ob|] eqn:Eb; [|apply nth_error_None in Eb; lia].
    f_equal. destruct oa as [x|], ob as [y|]; auto.
    + assert (binds b i x) by (apply H; exact Ea). unfold binds in *; congruence.
    + assert (binds b i x) by (apply H; exact Ea). unfold binds in *; congruence.
    + assert (binds a i y) by (apply H; exact Eb). unfold binds in *; congruence.
  - apply nth_error_None in Ea. symmetry; apply nth_error_None; lia.
Qed.

Lemma mask_and_length a b : length a = length b -> length (mask_and a b) = length a.
Proof. apply zipwith_length. Qed.

Lemma mask_and_comm a b : length a = length b -> mask_and a b = mask_and b a.
Proof.
  intros HL; apply mask_ext; [rewrite !mask_and_length; auto|].
  intros i v; rewrite !mask_and_binds by auto; tauto.
Qed.

Lemma mask_and_assoc a b c : length a = length b -> length b = length c ->
  mask_and a (mask_and b c) = mask_and (mask_and a b) c.
Proof.
  intros H1 H2.
  assert (length (mask_and a b) = length a) by (apply mask_and_length; auto).
  assert (length (mask_and b c) = length b) by (apply mask_and_length; auto).
  apply mask_ext.
  - rewrite !mask_and_length; congruence.
  - intros i v; rewrite !mask_and_binds by congruence; tauto.
Qed.

Lemma mask_and_idem a : mask_and a a = a.
Proof.
  apply mask_ext; [apply mask_and_length; auto|].
  intros i v; rewrite mask_and_binds by auto; tauto.
Qed.

(** partial ordering *)
Definition incl_head (x y : option Z) : Prop := forall v, x = Some v -> y = Some v.

Lemma planes_incl_cons x y a b : length a = length b ->
  (planes_incl (x :: a) (y :: b) <-> incl_head x y /\ planes_incl a b).
Proof.
  intros HL; unfold planes_incl, incl_head, binds; split.
  - intros H; split.
    + intros v ->. specialize (H 0%nat v eq_refl); simpl in H; congruence.
    + intros i v Hi. exact (H (S i) v Hi).
  - intros [H1 H2] [|i] v; simpl; [|apply H2]. intros [= ->]. rewrite (H1 v); auto.
Qed.

Lemma planes_incl_nil : planes_incl [] [].
Proof. intros i v; destruct i; discriminate. Qed.

Lemma po_loop_spec po a b : length a = length b ->
  match po with
  | POEqual => match po_loop po a b with
      | POEqual => planes_incl a b /\ planes_incl b a
      | POGreater => planes_incl b a /\ ~ planes_incl a b
      | POLess => planes_incl a b /\ ~ planes_incl b a
      | POUnknown => ~ planes_incl a b /\ ~ planes_incl b a end
  | POGreater => match po_loop po a b with
      | POGreater => planes_incl b a
      | POUnknown => ~ planes_incl b a
      | _ => False end
  | POLess => match po_loop po a b with
      | POLess => planes_incl a b
      | POUnknown => ~ planes_incl a b
      | _ => False end
  | POUnknown => True
  end.
Proof.
  revert po b; induction a as [|x a IH]; intros po [|y b] HL; simpl in HL; try discriminate.
  - destruct po; simpl; auto using planes_incl_nil.
  - injection HL as HL.
    assert (Hab := planes_incl_cons x y _ _ HL).
    assert (Hba := planes_incl_cons y x _ _ (eq_sym HL)).
    assert (IHe := IH POEqual b HL). assert (IHg := IH POGreater b HL). assert (IHl := IH POLess b HL).
    simpl in IHe, IHg, IHl.
    unfold incl_head in *.
    destruct x as [u|], y as [v|]; cbn [po_loop].
    + destruct (u =? v) eqn:E; simpl.
      * apply Z.eqb_eq in E; subst.
        assert (Hh : forall w, Some v = Some w -> Some v = Some w) by auto.
        destruct po; auto.
        -- destruct (po_loop POLess a b); tauto.
        -- destruct (po_loop POGreater a b); tauto.
        -- destruct (po_loop POEqual a b); tauto.
      * apply Z.eqb_neq in E.
        assert (~ planes_incl (Some u :: a) (Some v :: b)).
        { rewrite Hab. intros [H _]. specialize (H u eq_refl). congruence. }
        assert (~ planes_incl (Some v :: b) (Some u :: a)).
        { rewrite Hba. intros [H' _]. specialize (H' v eq_refl). congruence. }
        destruct po; auto.
    + assert (~ planes_incl (Some u :: a) (None :: b)).
      { rewrite Hab. intros [H _]. specialize (H u eq_refl). discriminate. }
      assert (Hh : forall w, None = Some w -> Some u = Some w) by discriminate.
      destruct po; auto.
      -- destruct (po_loop POGreater a b); tauto.
      -- destruct (po_loop POGreater a b); tauto.
    + assert (~ planes_incl (Some v :: b) (None :: a)).
      { rewrite Hba. intros [H _]. specialize (H v eq_refl). discriminate. }
      assert (Hh : forall w, None = Some w -> Some v = Some w) by discriminate.
      destruct po; auto.
      -- destruct (po_loop POLess a b); tauto.
      -- destruct (po_loop POLess a b); tauto.
    + assert (Hh : forall w, @None Z = Some w -> @None Z = Some w) by auto.
      destruct po; auto.
      -- destruct (po_loop POLess a b); tauto.
      -- destruct (po_loop POGreater a b); tauto.
      -- destruct (po_loop POEqual a b); tauto.
Qed.

Lemma planes_incl_antisym a b : length a = length b ->
  planes_incl a b -> planes_incl b a -> a = b.
Proof. intros HL H1 H2; apply mask_ext; auto. intros; split; auto. Qed.

Lemma partial_ordering_spec a b : length a = length b ->
  (partial_ordering a b = POEqual <-> a = b) /\
  (partial_ordering a b = POGreater <-> planes_incl b a /\ ~ planes_incl a b) /\
  (partial_ordering a b = POLess <-> planes_incl a b /\ ~ planes_incl b a) /\
  (partial_ordering a b = POUnknown <-> ~ planes_incl a b /\ ~ planes_incl b a).
Proof.
  intros HL; assert (H := po_loop_spec POEqual _ _ HL); simpl in H; unfold partial_ordering.
  assert (HE : planes_incl a b /\ planes_incl b a <-> a = b).
  { split; [intros []; apply planes_incl_antisym; auto|]. intros ->; split; intros i v; auto. }
  destruct (po_loop POEqual a b); repeat split; intros; try discriminate; try tauto;
    try (apply HE in H0; tauto); try (apply HE; tauto).
Qed.

Lemma subsumes_spec a b : length a = length b ->
  (subsumes a b = true <-> planes_incl b a).
Proof.
  intros HL; unfold subsumes, partial_ordering.
  assert (H := po_loop_spec POEqual _ _ HL); simpl in H.
  destruct (po_loop POEqual a b); split; intros; try tauto; discriminate.
Qed.

Lemma strict_subsumes_spec a b : length a = length b ->
  (strict_subsumes a b = true <-> planes_incl b a /\ a <> b).
Proof.
  intros HL; destruct (partial_ordering_spec a b HL) as (_ & HG & _ & _).
  unfold strict_subsumes.
  transitivity (partial_ordering a b = POGreater).
  - destruct (partial_ordering a b); split; congruence.
  - rewrite HG. split; intros [H1 H2]; split; auto.
    + intros ->; auto.
    + intros H3; apply H2, planes_incl_antisym; auto.
Qed.

Lemma mask_and_glb a b m : length a = length b -> length m = length a ->
  (subsumes (mask_and a b) m = true <-> subsumes a m = true /\ subsumes b m = true).
Proof.
  intros H1 H2. rewrite !subsumes_spec; try (rewrite ?mask_and_length; congruence).
  unfold planes_incl; split.
  - intros H; split; intros i v Hi; apply H, mask_and_binds in Hi; tauto.
  - intros [Ha Hb] i v Hi; apply mask_and_binds; auto.
Qed.

Lemma mask_and_lower a b : length a = length b ->
  subsumes a (mask_and a b) = true /\ subsumes b (mask_and a b) = true.
Proof.
  intros HL. rewrite !subsumes_spec; try (rewrite ?mask_and_length; congruence).
  split; intros i v Hi; apply mask_and_binds in Hi; tauto.
Qed.

(** union / difference *)
Lemma mask_sub_binds a b i v : length a = length b ->
  (binds (mask_sub a b) i v <-> binds a i v /\ ~ bound b i).
Proof.
  intros HL; unfold binds, bound, binds, mask_sub; rewrite nth_error_zipwith.
  destruct (nth_error a i) as [x|] eqn:Ea.
  - destruct (nth_error b i) as [[y|]|] eqn:Eb.
    + split; [congruence|]. intros [_ H]; exfalso; apply H; eauto.
    + split; [intros [= ->]; split; auto; intros [w Hw]; congruence|intros [[= ->] _]; auto].
    + exfalso. apply nth_error_None in Eb. assert (i < length a)%nat by (apply nth_error_Some; congruence). lia.
  - split; [congruence|intros [? _]; congruence].
Qed.

Lemma mask_or_is_and a b : mask_or a b = mask_and a b.
Proof. reflexivity. Qed.

(** possible cells *)
Lemma bitset_eqb_eq a b : bitset_eqb a b = true <-> a = b.
Proof.
  revert b; induction a as [|x a IH]; intros [|y b]; simpl; split; try congruence; intros H.
  - apply andb_true_iff in H as [H1 H2]. apply eqb_prop in H1; subst. f_equal; apply IH; auto.
  - injection H as -> ->. rewrite eqb_reflx; simpl; apply IH; auto.
Qed.

(** every bitset is bitset_of_Z of some index in range *)
Fixpoint bits_to_Z (bs : bitset) : Z :=
  match bs with [] => 0 | b :: t => (if b then 1 else 0) + 2 * bits_to_Z t end.

Lemma bits_to_Z_range bs : 0 <= bits_to_Z bs < 2 ^ Z.of_nat (length bs).
Proof.
  induction bs as [|b t IH]; cbn [bits_to_Z length]; [simpl; lia|].
  rewrite Nat2Z.inj_succ, Z.pow_succ_r by lia. destruct b; lia.
Qed.

Lemma testbit_bits_to_Z bs j : Z.testbit (bits_to_Z bs) (Z.of_nat j) = nth j bs false.
Proof.
  revert j; induction bs as [|b t IH]; intros j.
  - simpl bits_to_Z. rewrite Z.bits_0. destruct j; auto.
  - cbn [bits_to_Z nth]. destruct j as [|j].
    + destruct b.
      * rewrite Z.add_comm. rewrite Z.testbit_odd_0; auto.
      * rewrite Z.add_0_l. apply Z.testbit_even_0.
    + rewrite Nat2Z.inj_succ. destruct b.
      * rewrite Z.add_comm. rewrite Z.testbit_odd_succ by lia. apply IH.
      * rewrite Z.add_0_l. rewrite Z.testbit_even_succ by lia. apply IH.
Qed.

Lemma bitset_of_bits_to_Z bs : bitset_of_Z (length bs) (bits_to_Z bs) = bs.
Proof.
  apply nth_error_ext; intros i. unfold bitset_of_Z.
  destruct (lt_dec i (length bs)) as [Hi|Hi].
  - rewrite (map_nth_error _ _ _ (nth_error_nth' (seq 0 (length bs)) 0%nat (n:=i) ltac:(rewrite seq_length; lia))).
    rewrite seq_nth by lia. simpl Nat.add. rewrite testbit_bits_to_Z.
    symmetry. apply nth_error_nth'; auto.
  - rewrite !(proj2 (nth_error_None _ _)); auto; try lia.
    rewrite map_length, seq_length; lia.
Qed.

Lemma bitset_of_Z_length D i : length (bitset_of_Z D i) = D.
Proof. unfold bitset_of_Z; rewrite map_length, seq_length; auto. Qed.

(** the bitset test is pointwise implication *)
Lemma bitset_subset bs cl : length bs = length cl ->
  (bitset_eqb (bitset_and bs cl) bs = true <->
   Forall2 (fun b c => b = true -> c = true) bs cl).
Proof.
  revert cl; induction bs as [|b bs IH]; intros [|c cl] H; simpl in *; try discriminate.
  - split; auto.
  - injection H as H. split; intros HH.
    + apply andb_true_iff in HH as [H1 H2]. constructor; [|apply IH; auto].
      intros ->; destruct c; auto.
    + inversion HH as [|? ? ? ? Hb Hr]; subst. apply andb_true_iff; split; [|apply IH; auto].
      destruct b; simpl; [rewrite Hb by auto|]; auto.
Qed.

(** the spec of a cell incident to coordinate [c] under mask [m], axis by axis *)

Definition dec_coord (c : coord) (bs : bitset) : coord :=
  zipwith (fun x b => x - (if b : bool then 1 else 0)) c bs.

Lemma incident_iff m c x : length m = length c ->
  (incident m c x <->
   exists bs, length bs = length m /\ Forall2 (fun b c => b = true -> c = true) bs (as_bitset m)
              /\ x = dec_coord c bs).
Proof.
  revert c x; induction m as [|o m IH]; intros [|ci c] x HL; simpl in HL; try discriminate.
  - split.
    + intros [Hx _]. destruct x; try discriminate. exists []; simpl; repeat split; auto.
    + intros (bs & Hb & _ & ->). destruct bs; try discriminate. split; auto.
      intros [|i]; discriminate.
  - injection HL as HL. split.
    + intros [Hx H]. destruct x as [|xi x]; simpl in Hx; try discriminate. injection Hx as Hx.
      assert (Hinc : incident m c x).
      { split; auto. intros i ui vi Hu Hv. destruct (H (S i) ui vi Hu Hv) as [|[Hb ?]]; auto. }
      apply IH in Hinc as (bs & Hbl & Hbf & ->); auto.
      destruct (H 0%nat ci xi eq_refl eq_refl) as [->|[[v Hv] ->]].
      * exists (false :: bs); simpl; repeat split; auto.
        -- constructor; auto. discriminate.
        -- unfold dec_coord; simpl; rewrite Z.sub_0_r; reflexivity.
      * exists (true :: bs); simpl; repeat split; auto.
        constructor; auto. intros _. unfold binds in Hv; simpl in Hv. injection Hv as ->. auto.
    + intros ([|b bs] & Hbl & Hbf & ->); simpl in Hbl; try discriminate. injection Hbl as Hbl.
      inversion Hbf as [|? ? ? ? Hb Hr]; subst.
      assert (Hinc : incident m c (dec_coord c bs)) by (apply IH; eauto).
      destruct Hinc as [Hl Hi]. split; simpl.
      * f_equal. exact Hl.
      * intros [|i] ui vi; simpl.
        -- intros [= ->] [= <-]. destruct b; [|left; lia].
           right; split; [|lia]. specialize (Hb eq_refl). destruct o as [v|]; try discriminate.
           exists v; reflexivity.
        -- intros Hu Hv. destruct (Hi i ui vi Hu Hv) as [|[[v Hbv] ?]]; auto.
           right; split; auto. exists v; exact Hbv.
Qed.

Lemma fold_cond_insert_In (f : Z -> bool) (g : Z -> coord) l s y :
  In y (fold_left (fun ret i => if f i then set_insert zlex (g i) ret else ret) l s) <->
  In y s \/ exists i, In i l /\ f i = true /\ y = g i.
Proof.
  revert s; induction l as [|i l IH]; intros s; simpl.
  - split; auto. intros [|(i & [] & _)]; auto.
  - rewrite IH. destruct (f i) eqn:E.
    + rewrite (set_insert_In zlex_total). split.
      * intros [[->|H]|(j & H1 & H2 & H3)]; eauto 10.
      * intros [H|(j & [<-|H1] & H2 & ->)]; eauto 10.
    + split.
      * intros [H|(j & H1 & H2 & H3)]; eauto 10.
      * intros [H|(j & [<-|H1] & H2 & H3)]; eauto 10. congruence.
Qed.

Lemma fold_cond_insert_sorted (f : Z -> bool) (g : Z -> coord) l s :
  ssorted zlex s ->
  ssorted zlex (fold_left (fun ret i => if f i then set_insert zlex (g i) ret else ret) l s).
Proof.
  revert s; induction l as [|i l IH]; intros s H; simpl; auto.
  apply IH. destruct (f i); auto. apply (set_insert_sorted zlex_total); auto.
Qed.

Lemma possible_cells_In m c x : length m = length c ->
  (In x (possible_cells m c) <-> incident m c x).
Proof.
  intros HL. unfold possible_cells.
  rewrite (fold_cond_insert_In (fun i => bitset_eqb (bitset_and (bitset_of_Z (length m) i) (as_bitset m)) (bitset_of_Z (length m) i))
             (fun i => dec_coord c (bitset_of_Z (length m) i))).
  rewrite incident_iff by auto.
  assert (HB : length (as_bitset m) = length m) by (unfold as_bitset; apply map_length).
  split.
  - intros [[]|(i & Hi & Hf & ->)]. exists (bitset_of_Z (length m) i).
    rewrite bitset_of_Z_length. repeat split; auto.
    apply bitset_subset; auto. rewrite bitset_of_Z_length; auto.
  - intros (bs & Hbl & Hbf & ->). right. exists (bits_to_Z bs).
    rewrite <- Hbl, bitset_of_bits_to_Z. repeat split; auto.
    + apply zrange_In. assert (H := bits_to_Z_range bs).
      rewrite Z.shiftl_mul_pow2 by lia. rewrite Z2Nat.id by (apply Z.mul_nonneg_nonneg; [lia|apply Z.pow_nonneg; lia]).
      lia.
    + apply bitset_subset; auto. congruence.
Qed.

Lemma possible_cells_NoDup m c : NoDup (possible_cells m c).
Proof.
  apply (ssorted_NoDup zlex_total). apply fold_cond_insert_sorted; constructor.
Qed.

Lemma possible_cells_sorted m c : ssorted zlex (possible_cells m c).
Proof. apply fold_cond_insert_sorted; constructor. Qed.

(** explicit enumeration used for counting *)
Fixpoint enum_cells (m : mask) (c : coord) : list coord :=
  match m, c with
  | o :: m', x :: c' =>
      let r := enum_cells m' c' in
      map (cons x) r ++ match o with Some _ => map (cons (x - 1)) r | None => [] end
  | _, _ => [[]]
  end.

Lemma enum_cells_length m c : length m = length c ->
  length (enum_cells m c) = (2 ^ mask_count m)%nat.
Proof.
  unfold mask_count.
  revert c; induction m as [|o m IH]; intros [|x c] H; simpl in *; try discriminate; auto.
  injection H as H. rewrite app_length, map_length, IH by auto.
  destruct o; simpl; [rewrite map_length, IH by auto|]; lia.
Qed.

Lemma NoDup_app_disjoint (A : Type) (l l' : list A) :
  NoDup l -> NoDup l' -> (forall x, In x l -> In x l' -> False) -> NoDup (l ++ l').
Proof.
  induction 1 as [|a l Ha Hl IH]; simpl; auto. intros Hl' Hd. constructor.
  - rewrite in_app_iff; intros [|]; [auto|]. eapply Hd; eauto.
  - apply IH; auto. intros x Hx; apply Hd; auto.
Qed.

Lemma enum_cells_NoDup m c : NoDup (enum_cells m c).
Proof.
  revert c; induction m as [|o m IH]; intros [|x c]; simpl;
    try (constructor; [intros []|constructor]).
  assert (HI : forall v, NoDup (map (cons v) (enum_cells m c))).
  { intros v; apply FinFun.Injective_map_NoDup; auto. intros p q [=]; auto. }
  destruct o; [|rewrite app_nil_r; auto].
  apply NoDup_app_disjoint; auto.
  intros y Hy Hy'. apply in_map_iff in Hy as (p & <- & _). apply in_map_iff in Hy' as (q & Hq & _).
  injection Hq as Hq _. lia.
Qed.

Lemma enum_cells_In m c x : length m = length c ->
  (In x (enum_cells m c) <-> incident m c x).
Proof.
  revert c x; induction m as [|o m IH]; intros [|ci c] x HL; simpl in HL; try discriminate.
  - simpl. split.
    + intros [<-|[]]. split; auto. intros [|i]; discriminate.
    + intros [H _]. destruct x; auto; discriminate.
  - injection HL as HL. cbn [enum_cells]. rewrite in_app_iff.
    assert (HC : forall y v, In y (map (cons v) (enum_cells m c)) <->
              exists t, y = v :: t /\ incident m c t).
    { intros y v. rewrite in_map_iff. split; intros (t & H1 & H2).
      - exists t; split; auto. apply IH; auto.
      - exists t; split; auto. apply IH; auto. }
    split.
    + intros [H|H].
      * apply HC in H as (t & -> & Hl & Hi). split; simpl; auto.
        intros [|i] ui vi; simpl; [intros [= ->] [= ->]; auto|].
        intros Hu Hv; destruct (Hi i ui vi Hu Hv) as [|[[w Hw] ?]]; auto. right; split; auto; exists w; exact Hw.
      * destruct o as [w|]; [|destruct H]. apply HC in H as (t & -> & Hl & Hi). split; simpl; auto.
        intros [|i] ui vi; simpl; [intros [= ->] [= <-]; right; split; auto; exists w; reflexivity|].
        intros Hu Hv; destruct (Hi i ui vi Hu Hv) as [|[[u Hw] ?]]; auto. right; split; auto; exists u; exact Hw.
    + intros [Hl H]. destruct x as [|xi x]; simpl in Hl; try discriminate. injection Hl as Hl.
      assert (Hinc : incident m c x).
      { split; auto. intros i ui vi Hu Hv. destruct (H (S i) ui vi Hu Hv) as [|[Hb ?]]; auto. }
      destruct (H 0%nat ci xi eq_refl eq_refl) as [->|[[v Hv] ->]].
      * left; apply HC; eauto.
      * right. unfold binds in Hv; simpl in Hv; injection Hv as ->. apply HC; eauto.
Qed.

Lemma possible_cells_count m c : length m = length c ->
  length (possible_cells m c) = (2 ^ mask_count m)%nat.
Proof.
  intros HL. rewrite <- (enum_cells_length m c HL).
  apply Nat.le_antisymm; apply NoDup_incl_length.
  - apply possible_cells_NoDup.
  - intros x Hx; apply enum_cells_In; auto. apply possible_cells_In; auto.
  - apply enum_cells_NoDup.
  - intros x Hx; apply possible_cells_In; auto. apply enum_cells_In; auto.
Qed.

(** first_axis *)
Lemma first_axis_spec b m k :
  let r := first_axis b k m in
  (r = -1 /\ forall i o, nth_error m i = Some o -> is_some o <> b) \/
  (exists i o, r = k + Z.of_nat i /\ nth_error m i = Some o /\ is_some o = b /\
     forall j o', (j < i)%nat -> nth_error m j = Some o' -> is_some o' <> b).
Proof.
  revert k; induction m as [|o m IH]; intros k; simpl.
  - left; split; auto. intros [|i]; discriminate.
  - destruct (Bool.eqb (is_some o) b) eqn:E.
    + right. exists 0%nat, o. apply eqb_prop in E. repeat split; auto; lia.
    + assert (En : is_some o <> b) by (intros Hc; rewrite Hc, eqb_reflx in E; discriminate).
      destruct (IH (k + 1)) as [[H1 H2]|(i & o' & H1 & H2 & H3 & H4)].
      * left; split; auto. intros [|i] o'; simpl; [intros [= <-]; auto|apply H2].
      * right. exists (S i), o'. repeat split; auto; [lia|].
        intros [|j] o2 Hj; simpl; [intros [= <-]; auto|]. intros H; apply (H4 j o2); auto; lia.
Qed.
