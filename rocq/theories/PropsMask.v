(** Properties C01-C04: coord_mask. *)
From Verif Require Import Base CoordMask CoordMaskSpec CoordMaskProofs.
Local Open Scope Z_scope.

(** C01: a & b binds exactly the planes both bind. *)
Theorem c01_and_is_shared_planes : forall a b i v, length a = length b ->
  (binds (mask_and a b) i v <-> binds a i v /\ binds b i v).
Proof. exact mask_and_binds. Qed.
Theorem c01_and_comm : forall a b, length a = length b -> mask_and a b = mask_and b a.
Proof. exact mask_and_comm. Qed.
Theorem c01_and_assoc : forall a b c, length a = length b -> length b = length c ->
  mask_and a (mask_and b c) = mask_and (mask_and a b) c.
Proof. exact mask_and_assoc. Qed.
Theorem c01_and_idem : forall a, mask_and a a = a.
Proof. exact mask_and_idem. Qed.
(** it is below both (in the code's own order) and every mask below both is below it *)
Theorem c01_and_largest_subsumed : forall a b, length a = length b ->
  (subsumes a (mask_and a b) = true /\ subsumes b (mask_and a b) = true) /\
  forall m, length m = length a ->
    (subsumes (mask_and a b) m = true <-> subsumes a m = true /\ subsumes b m = true).
Proof. exact (fun a b H => conj (mask_and_lower a b H) (fun m => mask_and_glb a b m H)). Qed.
Example c01_ex : mask_and [Some 1; None; Some 3] [Some 1; Some 2; Some 4] = [Some 1; None; None]
  /\ length [Some 1; None; Some 3] = length [Some 1; Some 2; Some 4].
Proof. split; reflexivity. Qed.

(** C02 *)
Theorem c02_partial_ordering : forall a b, length a = length b ->
  (partial_ordering a b = POEqual <-> a = b) /\
  (partial_ordering a b = POGreater <-> planes_incl b a /\ ~ planes_incl a b) /\
  (partial_ordering a b = POLess <-> planes_incl a b /\ ~ planes_incl b a) /\
  (partial_ordering a b = POUnknown <-> ~ planes_incl a b /\ ~ planes_incl b a).
Proof. exact partial_ordering_spec. Qed.
Theorem c02_subsumes : forall a b, length a = length b -> (subsumes a b = true <-> planes_incl b a).
Proof. exact subsumes_spec. Qed.
Theorem c02_strict_subsumes : forall a b, length a = length b ->
  (strict_subsumes a b = true <-> planes_incl b a /\ a <> b).
Proof. exact strict_subsumes_spec. Qed.
(** equality of masks is equality of plane sets *)
Theorem c02_mask_is_plane_set : forall a b, length a = length b ->
  (forall i v, binds a i v <-> binds b i v) -> a = b.
Proof. exact mask_ext. Qed.
Example c02_ex : partial_ordering [Some 1; None; Some 3] [Some 1; None; None] = POGreater
  /\ partial_ordering [Some 1; None; None] [None; None; Some 3] = POUnknown
  /\ partial_ordering [None; Some 3] [Some 2; None] = POUnknown.
Proof. repeat split; reflexivity. Qed.

(** C03: difference as documented; union is NOT the documented union but the intersection. *)
Theorem c03_difference_partial : forall a b i v, length a = length b ->
  (binds (mask_sub a b) i v <-> binds a i v /\ ~ bound b i).
Proof. exact mask_sub_binds. Qed.
Theorem c03_union_is_intersection_partial : forall a b i v, length a = length b ->
  (binds (mask_or a b) i v <-> binds a i v /\ binds b i v).
Proof. intros a b i v H. rewrite mask_or_is_and. exact (mask_and_binds a b i v H). Qed.
(** the documented reading fails already in one dimension, even without conflicting planes *)
Theorem c03_union_refuted : exists a b i v, length a = length b /\
  (binds a i v \/ binds b i v) /\ ~ binds (mask_or a b) i v.
Proof. exists [Some 1], [None], 0%nat, 1. split; [reflexivity|]. split; [left; reflexivity|]. unfold binds; simpl; discriminate. Qed.
Example c03_ex : mask_sub [Some 1; Some 2; None] [Some 5; None; Some 3] = [None; Some 2; None].
Proof. reflexivity. Qed.

(** C04 *)
Theorem c04_possible_cells : forall m c, length m = length c ->
  (forall x, In x (possible_cells m c) <-> incident m c x) /\
  NoDup (possible_cells m c) /\ length (possible_cells m c) = (2 ^ length (filter (fun o => match o with Some _ => true | None => false end) m))%nat.
Proof.
  exact (fun m c H => conj (fun x => possible_cells_In m c x H)
    (conj (possible_cells_NoDup m c) (possible_cells_count m c H))).
Qed.
Example c04_ex : possible_cells [Some 1; None; Some 3] [1; 5; 3] = [[0; 5; 2]; [0; 5; 3]; [1; 5; 2]; [1; 5; 3]].
Proof. reflexivity. Qed.

(** C66: constructors and queries of a mask *)
Theorem c66_constructors : forall D i c (cs : coord),
  (forall j v, ~ binds (mask_reset D) j v) /\
  (forall m, mask_plane D i c = Some m -> length m = D /\ forall j v, binds m j v <-> j = i /\ v = c) /\ (mask_plane D i c = None <-> (D <= i)%nat) /\
  (forall j v, binds (mask_of_coord cs) j v <-> nth_error cs j = Some v) /\ as_array (mask_of_coord cs) = Some cs.
Proof.
  intros D i c cs. assert (R : forall D j x, nth_error (mask_reset D) j = Some x -> x = None). { unfold mask_reset. induction D0 as [|D0 IH]; intros [|j] x; simpl; try discriminate; [congruence|apply IH]. }
  split; [|split; [|split; [|split]]].
  - intros j v H. apply R in H. discriminate.
  - unfold mask_plane. intros m. revert i m. induction D as [|D IH]; intros i m; [destruct i; discriminate|]. simpl. destruct i as [|i].
    + intros [= <-]. split; [simpl; unfold mask_reset; rewrite repeat_length; auto|]. intros [|j] v; unfold binds; simpl; [split; [intros [= ->]; auto|intros [_ ->]; auto]|].
      split; [intros H; apply R in H; discriminate|intros [H _]; discriminate].
    + fold (mask_reset D). destruct (list_set (mask_reset D) i (Some c)) as [m'|] eqn:E; [|discriminate]. intros [= <-]. destruct (IH _ _ E) as [L B]. split; [simpl; auto|].
      intros [|j] v; unfold binds in *; simpl; [split; [discriminate|intros [H _]; discriminate]|]. rewrite B. split; intros [H ->]; auto.
  - unfold mask_plane. revert i. induction D as [|D IH]; intros [|i]; simpl; try (split; [auto; lia|auto; lia]); try (split; [discriminate|lia]). fold (mask_reset D). specialize (IH i). destruct (list_set (mask_reset D) i (Some c)); split; intros H; try discriminate; try (apply proj2 in IH; specialize (IH ltac:(lia)); discriminate); auto. apply proj1 in IH. specialize (IH eq_refl). lia.
  - intros j v. unfold binds, mask_of_coord. rewrite nth_error_map. destruct (nth_error cs j); simpl; split; congruence.
  - induction cs as [|x cs IH]; simpl; auto. fold (mask_of_coord cs). rewrite IH. auto.
Qed.
(** the axis queries return the first bound (unbound) axis, and -1 when there is none; with the documented count (1, resp. D-1) it is the only one *)
Theorem c66_axis : forall m b, let q := if b : bool then bound_axis m else unbound_axis m in let P i := (exists o, nth_error m i = Some o) /\ (if b then bound m i else ~ bound m i) in
  (q = -1 <-> forall i, ~ P i) /\ (forall i, q = Z.of_nat i <-> P i /\ forall j, (j < i)%nat -> ~ P j).
Proof.
  intros m b q P. assert (Q : q = first_axis b 0 m) by (unfold q; destruct b; auto).
  assert (EQP : forall i, P i <-> exists o, nth_error m i = Some o /\ is_some o = b).
  { intros i. unfold P, bound, binds. split.
    - intros [[o E] H]. exists o. split; auto. destruct b; [destruct H as [v H]; rewrite H in E; injection E as <-; auto|]. destruct o as [v|]; auto. exfalso. apply H. exists v. auto.
    - intros (o & E & H). split; [eauto|]. destruct b, o as [v|]; try discriminate; [exists v; auto|]. intros [v H']. congruence. }
  assert (G : forall m k, (first_axis b k m = -1 \/ k <= first_axis b k m) /\ (0 <= k -> (first_axis b k m = -1 <-> forall i o, nth_error m i = Some o -> is_some o <> b)) /\
    (0 <= k -> forall i, first_axis b k m = k + Z.of_nat i <-> (exists o, nth_error m i = Some o /\ is_some o = b) /\ forall j o, (j < i)%nat -> nth_error m j = Some o -> is_some o <> b)).
  { clear. induction m as [|o m IH]; intros k; simpl.
    - split; auto. split; [intros; split; auto; intros _ [|i] o; discriminate|]. intros K i. split; [lia|]. intros [(o & E & _) _]. destruct i; discriminate.
    - destruct (Bool.eqb (is_some o) b) eqn:E.
      + apply Bool.eqb_prop in E. split; [lia|]. split; [intros K; split; [lia|intros H; exfalso; apply (H 0%nat o); auto]|]. intros K i. split.
        * intros H. assert (i = 0%nat) by lia. subst. split; [exists o; auto|lia].
        * intros [_ H]. destruct i; [lia|]. exfalso. apply (H 0%nat o); auto; lia.
      + assert (N : is_some o <> b) by (intros X; rewrite X, Bool.eqb_reflx in E; discriminate). destruct (IH (k + 1)) as (I1 & I2 & I3). split; [lia|]. split.
        * intros K. rewrite I2 by lia. split; [intros H [|i] x; simpl; [congruence|apply H]|intros H i x E'; apply (H (S i) x); auto].
        * intros K [|i].
          -- split; [intros H; exfalso; destruct I1; lia|]. intros [(x & [= <-] & X) _]. contradiction.
          -- replace (k + Z.of_nat (S i)) with (k + 1 + Z.of_nat i) by lia. rewrite I3 by lia. split; intros [H1 H2]; split; auto.
             ++ intros [|j] x Hj; simpl; [congruence|]. apply H2. lia.
             ++ intros j x Hj Hx. apply (H2 (S j) x); auto. lia. }
  destruct (G m 0) as (_ & G2 & G3). rewrite Q. split.
  - rewrite (G2 ltac:(lia)). split; [intros H i Hi; apply EQP in Hi as (o & E & X); exact (H i o E X)|intros H i o E X; apply (H i); apply EQP; eauto].
  - intros i. specialize (G3 ltac:(lia) i). rewrite Z.add_0_l in G3. rewrite G3, <- EQP. split; intros [H1 H2]; split; auto.
    + intros j Hj HP. apply EQP in HP as (o & E & X). exact (H2 j o Hj E X).
    + intros j o Hj E X. apply (H2 j Hj). apply EQP. eauto.
Qed.
Theorem c66_counts : forall m, (mask_all m = true <-> forall i, (i < length m)%nat -> bound m i) /\ (mask_active m = true <-> exists i, bound m i) /\
  (mask_count m = length m <-> mask_all m = true) /\ (mask_count m = 0%nat <-> mask_active m = false) /\
  (forall c, as_array m = Some c <-> m = mask_of_coord c).
Proof.
  intros m. assert (FL : forall m, (mask_count m <= length m)%nat) by (unfold mask_count; induction m0 as [|o l IH]; simpl; [lia|destruct (is_some o); simpl; lia]).
  split; [|split; [|split; [|split]]].
  - unfold mask_all. rewrite forallb_forall. split.
    + intros H i Hi. destruct (nth_error m i) as [o|] eqn:E; [|apply nth_error_None in E; lia]. assert (X := H o (nth_error_In _ _ E)). destruct o as [v|]; [exists v; auto|discriminate].
    + intros H o I. apply In_nth_error in I as [i E]. assert (i < length m)%nat by (apply nth_error_Some; congruence). destruct (H i) as [v B]; auto. unfold binds in B. rewrite B in E. injection E as <-. auto.
  - unfold mask_active. rewrite existsb_exists. split.
    + intros (o & I & X). apply In_nth_error in I as [i E]. destruct o as [v|]; [|discriminate]. exists i, v. auto.
    + intros (i & v & B). exists (Some v). split; auto. eapply nth_error_In; eauto.
  - unfold mask_count, mask_all. induction m as [|o m IH]; simpl; [tauto|]. assert (F := FL m). unfold mask_count in F. destruct (is_some o); simpl; [rewrite <- IH; split; lia|split; [lia|discriminate]].
  - unfold mask_count, mask_active. induction m as [|o m IH]; simpl; [tauto|]. destruct (is_some o); simpl; [split; [lia|discriminate]|auto].
  - induction m as [|o m IH]; intros c; simpl; [split; [intros [= <-]; auto|destruct c; [auto|discriminate]]|]. destruct o as [v|]; [|split; [discriminate|destruct c; discriminate]].
    destruct (as_array m) as [c'|] eqn:E.
    + assert (X := proj1 (IH c') eq_refl). split; [intros [= <-]; simpl; rewrite X; auto|]. destruct c as [|a c]; [discriminate|]. intros H. injection H as E1 E2. apply (proj2 (IH c)) in E2. try discriminate E2; injection E2 as ->; subst a; auto.
    + split; [discriminate|]. destruct c as [|a c]; [discriminate|]. intros H. injection H as E1 E2. apply (proj2 (IH c)) in E2. try discriminate E2; injection E2 as ->; subst a; auto.
Qed.
Example c66_ex : bound_axis [None; Some 4; None] = 1 /\ unbound_axis [Some 0; Some 4; None] = 2 /\ mask_plane 3 1 7 = Some [None; Some 7; None].
Proof. repeat split; reflexivity. Qed.

(** C67: clamping a coordinate: bound axes take the plane's value, the others are untouched *)
Theorem c67_clamp_coord : forall m c, length m = length c -> length (clamp_coord m c) = length c /\
  (forall i v, binds m i v -> nth_error (clamp_coord m c) i = Some v) /\ (forall i, ~ bound m i -> nth_error (clamp_coord m c) i = nth_error c i).
Proof.
  intros m c L. unfold clamp_coord. split; [rewrite zipwith_length; lia|]. split.
  - intros i v B. rewrite nth_error_zipwith. unfold binds in B. rewrite B. destruct (nth_error c i) eqn:E; auto. apply nth_error_None in E. assert (i < length m)%nat by (apply nth_error_Some; congruence). lia.
  - intros i N. rewrite nth_error_zipwith. destruct (nth_error c i) as [x|] eqn:E; auto. destruct (nth_error m i) as [[v|]|] eqn:E'; auto; [exfalso; apply N; exists v; auto|].
    apply nth_error_None in E'. assert (i < length c)%nat by (apply nth_error_Some; congruence). lia.
Qed.
Example c67_ex : clamp_coord [Some 4; None] [1; 2] = [4; 2].
Proof. reflexivity. Qed.

Print Assumptions c01_and_is_shared_planes.
Print Assumptions c01_and_comm.
Print Assumptions c01_and_assoc.
Print Assumptions c01_and_idem.
Print Assumptions c01_and_largest_subsumed.
Print Assumptions c02_partial_ordering.
Print Assumptions c02_subsumes.
Print Assumptions c02_strict_subsumes.
Print Assumptions c02_mask_is_plane_set.
Print Assumptions c03_difference_partial.
Print Assumptions c03_union_is_intersection_partial.
Print Assumptions c03_union_refuted.
Print Assumptions c04_possible_cells.
Print Assumptions c66_constructors.
Print Assumptions c66_axis.
Print Assumptions c66_counts.
Print Assumptions c67_clamp_coord.
