(** C58 beyond power-of-two cubes: what the volumes of the factory's cells add up to. *)
From Verif Require Import Base Num Grid SmallestEdge SmallestEdgeProofs AdaptiveGrid AdaptiveFactory AdaptiveSpec AdaptiveProofs AdaptiveFaces AdaptiveMore AdaptiveFactoryProofs PropsAdaptive PropsAdaptive2 PropsAdaptive3.
Local Open Scope Z_scope.

Lemma filter_flat (A B : Type) (P : B -> bool) (g : A -> list B) l : filter P (flat_map g l) = flat_map (fun a => filter P (g a)) l.
Proof. induction l as [|a l IH]; cbn; auto. rewrite filter_app, IH. auto. Qed.
Lemma filter_all (A : Type) (P : A -> bool) l : (forall a, In a l -> P a = true) -> filter P l = l.
Proof. induction l as [|a l IH]; intros H; cbn; auto. rewrite (H a) by (left; auto). f_equal. apply IH. intros; apply H; right; auto. Qed.
Lemma filter_ext_in' (A : Type) (P Q : A -> bool) l : (forall a, In a l -> P a = Q a) -> filter P l = filter Q l.
Proof. induction l as [|a l IH]; intros H; cbn; auto. rewrite (H a (or_introl eq_refl)). rewrite IH; auto. intros; apply H; right; auto. Qed.
Lemma loop3_split n m q k : 0 <= n <= m -> loop3 (0, 0, 0) (m, q, k) = loop3 (0, 0, 0) (n, q, k) ++ loop3 (n, 0, 0) (m - n, q, k).
Proof.
  intros H. unfold loop3. rewrite <- flat_map_app. f_equal. replace (Z.to_nat m) with (Z.to_nat n + Z.to_nat (m - n))%nat by lia. rewrite zrange_app. f_equal. f_equal. lia.
Qed.
(** A grid whose second and third side are the power of two q and whose first side is smaller: the volumes add up to that of the inactive unit cells of the grid and of the (q - first side) q^2
    unit cells beyond it, so to too much. *)
Theorem c58_padded_refuted : forall s original ml q vol, (forall d, (d < 3)%nat -> 1 <= get3 s d) -> (exists d, (d < 3)%nat /\ 2 <= get3 s d) ->
  padded_side s q -> get3 s 1 = q -> get3 s 2 = q -> ml <> Some 0 -> (exists m, ml = Some m /\ 0 <= m /\ 2 ^ m < q) \/ (exists a, in_grid s a /\ original a = true) ->
  qsum (map (fun ib => cell_volume vol (snd ib)) (factory_cells s original ml)) =
  (vol * Z2Qc (Z.of_nat (length (filter (fun p => negb (original p)) (loop3 (0, 0, 0)%Z s))) + (q - get3 s 0) * q * q)%Z)%Qc.
Proof.
  intros s original ml q vol PS P2 PQ S1 S2 M0 HA. destruct (c24_any_shape s original ml q PS P2 PQ) as (C1 & C2 & C3). assert (C4 := fun p => c24_first_side_free s original ml q p PS P2 PQ S1 S2 M0 HA).
  assert (SQ : 1 <= get3 s 0 <= q) by (destruct PQ as (_ & B & _); split; [apply PS; lia|apply B; lia]).
  set (P := fun p => negb (in3 s p && original p)). assert (PT : forall p, P p = true <-> ~ (in_grid s p /\ original p = true)). { intros p. unfold P. rewrite negb_true_iff, andb_false_iff, <- in3_grid. destruct (in3 s p), (original p); intuition congruence. }
  assert (POS : forall i b, In (i, b) (factory_cells s original ml) -> 0 < snd b). { intros i b H. destruct (C3 i b H) as ((k & K0 & -> & _) & _). apply Z.pow_pos_nonneg; lia. }
  assert (CORN : forall i b, In (i, b) (factory_cells s original ml) -> in_box b (fst b)). { intros i b H. assert (X := POS i b H). intros d Hd. lia. }
  rewrite (c58_volumes_add_up (cube3 q) (factory_cells s original ml) P vol).
  - f_equal. f_equal. destruct s as [[s0 s1] s2]. cbn [get3] in *. subst s1 s2. unfold cube3. rewrite (loop3_split s0 q) by lia. rewrite filter_app, app_length, Nat2Z.inj_add. f_equal.
    + f_equal. f_equal. apply filter_ext_in'. intros p I. unfold P. apply loop3_In in I. 
      assert (G : in3 (s0, q, q) p = true). { apply in3_grid. unfold in_grid. rewrite all3. destruct p as [[x y] z]. cbn [get3] in *. try rewrite all3 in I. cbn [get3] in *. lia. } rewrite G. reflexivity.
    + rewrite filter_all.
      * rewrite loop3_length. cbn [get3]. nia.
      * intros p I. apply PT. intros [G _]. apply loop3_In in I. unfold in_grid in G. rewrite all3 in G. destruct p as [[x y] z]. try rewrite all3 in I. cbn [get3] in *. lia.
  - split; auto. intros i b H. split; [|split; [eauto|]].
    + destruct (C3 i b H) as (_ & EI & _ & B). destruct (B _ (CORN i b H)) as [G _]. rewrite EI. clear EI H. assert (X := index3_nonneg _ _ G). destruct s as [[s0 s1] s2], (fst b) as [[x y] z]. cbn [get3] in *. subst s1 s2. exact X.
    + intros p Bp. destruct (C3 i b H) as (_ & _ & _ & B). apply B. auto.
  - split.
    + intros i b p H Bp. destruct (C3 i b H) as (_ & _ & _ & B). destruct (B p Bp) as [G N]. split; auto. apply PT. auto.
    + intros p G N. apply C4; auto. apply PT. auto.
Qed.
(** in particular a 2x4x4 grid with one active cell: 63 unit volumes for its 31 inactive cells; and on 3x3x3 with two active cells 59 for 25, though one inactive cell is not covered at all *)
Theorem c58_factory_volume_refuted : forall vol,
  qsum (map (fun ib => cell_volume vol (snd ib)) (factory_cells (2, 4, 4) (fun p => c3_eqb p (0, 0, 0)) None)) = (vol * Z2Qc 63)%Qc /\
  length (filter (fun p => negb (c3_eqb p (0, 0, 0))) (loop3 (0, 0, 0) (2, 4, 4))) = 31%nat /\
  qsum (map (fun ib => cell_volume 1%Qc (snd ib)) (factory_cells (3, 3, 3) two_active None)) = Z2Qc 59 /\
  length (filter (fun p => negb (two_active p)) (loop3 (0, 0, 0) (3, 3, 3))) = 25%nat.
Proof.
  intros vol. split; [|split; [reflexivity|split; [apply Qc_is_canon; vm_compute; reflexivity|reflexivity]]].
  rewrite (c58_padded_refuted (2, 4, 4) _ None 4 vol).
  - f_equal.
  - rewrite all3. cbn. lia.
  - exists 0%nat. cbn. lia.
  - change 4 with (pow2 (lg (2, 4, 4))) at 3. apply padded_lg. rewrite all3. cbn. lia.
  - reflexivity.
  - reflexivity.
  - discriminate.
  - right. exists (0, 0, 0). split; [unfold in_grid; rewrite all3; cbn; lia|reflexivity].
Qed.
