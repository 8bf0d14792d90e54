(** C53: what clean_unmanifold (CellCollapser.v) keeps of a loop with spurs: the loops through the remaining edges. *)
From Verif Require Import Base Num SmallestEdge SmallestEdgeProofs DisjointSet DisjointSetSpec DisjointSetProofs
  FaceCollapser FaceCollapserProofs FaceCollapserIds FaceCollapserLoops FaceCollapserGeom CellCollapser CellCollapserSpec CellCollapserProofs.
From Coq Require Import Relations Permutation.
Local Open Scope Z_scope.

Section Follow.
  Variable nx : list (Z * Z).
  Hypothesis SK : ssorted Z.compare (keys nx).
  Let R a b := map_find Z.compare a nx = Some b.
  Hypothesis INJ : forall a a' b, R a b -> R a' b -> a = a'.
  Hypothesis CL : forall a b, R a b -> exists c, R b c.
  Definition chainR (l : list Z) := forall l1 a b l2, l = l1 ++ a :: b :: l2 -> R a b.
  Lemma chain_snoc q z c : chainR (q ++ [z]) -> R z c -> chainR ((q ++ [z]) ++ [c]).
  Proof.
    intros H Rz l1 a b l2 E. destruct l2 as [|w l2 _] using rev_ind.
    - replace (l1 ++ [a; b]) with ((l1 ++ [a]) ++ [b]) in E by (rewrite <- app_assoc; auto).
      apply app_inj_tail in E as [E <-]. apply app_inj_tail in E as [_ <-]. auto.
    - replace (l1 ++ a :: b :: l2 ++ [w]) with ((l1 ++ a :: b :: l2) ++ [w]) in E by (rewrite <- app_assoc; auto).
      apply app_inj_tail in E as [E _]. eapply H; eauto.
  Qed.
  Lemma R_key a b : R a b -> In a (keys nx).
  Proof. intros H. apply (map_find_Some Zcompare_total) in H; auto. unfold keys. apply in_map_iff. exists (a, b). auto. Qed.
  Lemma follow_cycle seen0 start (C0 : forall a b, R a b -> (In a seen0 <-> In b seen0)) fuel : forall q z cur sn t0,
    q ++ [z] = start :: t0 -> (forall x, In x sn <-> In x (q ++ [z]) \/ In x seen0) -> R z cur -> chainR (q ++ [z]) -> NoDup (q ++ [z]) ->
    (forall x, In x (q ++ [z]) -> In x (keys nx) /\ ~ In x seen0) -> (length (keys nx) < fuel + length (q ++ [z]))%nat ->
    exists q' z', (q ++ [z]) ++ follow fuel nx sn cur = q' ++ [z'] /\ R z' start /\ chainR (q' ++ [z']) /\ NoDup (q' ++ [z']) /\
      (forall x, In x (q' ++ [z']) -> In x (keys nx) /\ ~ In x seen0).
  Proof.
    induction fuel as [|fuel IH]; intros q z cur sn t0 ES HS Rz CH ND HK HF.
    - exfalso. assert (L := NoDup_incl_length ND (fun x H => proj1 (HK x H))). lia.
    - cbn [follow]. destruct (existsb (Z.eqb cur) sn) eqn:E.
      + rewrite app_nil_r. exists q, z. split; auto. split; auto. apply mem_z_In in E. apply HS in E as [E|E].
        * apply in_split in E as (l1 & l2 & E). destruct l1 as [|p l1 _] using rev_ind; [simpl in E; congruence|]. exfalso.
          rewrite <- app_assoc in E. cbn [app] in E. assert (Rp := CH _ _ _ _ E). assert (p = z) by eauto. subst p.
          destruct (exists_last (l := cur :: l2) ltac:(discriminate)) as (m & w & Em). rewrite Em in E. rewrite E in ND.
          replace (l1 ++ z :: m ++ [w]) with ((l1 ++ z :: m) ++ [w]) in E by (rewrite <- app_assoc; auto). apply app_inj_tail in E as [_ <-].
          apply NoDup_remove_2 in ND. apply ND. rewrite !in_app_iff. simpl; auto.
        * exfalso. apply (C0 _ _ Rz) in E. apply (proj2 (HK z ltac:(apply in_app_iff; simpl; auto))); auto.
      + assert (N : ~ In cur sn) by (rewrite <- mem_z_In; congruence). destruct (CL _ _ Rz) as (c & Rc). rewrite Rc.
        replace ((q ++ [z]) ++ cur :: follow fuel nx (cur :: sn) c) with (((q ++ [z]) ++ [cur]) ++ follow fuel nx (cur :: sn) c) by (rewrite <- app_assoc; auto).
        apply (IH (q ++ [z]) cur c (cur :: sn) (t0 ++ [cur])).
        * rewrite ES. reflexivity.
        * intros x. cbn [In]. rewrite HS, !in_app_iff. simpl. tauto.
        * auto.
        * apply chain_snoc; auto.
        * apply (Permutation_NoDup (Permutation_cons_append _ _)). constructor; auto. intros H. apply N, HS. auto.
        * intros x H. apply in_app_iff in H as [H|[<-|[]]]; auto. split; [eapply R_key; eauto|]. intros H. apply N, HS. auto.
        * rewrite app_length. cbn [length]. lia.
  Qed.
  Lemma chain_cyc q z start t0 : q ++ [z] = start :: t0 -> chainR (q ++ [z]) -> R z start -> forall a b, In (a, b) (cyc_pairs (q ++ [z])) -> R a b.
  Proof.
    intros E CH Rz a b H. destruct (cyc_split _ _ _ H) as [(l1 & l2 & E1)|(l1 & t & E1 & E2)]; [eapply CH; eauto|].
    apply app_inj_tail in E1 as [_ <-]. rewrite E in E2. injection E2 as <- _. auto.
  Qed.
  Lemma chain_all q z : (forall a b, In (a, b) (cyc_pairs (q ++ [z])) -> R a b) -> forall x, In x (q ++ [z]) -> exists y, In (x, y) (cyc_pairs (q ++ [z])).
  Proof.
    intros _ x H. apply In_nth_error in H as [i Hi]. set (l := q ++ [z]) in *. assert (L : (i < length l)%nat) by (apply nth_error_Some; congruence).
    destruct (nth_error l ((i + 1) mod length l)) as [y|] eqn:E; [|apply nth_error_None in E; assert (X := Nat.mod_upper_bound (i + 1) (length l) ltac:(lia)); lia].
    exists y. apply cyc_next_iff. exists i. auto.
  Qed.
  Lemma split_cycles todo : forall seen, (forall s n, In (s, n) todo -> R s n) -> (forall a b, R a b -> (In a seen <-> In b seen)) ->
    (forall L, In L (split_loops nx todo seen) -> L <> [] /\ (forall x, In x L -> ~ In x seen) /\ forall a b, In (a, b) (cyc_pairs L) -> R a b) /\
    (forall s n, In (s, n) todo -> In s seen \/ exists L, In L (split_loops nx todo seen) /\ In s L) /\
    (forall L L' x, In L (split_loops nx todo seen) -> In L' (split_loops nx todo seen) -> In x L -> In x L' -> L = L').
  Proof.
    induction todo as [|[s n] todo IH]; intros seen HT HC; [simpl; split; [intros ? []|split; [intros ? ? []|intros ? ? ? []]]|]. cbn [split_loops].
    destruct (existsb (Z.eqb s) seen) eqn:E.
    - apply mem_z_In in E. destruct (IH seen) as (A & B & C); auto; [intros; apply HT; simpl; auto|]. split; auto. split; auto.
      intros s' n' [[= <- <-]|H]; auto. eapply B; eauto.
    - assert (N : ~ In s seen) by (rewrite <- mem_z_In; congruence). assert (Rs : R s n) by (apply HT; simpl; auto).
      destruct (@follow_cycle seen s HC (2 * length nx + 2) [] s n (s :: seen) []) as (q & z & EQ & Rz & CH & ND & HK); auto.
      { intros x. cbn [app In]. tauto. }
      { intros l1 a b l2 H. destruct l1 as [|? [|]]; discriminate. }
      { repeat constructor. intros []. }
      { intros x [<-|[]]. split; auto. eapply R_key; eauto. }
      { unfold keys. rewrite map_length. cbn [length app]. lia. }
      cbn [app] in EQ. set (T := follow (2 * length nx + 2) nx (s :: seen) n) in *.
      assert (CY : forall a b, In (a, b) (cyc_pairs (s :: T)) -> R a b) by (rewrite EQ; intros; eapply chain_cyc; eauto).
      assert (MEM : forall x, In x (T ++ s :: seen) <-> In x (s :: T) \/ In x seen) by (intros x; rewrite in_app_iff; cbn [In]; tauto).
      assert (HC' : forall a b, R a b -> (In a (T ++ s :: seen) <-> In b (T ++ s :: seen))).
      { intros a b Rab. rewrite !MEM, (HC _ _ Rab). split; intros [H|H]; auto; left.
        - rewrite EQ in H. destruct (chain_all q z ltac:(rewrite <- EQ; exact CY) a H) as (y & Hy). rewrite <- EQ in Hy.
          assert (R a y) by auto. assert (y = b) by (unfold R in *; congruence). subst y. apply cyc_In in Hy. tauto.
        - apply In_nth_error in H as [i Hi]. set (l := s :: T) in *. assert (Li : (i < length l)%nat) by (apply nth_error_Some; congruence).
          assert (P : exists p, In (p, b) (cyc_pairs l)).
          { destruct i as [|i].
            - destruct (nth_error l (length l - 1)) as [p|] eqn:Ep; [|apply nth_error_None in Ep; lia]. exists p. apply cyc_next_iff. exists (length l - 1)%nat. split; auto.
              replace (length l - 1 + 1)%nat with (length l) by lia. rewrite Nat.mod_same by lia. auto.
            - destruct (nth_error l i) as [p|] eqn:Ep; [|apply nth_error_None in Ep; lia]. exists p. apply cyc_next_iff. exists i. split; auto. rewrite Nat.mod_small by lia. rewrite Nat.add_1_r. auto. }
          destruct P as (p & Hp). assert (p = a) by eauto. subst p. apply cyc_In in Hp. tauto. }
      destruct (IH (T ++ s :: seen)) as (A & B & C); auto; [intros; apply HT; simpl; auto|]. split; [|split].
      + intros L [<-|H].
        * split; [discriminate|]. split; auto. intros x Hx. rewrite EQ in Hx. apply HK in Hx. tauto.
        * destruct (A L H) as (A1 & A2 & A3). split; auto. split; auto. intros x Hx Hs. apply (A2 x Hx). apply MEM. auto.
      + intros s' n' [[= <- <-]|H]; [right; exists (s :: T); simpl; auto|]. destruct (B _ _ H) as [H1|(L & H1 & H2)]; [|right; exists L; simpl; auto].
        apply MEM in H1 as [H1|H1]; auto. right. exists (s :: T). simpl; auto.
      + intros L L' x [<-|H] [<-|H'] Hx Hx'; auto.
        * exfalso. destruct (A _ H') as (_ & A2 & _). apply (A2 x Hx'), MEM; auto.
        * exfalso. destruct (A _ H) as (_ & A2 & _). apply (A2 x Hx), MEM; auto.
        * eapply C; eauto.
  Qed.
End Follow.

(** the edges of a loop that are not set aside *)
Definition remaining (inv : list edge) (C : loop) (a b : Z) : Prop := cyc_next C a b /\ ~ In (a, b) inv.
Lemma next_spec inv C : (forall a b c, remaining inv C a b -> remaining inv C a c -> b = c) ->
  forall a b, map_find Z.compare a (next_map inv C) = Some b <-> remaining inv C a b.
Proof.
  intros FU. unfold next_map. assert (G : forall l nx, incl l (cyc_pairs C) -> ssorted Z.compare (keys nx) -> (forall a b, map_find Z.compare a nx = Some b -> remaining inv C a b) ->
    let r := fold_left (fun nx '(a, b) => if mem_edge (a, b) inv then nx else map_set Z.compare a b nx) l nx in
    (forall a b, map_find Z.compare a r = Some b -> remaining inv C a b) /\
    (forall a b, map_find Z.compare a nx = Some b \/ (In (a, b) l /\ ~ In (a, b) inv) -> map_find Z.compare a r = Some b)).
  { induction l as [|[x y] l IH]; intros nx HI HS HR; cbn [fold_left]; [split; auto; intros a b [H|[[] _]]; auto|].
    assert (XI : cyc_next C x y) by (apply cyc_next_iff, HI; simpl; auto). destruct (mem_edge (x, y) inv) eqn:E.
    - apply mem_edge_In in E. destruct (IH nx) as [A B]; auto; [intros e He; apply HI; simpl; auto|]. split; auto.
      intros a b [H|[[[= -> ->]|H] N]]; auto. contradiction.
    - assert (N : ~ In (x, y) inv) by (rewrite <- mem_edge_In; congruence).
      assert (HR' : forall a b, map_find Z.compare a (map_set Z.compare x y nx) = Some b -> remaining inv C a b).
      { intros a b. rewrite (map_find_set Zcompare_total) by auto. destruct (Z.compare_spec a x) as [->|H|H]; auto. intros [= <-]. split; auto. }
      destruct (IH (map_set Z.compare x y nx)) as [A B]; auto; [intros e He; apply HI; simpl; auto|apply (map_set_sorted Zcompare_total); auto|].
      split; auto. intros a b H. apply B. rewrite (map_find_set Zcompare_total) by auto.
      destruct H as [H|[[[= -> ->]|H] N']]; [|left; rewrite Z.compare_refl; auto|auto].
      left. destruct (Z.compare_spec a x) as [->|H1|H1]; auto. f_equal. apply (FU x); [split; auto|auto]. }
  destruct (G (cyc_pairs C) []) as [A B]; [apply incl_refl|constructor|discriminate|]. intros a b. split; auto.
  intros [H N]. apply B. right. split; auto. apply cyc_next_iff; auto.
Qed.
(** cleaning: if the remaining edges leave and enter every vertex at most once and never stop, the loops kept are exactly the loops through them *)
Lemma clean_exact inv C Cs flaps inv' : clean_unmanifold inv C = (Cs, flaps, inv') ->
  (forall a b c, remaining inv' C a b -> remaining inv' C a c -> b = c) -> (forall a b c, remaining inv' C a c -> remaining inv' C b c -> a = b) ->
  (forall a b, remaining inv' C a b -> exists c, remaining inv' C b c) ->
  (forall L a b, In L Cs -> cyc_next L a b -> remaining inv' C a b) /\
  (forall a b, remaining inv' C a b -> exists L, In L Cs /\ cyc_next L a b /\ forall L', In L' Cs -> In a L' -> L' = L).
Proof.
  unfold clean_unmanifold. intros H FU IN CL. injection H as H1 _ H3. rewrite H3 in H1. assert (NS := next_spec inv' C FU). destruct (next_keys inv' C) as [SK KI]. set (nx := next_map inv' C) in *.
  destruct inv' as [|i0 inv0].
  - subst Cs. split.
    + intros L a b [<-|[]] H. split; auto.
    + intros a b [H _]. exists C. split; [simpl; auto|]. split; auto. intros L' [<-|[]]; auto.
  - set (inv' := i0 :: inv0) in *. destruct (Nat.ltb_spec (length nx) (length C)) as [HL|HL].
    + subst Cs. destruct (@split_cycles nx SK) with (todo := nx) (seen := @nil Z) as (A & B & D).
      { intros a a' b Ha Ha'. apply NS in Ha, Ha'. eauto. }
      { intros a b Ha. apply NS in Ha. destruct (CL _ _ Ha) as (c & Hc). exists c. apply NS; auto. }
      { intros s n Hs. apply (map_find_Some Zcompare_total); auto. }
      { intros a b _. simpl. tauto. }
      split.
      * intros L a b HC Hab. rewrite (set_of_list_In zlex_total) in HC. apply NS. apply (proj2 (proj2 (A L HC))). apply cyc_next_iff; auto.
      * intros a b Hab. assert (F := proj2 (NS a b) Hab). assert (Fi := F). apply (map_find_Some Zcompare_total) in Fi; auto.
        destruct (B _ _ Fi) as [[]|(L & HL1 & HaL)]. exists L. split; [rewrite (set_of_list_In zlex_total); auto|]. split.
        -- apply In_nth_error in HaL as [i Hi]. assert (Li : (i < length L)%nat) by (apply nth_error_Some; congruence).
           destruct (nth_error L ((i + 1) mod length L)) as [y|] eqn:E; [|apply nth_error_None in E; assert (X := Nat.mod_upper_bound (i + 1) (length L) ltac:(lia)); lia].
           assert (HY : cyc_next L a y) by (exists i; auto). assert (HR : map_find Z.compare a nx = Some y) by (apply (proj2 (proj2 (A L HL1))), cyc_next_iff; auto).
           assert (y = b) by congruence. subst y. auto.
        -- intros L' HL' Ha'. rewrite (set_of_list_In zlex_total) in HL'. eapply D; eauto.
    + subst Cs. assert (LK : (length C <= length (keys nx))%nat) by (unfold keys; rewrite map_length; auto).
      assert (NDK := ssorted_NoDup Zcompare_total SK). assert (ND : NoDup C) by (eapply NoDup_incl_NoDup; eauto).
      assert (CK : incl C (keys nx)) by (apply NoDup_length_incl; auto).
      assert (AL : forall a b, cyc_next C a b -> remaining inv' C a b).
      { intros a b (i & E1 & E2). assert (Ha : In a (keys nx)) by (apply CK; eapply nth_error_In; eauto).
        destruct (map_find Z.compare a nx) as [y|] eqn:F; [|apply (map_find_None Zcompare_total) in F; auto; contradiction].
        apply NS in F. destruct F as [(j & F1 & F2) F3]. assert (i = j).
        { apply (proj1 (NoDup_nth_error C) ND); [apply nth_error_Some; congruence|congruence]. }
        subst j. assert (y = b) by congruence. subst y. split; auto. exists i. auto. }
      split.
      * intros L a b [<-|[]] H. auto.
      * intros a b [H _]. exists C. split; [simpl; auto|]. split; auto. intros L' [<-|[]]; auto.
Qed.
