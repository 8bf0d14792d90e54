(** C53: the loops the cell collapser keeps of faces with spurs. *)
From Verif Require Import Base Num SmallestEdge SmallestEdgeProofs DisjointSet DisjointSetSpec DisjointSetProofs
  FaceCollapser FaceCollapserProofs FaceCollapserIds FaceCollapserLoops FaceCollapserGeom CellCollapser CellCollapserSpec CellCollapserProofs CleanSpurs.
From Coq Require Import Relations Permutation.
Local Open Scope Z_scope.

(** a loop walks this edge in both directions: the edge belongs to a spur *)
Definition spur (C : loop) (a b : Z) : Prop := cyc_next C a b /\ cyc_next C b a.
(** an edge of the loop outside its spurs *)
Definition plain (C : loop) (a b : Z) : Prop := cyc_next C a b /\ ~ cyc_next C b a.
(** faces of distinct ids; no loop walks an edge twice in one direction or passes a vertex twice outside its spurs; an edge of one loop that is a spur of another is a spur of this one too *)
Definition own_spurs (faces : list (Z * list loop)) : Prop := NoDup (map fst faces) /\
  forall f ls C, In (f, ls) faces -> In C ls -> NoDup (cyc_pairs C) /\ (forall a b c, plain C a b -> plain C a c -> b = c) /\
    forall a b g ls' C', In (g, ls') faces -> In C' ls' -> spur C' a b -> cyc_next C a b -> spur C a b.

Lemma cfst (C : loop) : map fst (cyc_pairs C) = C.
Proof. destruct C as [|x t]; auto. unfold cyc_pairs. assert (G : forall (l l' : list Z), length l = length l' -> map fst (combine l l') = l) by (induction l as [|u l IH]; intros [|v l'] H; simpl in *; try discriminate; auto; f_equal; auto). apply G. rewrite app_length. simpl. lia. Qed.
Lemma csnd (C : loop) : Permutation (map snd (cyc_pairs C)) C.
Proof. destruct C as [|x t]; auto. unfold cyc_pairs. assert (G : forall (l l' : list Z), length l = length l' -> map snd (combine l l') = l') by (induction l as [|u l IH]; intros [|v l'] H; simpl in *; try discriminate; auto; f_equal; auto). rewrite G by (rewrite app_length; simpl; lia). symmetry. apply Permutation_cons_append. Qed.
Definition spurb (C : loop) (e : edge) : bool := mem_edge (swap_edge e) (cyc_pairs C).
Lemma spurb_iff C a b : spurb C (a, b) = true <-> cyc_next C b a.
Proof. unfold spurb. rewrite mem_edge_In, <- cyc_next_iff. reflexivity. Qed.
Lemma filter_and (A : Type) (p q : A -> bool) l : length (filter p l) = (length (filter (fun x => p x && q x) l) + length (filter (fun x => p x && negb (q x)) l))%nat.
Proof. induction l as [|x l IH]; simpl; auto. destruct (p x), (q x); simpl; rewrite IH; lia. Qed.
Lemma filter_fst_count (g : edge -> Z) v l : length (filter (fun e => g e =? v) l) = count_occ Z.eq_dec (map g l) v.
Proof. induction l as [|x l IH]; simpl; auto. destruct (Z.eqb_spec (g x) v), (Z.eq_dec (g x) v); simpl; congruence. Qed.
Lemma swap_swap e : swap_edge (swap_edge e) = e.
Proof. destruct e; reflexivity. Qed.
(** as many plain edges leave a vertex as enter it *)
Lemma plain_balance C v : NoDup (cyc_pairs C) ->
  length (filter (fun e => (fst e =? v) && negb (spurb C e)) (cyc_pairs C)) = length (filter (fun e => (snd e =? v) && negb (spurb C e)) (cyc_pairs C)).
Proof.
  intros ND. assert (T : length (filter (fun e => fst e =? v) (cyc_pairs C)) = length (filter (fun e => snd e =? v) (cyc_pairs C))).
  { rewrite (filter_fst_count (@fst Z Z)), (filter_fst_count (@snd Z Z)), cfst. symmetry. apply Permutation_count_occ. apply csnd. }
  rewrite (filter_and _ (fun e : edge => fst e =? v) (spurb C)), (filter_and _ (fun e : edge => snd e =? v) (spurb C)) in T.
  assert (SP : length (filter (fun e => (fst e =? v) && spurb C e) (cyc_pairs C)) = length (filter (fun e => (snd e =? v) && spurb C e) (cyc_pairs C))).
  { rewrite <- (map_length swap_edge). apply Permutation_length. apply NoDup_Permutation.
    - apply FinFun.Injective_map_NoDup; [intros x y E; rewrite <- (swap_swap x), E; apply swap_swap|apply NoDup_filter; auto].
    - apply NoDup_filter; auto.
    - intros e. rewrite in_map_iff, filter_In. split.
      + intros (y & <- & H). apply filter_In in H as [H1 H2]. apply andb_true_iff in H2 as [H2 H3]. destruct y as [a b]. unfold spurb in *. rewrite mem_edge_In in H3. split; auto.
        apply andb_true_iff. split; auto. rewrite mem_edge_In, swap_swap. auto.
      + intros [H1 H2]. apply andb_true_iff in H2 as [H2 H3]. exists (swap_edge e). split; [apply swap_swap|]. unfold spurb in *. rewrite mem_edge_In in H3. apply filter_In. split; auto.
        apply andb_true_iff. split; [destruct e; auto|]. rewrite mem_edge_In, swap_swap. auto. }
  cbn beta in *. unfold edge in *. lia.
Qed.
Lemma out_In C a b : In (a, b) (filter (fun e => (fst e =? a) && negb (spurb C e)) (cyc_pairs C)) <-> plain C a b.
Proof. rewrite filter_In, andb_true_iff, negb_true_iff, <- not_true_iff_false, spurb_iff, cyc_next_iff. cbn [fst]. rewrite Z.eqb_refl. unfold plain. tauto. Qed.
Lemma in_In C a b : In (a, b) (filter (fun e => (snd e =? b) && negb (spurb C e)) (cyc_pairs C)) <-> plain C a b.
Proof. rewrite filter_In, andb_true_iff, negb_true_iff, <- not_true_iff_false, spurb_iff, cyc_next_iff. cbn [snd]. rewrite Z.eqb_refl. unfold plain. tauto. Qed.
Lemma plain_closed C : NoDup (cyc_pairs C) -> (forall a b c, plain C a b -> plain C a c -> b = c) ->
  (forall a b c, plain C a c -> plain C b c -> a = b) /\ (forall a b, plain C a b -> exists c, plain C b c).
Proof.
  intros ND FU. assert (O1 : forall v : Z, (length (filter (fun e : edge => (fst e =? v)%Z && negb (spurb C e)) (cyc_pairs C)) <= 1)%nat).
  { intros v. set (l := filter (fun e : edge => (fst e =? v)%Z && negb (spurb C e)) (cyc_pairs C)). assert (NDl : NoDup l) by (apply NoDup_filter; auto). assert (V : forall e, In e l -> fst e = v /\ plain C v (snd e)).
    { intros [a b] H. assert (E : a = v) by (apply filter_In in H as [_ H]; apply andb_true_iff in H as [H _]; apply Z.eqb_eq in H; auto). subst a. split; auto. apply out_In; auto. }
    destruct l as [|[a b] [|[c d] l]]; simpl; try lia. exfalso. destruct (V (a, b)) as [E1 P1]; [simpl; auto|]. destruct (V (c, d)) as [E2 P2]; [simpl; auto|].
    cbn [fst snd] in *. assert (b = d) by eauto. subst. inversion NDl; subst. apply H1. simpl; auto. }
  split.
  - intros a b c Ha Hb. apply in_In in Ha, Hb. assert (L := O1 c). rewrite plain_balance in L by auto. destruct (filter _ _) as [|e [|e' l]]; simpl in *; try lia; try tauto. destruct Ha as [Ha|[]], Hb as [Hb|[]]. congruence.
  - intros a b H. apply in_In in H. assert (L := plain_balance C b ND). destruct (filter (fun e => (snd e =? b) && negb (spurb C e)) (cyc_pairs C)) as [|e l]; [destruct H|].
    destruct (filter (fun e => (fst e =? b) && negb (spurb C e)) (cyc_pairs C)) as [|[x y] l'] eqn:E; [discriminate|]. exists y. apply out_In.
    assert (Hx : In (x, y) ((x, y) :: l')) by (simpl; auto). rewrite <- E in Hx. apply filter_In in Hx as [H1 H2]. apply andb_true_iff in H2 as [H2 H3]. apply Z.eqb_eq in H2. cbn [fst] in H2. subst x.
    apply filter_In. split; auto. cbn [fst]. rewrite Z.eqb_refl, H3. auto.
Qed.
(** one loop: with only its own spurs set aside, the loops kept are exactly the loops through its plain edges, every vertex on one of them, and of three vertices at least *)
Theorem c53_loop : forall inv C Cs flaps inv', clean_unmanifold inv C = (Cs, flaps, inv') -> NoDup (cyc_pairs C) -> (forall a b c, plain C a b -> plain C a c -> b = c) ->
  (forall a b, In (a, b) inv -> cyc_next C a b -> spur C a b) ->
  (forall L a b, In L Cs -> cyc_next L a b -> plain C a b) /\
  (forall a b, plain C a b -> exists L, In L Cs /\ cyc_next L a b /\ (3 <= length L)%nat /\ forall L', In L' Cs -> In a L' -> L' = L).
Proof.
  intros inv C Cs flaps inv' H ND FU OWN.
  assert (EQ : forall a b, remaining inv' C a b <-> plain C a b).
  { intros a b. assert (I : In (a, b) inv' <-> In (a, b) (reversed_edges C) \/ In (a, b) inv).
    { unfold clean_unmanifold in H. injection H as _ _ <-. rewrite (fold_insert_In edge_total). tauto. }
    unfold remaining, plain. rewrite I, rev_In. unfold swap_edge. cbn [fst snd]. rewrite !cyc_next_iff. split.
    - intros [H1 N]. split; auto. intros H2. apply N. left. auto.
    - intros [H1 N]. split; auto. intros [(_ & H2 & _)|H2]; auto. apply N. apply (OWN a b); auto. }
  destruct (plain_closed C ND FU) as [IN CL]. destruct (clean_exact _ _ _ _ _ H) as [A B].
  - intros a b c. rewrite !EQ. apply FU.
  - intros a b c. rewrite !EQ. apply IN.
  - intros a b. rewrite !EQ. intros Hp. destruct (CL _ _ Hp) as (c & Hc). exists c. apply EQ; auto.
  - assert (A' : forall L a b, In L Cs -> cyc_next L a b -> plain C a b) by (intros; apply EQ; eauto). split; auto.
    intros a b Hp. apply EQ in Hp. destruct (B _ _ Hp) as (L & H1 & H2 & H3). exists L. split; auto. split; auto. split; auto.
    destruct L as [|x [|y [|z t]]]; cbn [length]; try lia; exfalso.
    + destruct H2 as (i & E & _). destruct i; discriminate.
    + assert (X : cyc_next [x] x x) by (exists 0%nat; auto). destruct (A' _ _ _ H1 X) as [P N]. auto.
    + assert (X : cyc_next [x; y] x y) by (exists 0%nat; auto). assert (Y : cyc_next [x; y] y x) by (exists 1%nat; auto). destruct (A' _ _ _ H1 X) as [_ N]. apply N. apply (A' _ _ _ H1 Y).
Qed.

(** ** all faces *)
Section Family.
  Variable Sp : Z -> Z -> Prop.
  Definition loops_ok (ls : list loop) : Prop := forall C, In C ls ->
    NoDup (cyc_pairs C) /\ (forall a b c, plain C a b -> plain C a c -> b = c) /\ (forall a b, spur C a b -> Sp a b) /\ forall a b, Sp a b -> cyc_next C a b -> spur C a b.
  Definition kept_right (ls kept : list loop) : Prop :=
    (forall L a b, In L kept -> cyc_next L a b -> exists C, In C ls /\ plain C a b) /\
    (forall C a b, In C ls -> plain C a b -> exists L, In L kept /\ cyc_next L a b).
  Lemma clean_face_right ls : forall inv cs flaps inv', loops_ok ls -> (forall a b, In (a, b) inv -> Sp a b) -> clean_face inv ls = (cs, flaps, inv') ->
    kept_right ls cs /\ (forall L, In L cs -> (3 <= length L)%nat) /\ forall a b, In (a, b) inv' -> Sp a b.
  Proof.
    unfold clean_face. assert (G : forall ls acc fl inv done cs flaps inv', loops_ok ls -> (forall a b, In (a, b) inv -> Sp a b) -> kept_right done acc -> (forall L, In L acc -> (3 <= length L)%nat) ->
      fold_left (fun '(acc, _, inv) C2 => let '(Cs, flaps, inv') := clean_unmanifold inv C2 in
        (fold_left (fun s C => if (length C <? 3)%nat then s else set_insert zlex C s) Cs acc, flaps, inv')) ls (acc, fl, inv) = (cs, flaps, inv') ->
      kept_right (done ++ ls) cs /\ (forall L, In L cs -> (3 <= length L)%nat) /\ forall a b, In (a, b) inv' -> Sp a b).
    { clear ls. induction ls as [|C ls IH]; intros acc fl inv done cs flaps inv' OK HI HK H3 H; cbn [fold_left] in H.
      - injection H as <- <- <-. rewrite app_nil_r. auto.
      - destruct (clean_unmanifold inv C) as [[Cs fl1] inv1] eqn:E. destruct (OK C ltac:(simpl; auto)) as (ND & FU & S1 & S2).
        destruct (c53_loop _ _ _ _ _ E ND FU) as [A B]; [intros a b Hab Hc; apply S2; auto|].
        replace (done ++ C :: ls) with ((done ++ [C]) ++ ls) by (rewrite <- app_assoc; auto).
        eapply IH; [..|exact H].
        + intros C' H'. apply OK. simpl; auto.
        + intros a b Hab. unfold clean_unmanifold in E. injection E as _ _ <-. apply (fold_insert_In edge_total) in Hab as [Hab|Hab]; auto.
          apply rev_In in Hab as (_ & R1 & R2). apply S1. unfold swap_edge in R1. cbn [fst snd] in R1. split; apply cyc_next_iff; auto.
        + destruct HK as [K1 K2]. split.
          * intros L a b HL Hab. apply insert_fold_In in HL as [HL|[HL _]].
            -- destruct (K1 _ _ _ HL Hab) as (C' & H1 & H2). exists C'. rewrite in_app_iff. auto.
            -- exists C. rewrite in_app_iff. simpl. split; eauto.
          * intros C' a b HC' Hp. apply in_app_iff in HC' as [HC'|[<-|[]]].
            -- destruct (K2 _ _ _ HC' Hp) as (L & H1 & H2). exists L. split; auto. apply insert_fold_In. auto.
            -- destruct (B _ _ Hp) as (L & H1 & H2 & H4 & _). exists L. split; auto. apply insert_fold_In. auto.
        + intros L HL. apply insert_fold_In in HL as [HL|[_ HL]]; auto. }
    intros inv cs flaps inv' OK HI H. apply (G ls [] [] inv [] cs flaps inv' OK HI); auto; [split; intros ? ? ? []|intros ? []].
  Qed.
  Lemma build_right faces : forall x, (forall f ls, In (f, ls) faces -> loops_ok ls) -> NoDup (map fst faces) -> ssorted Z.compare (keys (cc_faces x)) -> (forall a b, In (a, b) (cc_invalid x) -> Sp a b) ->
    let y := fold_left add_face faces x in
    (forall f, ~ In f (map fst faces) -> map_find Z.compare f (cc_faces y) = map_find Z.compare f (cc_faces x)) /\
    (forall f ls, In (f, ls) faces -> map_find Z.compare f (cc_faces x) = None ->
       exists kept, kept_right ls kept /\ (forall L, In L kept -> (3 <= length L)%nat) /\ map_find Z.compare f (cc_faces y) = match kept with [] => None | _ => Some kept end).
  Proof.
    induction faces as [|[g gl] faces IH]; intros x OK ND SK HI; cbn [fold_left]; [split; [auto|intros ? ? []]|].
    cbn [map fst] in ND. inversion ND as [|? ? NI ND']; subst.
    destruct (clean_face (cc_invalid x) gl) as [[cs fl] inv] eqn:E. destruct (clean_face_right gl _ _ _ _ (OK g gl ltac:(simpl; auto)) HI E) as (KR & K3 & HI').
    assert (X : ssorted Z.compare (keys (cc_faces (add_face x (g, gl)))) /\ cc_invalid (add_face x (g, gl)) = inv /\
      forall f, map_find Z.compare f (cc_faces (add_face x (g, gl))) = if f =? g then match cs with [] => map_find Z.compare f (cc_faces x) | _ => Some cs end else map_find Z.compare f (cc_faces x)).
    { unfold add_face. rewrite E. destruct cs as [|c cs]; cbn [cc_faces cc_invalid].
      - split; auto. split; auto. intros f. destruct (f =? g); auto.
      - split; [apply (map_set_sorted Zcompare_total); auto|]. split; auto. intros f. rewrite (map_find_set Zcompare_total) by auto. destruct (Z.compare_spec f g), (Z.eqb_spec f g); auto; lia. }
    destruct X as (SK' & EI & EF). destruct (IH (add_face x (g, gl))) as [A B]; auto; [intros f ls H; eapply OK; simpl; eauto|rewrite EI; auto|]. split.
    - intros f N. cbn [map fst] in N. rewrite A by (intros H; apply N; simpl; auto). rewrite EF. destruct (Z.eqb_spec f g) as [->|]; auto. exfalso. apply N. simpl; auto.
    - intros f ls [[= <- <-]|H] NF.
      + exists cs. split; auto. split; auto. rewrite A by auto. rewrite EF, Z.eqb_refl, NF. auto.
      + apply B; auto. rewrite EF. destruct (Z.eqb_spec f g) as [->|]; auto. exfalso. apply NI. apply (in_map fst) in H. auto.
  Qed.
End Family.
(** every face: the loops kept have three vertices at least and run over exactly the edges of the face's loops outside their spurs; a face left with none is dropped *)
Theorem c53_faces : forall faces, own_spurs faces -> forall f ls, In (f, ls) faces ->
  exists kept, map_find Z.compare f (cc_faces (cc_build faces)) = match kept with [] => None | _ => Some kept end /\ (forall L, In L kept -> (3 <= length L)%nat) /\
    (forall L a b, In L kept -> cyc_next L a b -> exists C, In C ls /\ plain C a b) /\ (forall C a b, In C ls -> plain C a b -> exists L, In L kept /\ cyc_next L a b).
Proof.
  intros faces [ND OS] f ls Hf. set (Sp := fun a b => exists g ls' C', In (g, ls') faces /\ In C' ls' /\ spur C' a b).
  destruct (build_right Sp faces (mkCC [] [] [] [])) as [_ B]; auto; try (constructor; fail); [|intros a b []|].
  - intros g gl Hg C HC. destruct (OS g gl C Hg HC) as (A1 & A2 & A3). split; auto. split; auto. split.
    + intros a b H. exists g, gl, C. auto.
    + intros a b (g' & ls' & C' & H1 & H2 & H3) H. eapply A3; eauto.
  - destruct (B f ls Hf eq_refl) as (kept & [K1 K2] & K3 & E). exists kept. auto.
Qed.
(** two triangles joined by a spur, next to a square: both triangles are kept, the spur is not *)
Example c53_faces_ex : own_spurs [(3, [[1; 2; 3; 1; 4; 5; 6; 4]]); (5, [[2; 7; 8; 3]])] /\ cc_faces (cc_build [(3, [[1; 2; 3; 1; 4; 5; 6; 4]]); (5, [[2; 7; 8; 3]])]) = [(3, [[1; 2; 3]; [4; 5; 6]]); (5, [[2; 7; 8; 3]])].
Proof.
  assert (CN : forall l a b, cyc_next l a b -> In (a, b) (cyc_pairs l)) by (intros; apply cyc_next_iff; auto).
  split; [|reflexivity]. split; [repeat constructor; simpl; lia|]. intros f ls C Hf HC. simpl in Hf. destruct Hf as [[= <- <-]|[[= <- <-]|[]]]; destruct HC as [<-|[]].
  - split; [cbn; repeat constructor; simpl; intuition congruence|]. split.
    + intros a b c [H1 N1] [H2 N2]. apply CN in H1, H2. rewrite <- cyc_next_iff in N1, N2. cbn in *. intuition congruence.
    + intros a b g ls' C' Hg HC' [S1 S2] H. simpl in Hg. destruct Hg as [[= <- <-]|[[= <- <-]|[]]]; destruct HC' as [<-|[]]; [split; auto|]. exfalso. apply CN in S1, S2. cbn in *. intuition congruence.
  - split; [cbn; repeat constructor; simpl; intuition congruence|]. split.
    + intros a b c [H1 N1] [H2 N2]. apply CN in H1, H2. cbn in *. intuition congruence.
    + intros a b g ls' C' Hg HC' [S1 S2] H. simpl in Hg. destruct Hg as [[= <- <-]|[[= <- <-]|[]]]; destruct HC' as [<-|[]]; [|split; auto]. exfalso. apply CN in S1, S2, H. cbn in *. intuition congruence.
Qed.
