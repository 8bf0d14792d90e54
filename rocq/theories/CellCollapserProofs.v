From Verif Require Import Base Num SmallestEdge SmallestEdgeProofs DisjointSet DisjointSetSpec DisjointSetProofs
  FaceCollapser FaceCollapserProofs FaceCollapserIds FaceCollapserLoops FaceCollapserGeom CellCollapser CellCollapserSpec.
From Coq Require Import Relations Permutation.
Local Open Scope Z_scope.

Lemma hf_total : TotalCmp hf_cmp.
Proof. apply pair_cmp_total; [apply Zcompare_total|apply edge_total]. Qed.
Lemma mem_edge_In e l : mem_edge e l = true <-> In e l.
Proof.
  unfold mem_edge. rewrite existsb_exists. split; [intros (y & Hy & E); apply edge_eqb_eq in E; subst; auto|].
  intros H; exists e; split; auto. apply edge_eqb_eq; auto.
Qed.
Lemma mem_z_In x l : existsb (Z.eqb x) l = true <-> In x l.
Proof.
  rewrite existsb_exists. split; [intros (y & Hy & E); apply Z.eqb_eq in E; subst; auto|].
  intros H; exists x; split; auto. apply Z.eqb_refl.
Qed.

Lemma cyc_next_iff l a b : In (a, b) (cyc_pairs l) <-> cyc_next l a b.
Proof.
  destruct l as [|x t]; [split; [intros []|intros (i & E & _); destruct i; discriminate]|].
  unfold cyc_pairs, cyc_next.
  assert (N : forall i, (i < length (x :: t))%nat -> nth_error (t ++ [x]) i = nth_error (x :: t) ((i + 1) mod length (x :: t))).
  { intros i Hi. simpl length in *. destruct (Nat.eq_dec i (length t)) as [->|Hne].
    - rewrite nth_error_app2, Nat.sub_diag by lia. rewrite Nat.add_1_r, Nat.mod_same by lia. auto.
    - rewrite nth_error_app1 by lia. rewrite Nat.add_1_r, Nat.mod_small by lia. auto. }
  assert (CB : forall (l l' : list Z) i, nth_error (combine l l') i = match nth_error l i, nth_error l' i with Some u, Some v => Some (u, v) | _, _ => None end).
  { induction l as [|u l IH]; intros [|v l'] [|i]; simpl; auto. destruct (nth_error l i); auto. }
  split.
  - intros H. apply In_nth_error in H as [i Hi]. rewrite CB in Hi. exists i.
    destruct (nth_error (x :: t) i) eqn:E; [|discriminate]. assert (i < length (x :: t))%nat by (apply nth_error_Some; congruence).
    rewrite <- N by auto. destruct (nth_error (t ++ [x]) i); [|discriminate]. injection Hi as -> ->. auto.
  - intros (i & E1 & E2). assert (i < length (x :: t))%nat by (apply nth_error_Some; congruence). rewrite <- N in E2 by auto.
    eapply nth_error_In. rewrite CB, E1, E2. reflexivity.
Qed.
Lemma cyc_noself l a b : NoDup l -> (2 <= length l)%nat -> In (a, b) (cyc_pairs l) -> a <> b.
Proof.
  intros ND L H ->. destruct (cyc_split _ _ _ H) as [(l1 & l2 & E)|(l1 & t & E & E')].
  - rewrite E in ND. apply NoDup_remove_2 in ND. apply ND, in_app_iff; simpl; auto.
  - rewrite E in ND, E', L. destruct l1 as [|c l1]; [simpl in L; lia|]. injection E' as -> _. inversion ND; subst. apply H2, in_app_iff; simpl; auto.
Qed.
Lemma cyc_In l a b : In (a, b) (cyc_pairs l) -> In a l /\ In b l.
Proof. intros H. apply cyc_next_iff in H as (i & E1 & E2). split; eapply nth_error_In; eauto. Qed.

(** *** clean_unmanifold *)
Lemma rev_In C e : In e (reversed_edges C) <->
  (In e (cyc_pairs C) \/ In (swap_edge e) (cyc_pairs C)) /\ In (swap_edge e) (cyc_pairs C) /\ In e (cyc_pairs C).
Proof.
  unfold reversed_edges. rewrite in_flat_map. split.
  - intros ([a b] & H & Hin). destruct (mem_edge (b, a) (cyc_pairs C)) eqn:E; [|destruct Hin]. apply mem_edge_In in E.
    destruct Hin as [<-|[<-|[]]]; unfold swap_edge; simpl; auto.
  - intros (_ & H1 & H2). exists e. split; auto. destruct e as [a b]. unfold swap_edge in H1; simpl in H1.
    rewrite (proj2 (mem_edge_In (b, a) _) H1). simpl; auto.
Qed.
Lemma next_keys inv C : ssorted Z.compare (keys (next_map inv C)) /\ incl (keys (next_map inv C)) C.
Proof.
  unfold next_map. assert (G : forall l (nx : list (Z * Z)), (forall a b, In (a, b) l -> In a C) -> ssorted Z.compare (keys nx) -> incl (keys nx) C ->
    let r := fold_left (fun nx '(a, b) => if mem_edge (a, b) inv then nx else map_set Z.compare a b nx) l nx in
    ssorted Z.compare (keys r) /\ incl (keys r) C).
  { induction l as [|[a b] l IH]; intros nx Hl HS HI; [simpl; auto|]. cbn [fold_left]. apply IH.
    - intros; eapply Hl; simpl; eauto.
    - destruct (mem_edge _ _); auto. apply (map_set_sorted Zcompare_total); auto.
    - destruct (mem_edge _ _); auto. intros x Hx. rewrite map_set_keys in Hx. apply (set_insert_In Zcompare_total) in Hx as [->|Hx]; auto.
      eapply Hl; simpl; eauto. }
  apply G; [|constructor|intros ? []]. intros a b H. apply cyc_In in H. tauto.
Qed.
Lemma follow_NoDup fuel nx : forall seen cur, NoDup (follow fuel nx seen cur) /\ forall x, In x (follow fuel nx seen cur) -> ~ In x seen.
Proof.
  induction fuel as [|fuel IH]; intros seen cur; simpl; [split; [constructor|intros ? []]|].
  destruct (existsb (Z.eqb cur) seen) eqn:E; [split; [constructor|intros ? []]|].
  destruct (IH (cur :: seen) (match map_find Z.compare cur nx with Some n => n | None => 0 end)) as [I1 I2].
  assert (N : ~ In cur seen) by (rewrite <- mem_z_In; congruence). split.
  - constructor; auto. intros H. apply (I2 _ H). simpl; auto.
  - intros x [<-|Hx]; auto. intros H. apply (I2 _ Hx). simpl; auto.
Qed.
Lemma split_NoDup nx todo : forall seen C, In C (split_loops nx todo seen) -> NoDup C.
Proof.
  induction todo as [|[s n] todo IH]; intros seen C; cbn [split_loops]; [intros []|].
  destruct (existsb (Z.eqb s) seen); [apply IH|]. intros [<-|H]; [|eapply IH; eauto].
  destruct (follow_NoDup (2 * length nx + 2) nx (s :: seen) n) as [I1 I2]. constructor; auto. intros H. apply (I2 _ H). simpl; auto.
Qed.
Lemma clean_noself inv C Cs flaps inv' : clean_unmanifold inv C = (Cs, flaps, inv') ->
  (forall C', In C' Cs -> (3 <= length C')%nat -> forall a b, In (a, b) (cyc_pairs C') -> a <> b) /\
  (forall e, In e flaps -> fst e <> snd e).
Proof.
  unfold clean_unmanifold. intros H. injection H as H1 <- H3.
  set (nx := next_map (fold_left (fun s e => set_insert edge_cmp e s) (reversed_edges C) inv) C) in *.
  split.
  - destruct (next_keys (fold_left (fun s e => set_insert edge_cmp e s) (reversed_edges C) inv) C) as [NS NI]. fold nx in NS, NI.
    rewrite H3 in H1. destruct inv' as [|i0 inv'].
    + subst Cs. intros C' [<-|[]] L a b Hab ->.
      assert (HR : In (b, b) (reversed_edges C)) by (apply rev_In; unfold swap_edge; simpl; auto).
      assert (HI : In (b, b) (fold_left (fun s e => set_insert edge_cmp e s) (reversed_edges C) inv)).
      { apply (fold_insert_In edge_total). auto. }
      rewrite H3 in HI. destruct HI.
    + destruct (Nat.ltb_spec (length nx) (length C)) as [HL|HL].
      * subst Cs. intros C' HC L a b Hab. rewrite (set_of_list_In zlex_total) in HC. apply split_NoDup in HC.
        eapply cyc_noself; eauto. lia.
      * subst Cs. intros C' [<-|[]] L a b Hab. eapply cyc_noself; eauto; [|lia].
        apply (@NoDup_incl_NoDup Z (keys nx) C); auto; [apply (ssorted_NoDup Zcompare_total); auto|]. unfold keys. rewrite map_length. auto.
  - intros e He. rewrite (set_of_list_In edge_total) in He. apply filter_In in He as [_ He]. apply Z.ltb_lt in He. lia.
Qed.
Lemma insert_fold_In Cs : forall acc C, In C (fold_left (fun s C => if (length C <? 3)%nat then s else set_insert zlex C s) Cs acc) <->
  In C acc \/ (In C Cs /\ (3 <= length C)%nat).
Proof.
  induction Cs as [|D Cs IH]; intros acc C; simpl; [tauto|]. rewrite IH. destruct (Nat.ltb_spec (length D) 3).
  - split; [tauto|]. intros [?|[[->|?] ?]]; auto. lia.
  - rewrite (set_insert_In zlex_total). split; [intros [[->|?]|[? ?]]; auto|intros [?|[[->|?] ?]]; auto].
Qed.
Lemma clean_face_noself inv loops cs flaps inv' : clean_face inv loops = (cs, flaps, inv') ->
  (forall C, In C cs -> (3 <= length C)%nat /\ forall a b, In (a, b) (cyc_pairs C) -> a <> b) /\ (forall e, In e flaps -> fst e <> snd e).
Proof.
  unfold clean_face.
  assert (G : forall loops acc fl inv, (forall C, In C acc -> (3 <= length C)%nat /\ forall a b, In (a, b) (cyc_pairs C) -> a <> b) ->
    (forall e, In e fl -> fst e <> snd e) ->
    fold_left (fun '(acc, _, inv) C2 =>
      let '(Cs, flaps, inv') := clean_unmanifold inv C2 in
      (fold_left (fun s C => if (length C <? 3)%nat then s else set_insert zlex C s) Cs acc, flaps, inv')) loops (acc, fl, inv) = (cs, flaps, inv') ->
    (forall C, In C cs -> (3 <= length C)%nat /\ forall a b, In (a, b) (cyc_pairs C) -> a <> b) /\ (forall e, In e flaps -> fst e <> snd e)).
  { clear. induction loops as [|C2 loops IH]; intros acc fl inv HA HF H; cbn [fold_left] in H; [injection H as <- <- <-; auto|].
    destruct (clean_unmanifold inv C2) as [[Cs f2] i2] eqn:E. destruct (clean_noself _ _ _ _ _ E) as [N1 N2].
    refine (IH _ _ _ _ _ H); auto. intros C HC. apply insert_fold_In in HC as [HC|[HC L]]; [apply HA; auto|split; [auto|exact (N1 C HC L)]]. }
  apply G; [intros ? []|intros ? []].
Qed.

(** *** the half-face map *)
Record hf_wf (m : hfmap) (S : Z -> Prop) : Prop := {
  hw_sorted : ssorted hf_cmp (keys m);
  hw_val : forall f e c s, map_find hf_cmp (f, e) m = Some (c, s) -> S f /\ fst e <> snd e /\ c = 100 * f + (if s then 0 else 1);
  hw_pair : forall f e c s, map_find hf_cmp (f, e) m = Some (c, s) -> exists c', map_find hf_cmp (f, swap_edge e) m = Some (c', negb s);
  hw_ex : forall f, S f -> exists e c, map_find hf_cmp (f, e) m = Some (c, true) }.

Lemma hfcmp_eq f e f' e' : hf_cmp (f, e) (f', e') = Eq <-> f = f' /\ e = e'.
Proof. rewrite (tc_eq hf_total). split; [intros [=]; auto|intros [-> ->]; auto]. Qed.
Lemma find_set2 m f e h : ssorted hf_cmp (keys m) -> fst e <> snd e ->
  map_find hf_cmp h (map_set hf_cmp (f, swap_edge e) (100 * f + 1, false) (map_set hf_cmp (f, e) (100 * f, true) m)) =
  if edge_eqb (snd h) e && (fst h =? f) then Some (100 * f, true)
  else if edge_eqb (snd h) (swap_edge e) && (fst h =? f) then Some (100 * f + 1, false) else map_find hf_cmp h m.
Proof.
  intros HS HN. rewrite (map_find_set hf_total) by (apply (map_set_sorted hf_total); auto). rewrite (map_find_set hf_total) by auto.
  destruct h as [g e']. cbn [fst snd].
  assert (NE : e <> swap_edge e) by (destruct e; unfold swap_edge; simpl in *; congruence).
  assert (CE : forall e0, hf_cmp (g, e') (f, e0) = Eq <-> edge_eqb e' e0 && (g =? f) = true).
  { intros e0. rewrite hfcmp_eq, andb_true_iff, edge_eqb_eq, Z.eqb_eq. tauto. }
  assert (T : forall e0 (X Y : option (Z * bool)), match hf_cmp (g, e') (f, e0) with Eq => X | _ => Y end = if edge_eqb e' e0 && (g =? f) then X else Y).
  { intros e0 X Y. specialize (CE e0). destruct (hf_cmp (g, e') (f, e0)), (edge_eqb e' e0 && (g =? f)); auto; try (destruct CE as [C1 C2]; discriminate (C1 eq_refl) || discriminate (C2 eq_refl)). }
  rewrite !T. destruct (edge_eqb e' e && (g =? f)) eqn:E1, (edge_eqb e' (swap_edge e) && (g =? f)) eqn:E2; auto.
  exfalso. apply andb_true_iff in E1 as [E1 _], E2 as [E2 _]. apply edge_eqb_eq in E1, E2. congruence.
Qed.
Lemma swap_eqb a b : edge_eqb (swap_edge a) b = edge_eqb a (swap_edge b).
Proof. destruct a, b; unfold edge_eqb, swap_edge; simpl. apply andb_comm. Qed.
Lemma add_hf_wf m S f e o : hf_wf m S -> fst e <> snd e ->
  hf_wf (fst (add_halfface f (m, o) e)) (fun g => S g \/ g = f).
Proof.
  intros [H1 H2 H3 H4] HN. unfold add_halfface; cbn [fst snd].
  assert (F := fun h => find_set2 m f e h H1 HN).
  set (m' := map_set hf_cmp (f, swap_edge e) (100 * f + 1, false) (map_set hf_cmp (f, e) (100 * f, true) m)) in *.
  assert (SW : swap_edge (swap_edge e) = e) by (destruct e; auto).
  assert (NS : fst (swap_edge e) <> snd (swap_edge e)) by (destruct e; simpl in *; congruence).
  constructor.
  - unfold m'. do 2 apply (map_set_sorted hf_total). auto.
  - intros g e' c s E. rewrite F in E. cbn [fst snd] in E.
    destruct (edge_eqb e' e && (g =? f)) eqn:E1.
    + apply andb_true_iff in E1 as [E1 E2]. apply edge_eqb_eq in E1. apply Z.eqb_eq in E2. subst. apply some_inj, pair_equal_spec in E as [<- <-]. split; [auto|split; [auto|lia]].
    + destruct (edge_eqb e' (swap_edge e) && (g =? f)) eqn:E2.
      * apply andb_true_iff in E2 as [E2 E3]. apply edge_eqb_eq in E2. apply Z.eqb_eq in E3. subst. apply some_inj, pair_equal_spec in E as [<- <-]. auto.
      * apply H2 in E. tauto.
  - intros g e' c s E. rewrite F in E |- *. cbn [fst snd] in E |- *. rewrite !swap_eqb, SW.
    destruct (edge_eqb e' e && (g =? f)) eqn:E1, (edge_eqb e' (swap_edge e) && (g =? f)) eqn:E2.
    + apply some_inj, pair_equal_spec in E as [<- <-]. simpl. exfalso. apply andb_true_iff in E1 as [E1 _], E2 as [E2 _]. apply edge_eqb_eq in E1, E2. apply HN. rewrite E1 in E2. exact (f_equal fst E2).
    + apply some_inj, pair_equal_spec in E as [<- <-]. simpl. eauto.
    + apply some_inj, pair_equal_spec in E as [<- <-]. simpl. eauto.
    + eapply H3; eauto.
  - intros g [Hg| ->].
    + destruct (Z.eq_dec g f) as [->|Hne].
      * exists e, (100 * f). rewrite F. cbn [fst snd]. rewrite (proj2 (edge_eqb_eq e e)), Z.eqb_refl; auto.
      * destruct (H4 g Hg) as (e' & c & E). exists e', c. rewrite F. cbn [fst snd]. rewrite (proj2 (Z.eqb_neq g f)), !andb_false_r by auto. auto.
    + exists e, (100 * f). rewrite F. cbn [fst snd]. rewrite (proj2 (edge_eqb_eq e e)), Z.eqb_refl; auto.
Qed.

Definition ops_wf (o : list ds_op) (S : Z -> Prop) : Prop :=
  (forall a b, ~ In (OpJoin a b) o) /\ forall x, added o x <-> exists f s, S f /\ x = 100 * f + (if s : bool then 0 else 1).
Lemma hf_wf_ext m (S S' : Z -> Prop) : (forall f, S f <-> S' f) -> hf_wf m S -> hf_wf m S'.
Proof.
  intros H [H1 H2 H3 H4]. constructor; auto.
  - intros f e c s E. apply H2 in E. rewrite <- H. auto.
  - intros f Hf. apply H4, H; auto.
Qed.
Lemma fold_add_wf f es : forall m o S, hf_wf m S -> ops_wf o S -> (forall e, In e es -> fst e <> snd e) ->
  let y := fold_left (add_halfface f) es (m, o) in let S' := fun g => S g \/ (g = f /\ es <> []) in
  hf_wf (fst y) S' /\ ops_wf (snd y) S'.
Proof.
  induction es as [|e es IH]; intros m o S HM HO HN.
  - cbn. split; [eapply hf_wf_ext; [|exact HM]; intros; split; [auto|intros [?|[_ ?]]; [auto|congruence]]|].
    destruct HO as [O1 O2]. split; auto. intros x. rewrite O2. split; intros (g & s & Hg & ->); exists g, s; split; auto.
    destruct Hg as [?|[_ ?]]; [auto|congruence].
  - cbn [fold_left].
    assert (W := add_hf_wf m S f e o HM (HN e (or_introl eq_refl))).
    assert (O : ops_wf (o ++ [OpAdd (100 * f); OpAdd (100 * f + 1)]) (fun g => S g \/ g = f)).
    { destruct HO as [O1 O2]. split.
      - intros a b Hin. apply in_app_iff in Hin as [Hin|[?|[?|[]]]]; try discriminate. eapply O1; eauto.
      - intros x. rewrite added_app, O2. cbn [added]. split.
        + intros [(g & s & Hg & ->)|[->|[->|[]]]]; [exists g, s; auto|exists f, true; split; auto; lia|exists f, false; auto].
        + intros (g & s & [Hg| ->] & ->); [left; exists g, s; auto|]. right. destruct s; [left; lia|right; left; lia]. }
    specialize (IH _ _ _ W O (fun e0 H => HN e0 (or_intror H))). cbn [fst snd add_halfface] in IH.
    unfold add_halfface at 2 4. cbn [fst snd] in *. destruct IH as [I1 I2]. split.
    + eapply hf_wf_ext; [|exact I1]. intros g. cbv beta. split; [intros [[?|?]|[? ?]]; auto; right; split; auto; discriminate|intros [?|[? _]]; auto].
    + destruct I2 as [O1 O2]. split; auto. intros x. rewrite O2. split; intros (g & s & Hg & ->); exists g, s; split; auto.
      * destruct Hg as [[?|?]|[? ?]]; auto; right; split; auto; discriminate.
      * destruct Hg as [?|[? _]]; auto.
Qed.

Definition survives (x : ccol) (f : Z) : Prop := In f (keys (cc_faces x)).
Lemma build_wf faces : let x := cc_build faces in
  hf_wf (cc_hf x) (survives x) /\ ops_wf (cc_ops x) (survives x) /\ (forall f, survives x f -> In f (map fst faces)) /\
  ssorted Z.compare (keys (cc_faces x)).
Proof.
  unfold cc_build.
  assert (G : forall fs x (P : Z -> Prop), hf_wf (cc_hf x) (survives x) -> ops_wf (cc_ops x) (survives x) -> (forall f, survives x f -> P f) ->
     (forall f, In f (map fst fs) -> P f) -> ssorted Z.compare (keys (cc_faces x)) ->
     let y := fold_left add_face fs x in hf_wf (cc_hf y) (survives y) /\ ops_wf (cc_ops y) (survives y) /\ (forall f, survives y f -> P f) /\
     ssorted Z.compare (keys (cc_faces y))).
  { induction fs as [|[f loops] fs IH]; intros x P HM HO HP HF HS; [simpl; auto|]. cbn [fold_left].
    assert (Y : let y := add_face x (f, loops) in hf_wf (cc_hf y) (survives y) /\ ops_wf (cc_ops y) (survives y) /\ (forall g, survives y g -> survives x g \/ g = f) /\ ssorted Z.compare (keys (cc_faces y))).
    { unfold add_face. destruct (clean_face (cc_invalid x) loops) as [[cs fl] inv] eqn:E. destruct (clean_face_noself _ _ _ _ _ E) as [N1 N2].
      destruct cs as [|C cs]; [cbn; auto|]. cbn zeta. cbn [cc_hf cc_ops cc_faces].
      set (es := flat_map cyc_pairs (C :: cs) ++ fl) in *.
      assert (NE : es <> []).
      { unfold es. destruct (N1 C (or_introl eq_refl)) as [L _]. destruct C as [|a C]; [simpl in L; lia|]. simpl. destruct C; discriminate. }
      assert (NS : forall e, In e es -> fst e <> snd e).
      { intros e He. apply in_app_iff in He as [He|He]; [|auto]. apply in_flat_map in He as (D & HD & He). destruct (N1 D HD) as [_ N].
        destruct e; apply N; auto. }
      destruct (fold_add_wf f es (cc_hf x) (cc_ops x) (survives x) HM HO NS) as [W1 W2].
      assert (K : forall g, survives (mkCC (fst (fold_left (add_halfface f) es (cc_hf x, cc_ops x))) (map_set Z.compare f (C :: cs) (cc_faces x)) inv
           (snd (fold_left (add_halfface f) es (cc_hf x, cc_ops x)))) g <-> survives x g \/ (g = f /\ es <> [])).
      { intros g. unfold survives. cbn [cc_faces]. rewrite map_set_keys, (set_insert_In Zcompare_total). tauto. }
      split; [eapply hf_wf_ext; [|exact W1]; intros; symmetry; apply K|]. split; [|split; [intros g Hg; apply K in Hg; tauto|apply (map_set_sorted Zcompare_total); auto]].
      destruct W2 as [O1 O2]. split; auto. intros z. rewrite O2. split; intros (g & s & Hg & ->); exists g, s; split; auto; apply K; auto. }
    cbv zeta in Y. destruct Y as (Y1 & Y2 & Y3 & Y4). eapply IH; eauto.
    - intros g Hg. apply Y3 in Hg as [Hg| ->]; auto. apply HF; simpl; auto.
    - intros g Hg. apply HF. simpl; auto. }
  apply G.
  - constructor; try (intros; discriminate); [constructor|]. intros f [].
  - split; [intros a b []|]. intros z. cbn. split; [tauto|]. intros (? & ? & [] & _).
  - intros f [].
  - auto.
  - constructor.
Qed.
