From Verif Require Import Base Num SmallestEdge SmallestEdgeProofs Grid GridEdgesProofs DisjointSet DisjointSetSpec DisjointSetProofs FinPerm
  FaceCollapser FaceCollapserSpec FaceCollapserProofs FaceCollapserIds.
From Coq Require Import Relations Permutation.
Local Open Scope Z_scope.

Lemma some_inj (A : Type) (a b : A) : Some a = Some b -> a = b.
Proof. congruence. Qed.
Lemma NoDup_app_inv (A : Type) (l l' : list A) : NoDup (l ++ l') -> NoDup l /\ NoDup l' /\ forall x, In x l -> ~ In x l'.
Proof.
  induction l as [|a l IH]; simpl; intros H; [split; [constructor|split; auto]|]. inversion H; subst.
  destruct (IH H3) as (N1 & N2 & N3). rewrite in_app_iff in H2. split; [constructor; auto|]. split; auto.
  intros x [<-|Hx]; auto.
Qed.

Section Loops.
  Variable deg : list (edge * edge).
  Variable L : list edge.
  Variable f : edge -> edge.
  Hypothesis inc_f : forall e, In e L -> inc deg e = Some (f e).
  Hypothesis f_in : forall e, In e L -> In (f e) L.
  Hypothesis f_inj : forall x y, In x L -> In y L -> f x = f y -> x = y.
  Hypothesis len : (length L <= length deg)%nat.
  Notation it := (iter f).

  Lemma edge_eqb_neq a b : a <> b -> edge_eqb a b = false.
  Proof. intros H. destruct (edge_eqb a b) eqn:E; auto. apply edge_eqb_eq in E. contradiction. Qed.
  Lemma edge_eqb_refl a : edge_eqb a a = true.
  Proof. apply edge_eqb_eq; auto. Qed.

  Lemma trace_ok e p : In e L -> it p e = e -> (forall k, (0 < k < p)%nat -> it k e <> e) ->
    forall n k fuel, n = (p - k)%nat -> (0 < k <= p)%nat -> (n < fuel)%nat ->
    trace fuel deg e (it k e) (it (2 * k) e) = Some (map (fun j => it j e) (seq k n)).
  Proof.
    intros He Hp M. induction n as [|n IH]; intros k fuel En Hk Hf; destruct fuel as [|fuel]; try lia; cbn [trace].
    - assert (k = p) by lia. subst. rewrite Hp, edge_eqb_refl. auto.
    - rewrite (edge_eqb_neq (it k e) e) by (apply M; lia).
      rewrite (edge_eqb_neq (it k e) (it (2 * k) e)); simpl orb.
      2:{ intros E. apply (M k); [lia|]. symmetry. replace (2 * k)%nat with (k + k)%nat in E by lia. rewrite iter_add in E.
          apply (iter_inj L f f_in f_inj k); auto. apply iter_in; auto. }
      rewrite (inc_f (it k e)) by (apply iter_in; auto). rewrite (inc_f (it (2 * k) e)) by (apply iter_in; auto).
      rewrite (inc_f (f (it (2 * k) e))) by (apply f_in, iter_in; auto).
      change (f (it k e)) with (it (S k) e). change (f (f (it (2 * k) e))) with (it (S (S (2 * k))) e).
      replace (S (S (2 * k))) with (2 * S k)%nat by lia. rewrite IH by lia. auto.
  Qed.
  Lemma trace_from_ok e : In e L -> exists p, (0 < p)%nat /\ it p e = e /\ (forall k, (0 < k < p)%nat -> it k e <> e) /\
    trace_from deg e = Some (map (fun j => it j e) (seq 0 p)).
  Proof.
    intros He. destruct (min_period edge_eq_dec L f f_in f_inj e He) as (p & Hp & E & M). exists p. split; [lia|]. split; auto. split; auto.
    unfold trace_from. rewrite inc_f, inc_f by auto.
    change (f e) with (it 1 e). change (f (it 1 e)) with (it (2 * 1) e).
    rewrite (trace_ok e p He E M (p - 1) 1) by lia. destruct p; [lia|]. simpl. rewrite Nat.sub_0_r. auto.
  Qed.
  Lemma loop_closed e p : In e L -> (0 < p)%nat -> it p e = e -> (forall k, (0 < k < p)%nat -> it k e <> e) ->
    closed_loop (inc deg) (map (fun j => it j e) (seq 0 p)).
  Proof.
    intros He Hp E M. destruct (orbit_list L f f_in f_inj He Hp E M) as [ND _]. split; [|split; auto].
    - destruct p; [lia|]. discriminate.
    - rewrite map_length, seq_length. intros i Hi.
      assert (G : forall j, (j < p)%nat -> nth j (map (fun j => it j e) (seq 0 p)) (0, 0) = it j e).
      { intros j Hj. rewrite (nth_indep _ (0, 0) (it 0 e)) by (rewrite map_length, seq_length; auto).
        rewrite (map_nth (fun j => it j e)). rewrite seq_nth; auto. }
      rewrite G by auto. rewrite inc_f by (apply iter_in; auto). change (f (it i e)) with (it (S i) e). rewrite Nat.add_1_r.
      destruct (Nat.eq_dec (S i) p) as [<-|Hne].
      + rewrite Nat.mod_same by lia. rewrite G by lia. rewrite E. auto.
      + rewrite Nat.mod_small by lia. rewrite G by lia. auto.
  Qed.

  Variable m : emap.
  Variable F : edge -> Z.
  Hypothesis face_F : forall e, In e L -> face_of m e = Some (F e).
  Hypothesis F_const : forall e, In e L -> F (f e) = F e.
  Lemma F_orbit e e' : In e L -> orbit f e e' -> F e' = F e.
  Proof. intros He [n <-]. induction n as [|n IH]; simpl; auto. rewrite F_const; auto. apply iter_in; auto. Qed.

  Lemma existsb_In x l : existsb (edge_eqb x) l = true <-> In x l.
  Proof.
    rewrite existsb_exists. split; [intros (y & Hy & E); apply edge_eqb_eq in E; subst; auto|].
    intros H; exists x; split; auto using edge_eqb_refl.
  Qed.

  Lemma faces_loop_ok todo : forall avail,
    (forall e, In e avail -> In e L) ->
    (forall e e', In e avail -> 0 <= F e -> orbit f e e' -> In e' avail) ->
    (forall e, In e avail -> In e (map fst todo)) ->
    exists ls, faces_loop m deg todo avail = Some ls /\
      (forall i l, In (i, l) ls -> 0 <= i /\ closed_loop (inc deg) l /\ forall e, In e l -> In e avail /\ F e = i) /\
      NoDup (concat (map snd ls)) /\
      (forall e, In e (concat (map snd ls)) <-> In e avail /\ 0 <= F e).
  Proof.
    induction todo as [|[e n] todo IH]; intros avail HL HC HT; cbn [faces_loop].
    - exists []. split; auto. split; [intros ? ? []|]. split; [constructor|]. intros e; simpl. split; [tauto|]. intros [H _]. destruct (HT e H).
    - destruct (existsb (edge_eqb e) avail) eqn:EX.
      + apply existsb_In in EX. rewrite (face_F e) by auto. destruct (Z.ltb_spec (F e) 0) as [Hneg|Hpos].
        * assert (IN : forall x, In x (filter (fun x => negb (edge_eqb e x)) avail) <-> In x avail /\ x <> e).
          { intros x. rewrite filter_In, negb_true_iff. split; intros [H1 H2]; split; auto; [intros ->; rewrite edge_eqb_refl in H2; discriminate|apply edge_eqb_neq; auto]. }
          destruct (IH (filter (fun x => negb (edge_eqb e x)) avail)) as (ls & E & S1 & S2 & S3).
          -- intros x Hx. apply IN in Hx as [? _]; auto.
          -- intros x x' Hx HF HO. apply IN in Hx as [Hx _]. apply IN. split; [eapply HC; eauto|].
             intros ->. rewrite (F_orbit x e) in Hneg; auto. lia.
          -- intros x Hx. apply IN in Hx as [Hx Hne]. destruct (HT x Hx) as [?|?]; auto. simpl in *; congruence.
          -- exists ls. split; auto. split; [|split; auto].
             ++ intros i l Hil. destruct (S1 i l Hil) as (? & ? & H). split; auto. split; auto. intros x Hx. destruct (H x Hx) as [Hx' ?]. apply IN in Hx' as [? _]. auto.
             ++ intros x. rewrite S3, IN. split; [tauto|]. intros [? ?]. split; auto. split; auto. intros ->; lia.
        * destruct (trace_from_ok e (HL e EX)) as (p & Hp & Ep & M & ->). set (l := map (fun j => it j e) (seq 0 p)).
          destruct (orbit_list L f f_in f_inj (HL e EX) Hp Ep M) as [ND OR]. fold l in ND, OR.
          assert (IN : forall x, In x (filter (fun x => negb (existsb (edge_eqb x) l)) avail) <-> In x avail /\ ~ In x l).
          { intros x. rewrite filter_In, negb_true_iff, <- not_true_iff_false, existsb_In. tauto. }
          destruct (IH (filter (fun x => negb (existsb (edge_eqb x) l)) avail)) as (ls & E & S1 & S2 & S3).
          -- intros x Hx. apply IN in Hx as [? _]; auto.
          -- intros x x' Hx HF HO. apply IN in Hx as [Hx Hn]. apply IN. split; [eapply HC; eauto|].
             rewrite OR. rewrite OR in Hn. intros H. apply Hn. eapply orbit_trans; [exact H|]. eapply orbit_sym; eauto using edge_eq_dec.
          -- intros x Hx. apply IN in Hx as [Hx Hne]. destruct (HT x Hx) as [Hxe|?]; auto. exfalso. apply Hne. simpl in Hxe. subst. apply OR, orbit_refl.
          -- rewrite E. exists ((F e, l) :: ls). split; auto.
             assert (LA : forall x, In x l -> In x avail /\ F x = F e).
             { intros x Hx. apply OR in Hx. split; [eapply HC; eauto|]. apply F_orbit; auto. }
             split; [|split].
             ++ intros i l' [[= <- <-]|Hil].
                ** split; auto. split; auto. apply loop_closed; auto.
                ** destruct (S1 i l' Hil) as (? & ? & H). split; auto. split; auto. intros x Hx. destruct (H x Hx) as [Hx' ?]. apply IN in Hx' as [? _]. auto.
             ++ simpl. apply NoDup_app_intro; auto. intros x Hx Hx'. apply S3 in Hx' as [Hx' _]. apply IN in Hx' as [_ ?]; auto.
             ++ intros x. simpl. rewrite in_app_iff, S3, IN. split.
                ** intros [Hx|[[? _] ?]]; auto. destruct (LA x Hx) as [? ->]. auto.
                ** intros [Hx HF]. destruct (in_dec edge_eq_dec x l); [left; auto|right; auto].
      + destruct (IH avail) as (ls & E & S); auto.
        * intros x Hx. destruct (HT x Hx) as [Hxe|?]; auto. simpl in Hxe. subst. apply existsb_In in Hx. congruence.
        * exists ls; auto.
  Qed.
End Loops.

Lemma ids_ok lnk ord : (forall a bs, Permutation (ord a bs) bs) -> forall edges rm, simple_edges edges ->
  let x := bake_simple lnk ord edges rm in
  let nxt := inc (fc_deg x) in let face := face_of (fc_map x) in
  exists k, 0 <= k /\
    (forall e, half_edge edges e -> exists f, face e = Some f /\ -1 <= f < k) /\
    (forall e f, face e = Some f -> half_edge edges e) /\
    (forall f, 0 <= f < k -> exists e, half_edge edges e /\ face e = Some f) /\
    (forall e, half_edge edges e ->
       (face e = Some (-1) <-> exists r, In r rm /\ half_edge edges r /\ reach nxt e r)) /\
    (forall e e', half_edge edges e -> half_edge edges e' -> face e <> Some (-1) -> (face e = face e' <-> reach nxt e e')).
Proof.
  intros OP edges rm SE x nxt face.
  assert (HIT : forall e, half_edge edges e -> (hit ord edges rm e <-> exists r, In r rm /\ half_edge edges r /\ reach nxt e r)).
  { intros e He. assert (He' := He). apply half_iff in He'. unfold hit. split; intros (r & Hr & Hh & HO); exists r; split; auto.
    - split; [apply half_iff; auto|]. apply (reach_orbit lnk ord OP edges e r He'); auto.
    - split; [apply half_iff; auto|]. apply (reach_orbit lnk ord OP edges e r He'); auto. }
  destruct (F_num lnk ord OP edges rm SE) as (k & Hk & K1 & K2). exists k. split; auto. split; [|split; [|split; [|split]]].
  - intros e He. apply half_iff in He. destruct (F_total lnk ord OP edges rm SE e He) as (f & E & _). exists f. split; [exact E|]. eapply K1; eauto.
  - intros e f E. apply half_iff. eapply (F_half lnk ord edges rm e f); exact E.
  - intros f Hf. destruct (K2 f Hf) as (e & He & E). exists e. split; [apply half_iff; exact He|exact E].
  - intros e He. rewrite <- HIT by auto. apply (F_null lnk ord OP edges rm SE). apply half_iff; auto.
  - intros e e' He He' Hn. assert (H1 := He). assert (H2 := He'). apply half_iff in H1, H2.
    assert (RO := reach_orbit lnk ord OP edges e e' H1).
    assert (FS := F_same lnk ord OP edges rm SE e e' H1 H2). cbv beta in FS. etransitivity; [exact FS|].
    etransitivity; [|symmetry; exact RO].
    assert (FN := F_null lnk ord OP edges rm SE e H1). split; [|auto]. intros [?|[H _]]; auto. exfalso. apply Hn. apply FN; auto.
Qed.

Lemma loops_ok lnk ord : (forall a bs, Permutation (ord a bs) bs) -> forall edges rm, simple_edges edges ->
  let x := bake_simple lnk ord edges rm in
  let nxt := inc (fc_deg x) in let face := face_of (fc_map x) in
  exists ls, face_loops x = Some ls /\ NoDup (map fst ls) /\
    (forall f l, In (f, l) ls -> 0 <= f /\ closed_loop nxt l /\ (forall e, In e l <-> face e = Some f)) /\
    (forall e f, face e = Some f -> 0 <= f -> In f (map fst ls)).
Proof.
  intros OP edges rm SE x nxt face. destruct (ids_ok lnk ord OP edges rm SE) as (k & Hk & I1 & I2 & I3 & I4 & I5).
  fold x nxt face in I1, I2, I3, I4, I5.
  set (L := keys (init_map edges)). set (f := fsucc ord edges).
  assert (HL : forall e, In e L <-> half_edge edges e) by (intros e; apply half_iff).
  assert (NL : NoDup L) by (apply (ssorted_NoDup edge_total), init_map_keys).
  assert (INC : forall e, In e L -> inc (fc_deg x) e = Some (f e)) by (intros e He; apply (fsucc_inc lnk ord OP edges e He)).
  assert (FI : forall e, In e L -> In (f e) L) by (intros e He; apply (fsucc_in lnk ord OP edges e He)).
  assert (FJ : forall a b, In a L -> In b L -> f a = f b -> a = b) by (intros a b; apply (fsucc_inj lnk ord OP edges)).
  assert (KD : forall e, In e (map fst (fc_deg x)) <-> In e L).
  { intros e. change (map fst (fc_deg x)) with (keys (fc_deg x)).
    rewrite (find_key_In _ _ _ edge_total) by (apply (deg_sorted ord OP)). split.
    - intros [ne H]. destruct (succ_ok lnk ord OP edges) as (_ & S & _). eapply S; exact H.
    - intros H. exists (f e). apply (INC e H). }
  assert (LEN : (length L <= length (fc_deg x))%nat).
  { rewrite <- (map_length fst (fc_deg x)). apply NoDup_incl_length; auto. intros e He; apply KD; auto. }
  set (F := fun e => match face e with Some z => z | None => 0 end).
  assert (FF : forall e, In e L -> face e = Some (F e)).
  { intros e He. unfold F. destruct (I1 e) as (z & -> & _); auto. apply HL; auto. }
  assert (FC : forall e, In e L -> F (f e) = F e).
  { intros e He. assert (E := F_same lnk ord OP edges rm SE (f e) e (FI e He) He). cbv beta in E.
    change (face (f e) = face e <-> orbit (fsucc ord edges) (f e) e \/ hit ord edges rm (f e) /\ hit ord edges rm e) in E.
    unfold F. rewrite (proj2 E); auto. left. eapply orbit_sym; eauto using edge_eq_dec. exists 1%nat; auto. }
  destruct (faces_loop_ok (fc_deg x) L f INC FI FJ LEN (fc_map x) F FF FC (fc_deg x) (map fst (fc_deg x))) as (ls & E & S1 & S2 & S3).
  - intros e; apply KD.
  - intros e e' He HF HO. apply KD. apply KD in He. eapply orbit_in; eauto.
  - auto.
  - exists ls. split; [exact E|].
    assert (COV : forall i l, In (i, l) ls -> 0 <= i /\ closed_loop nxt l /\ (forall e, In e l <-> face e = Some i)).
    { intros i l Hil. destruct (S1 i l Hil) as (Hi & HC & HE). split; auto. split; auto. intros e. split.
      - intros He. destruct (HE e He) as [Ha <-]. apply FF, KD, Ha.
      - intros He. assert (Hh := I2 _ _ He).
        destruct l as [|e0 l']; [destruct HC as [HC _]; congruence|]. destruct (HE e0 (or_introl eq_refl)) as [H0 F0]. apply KD in H0.
        assert (R : reach nxt e0 e).
        { apply I5; auto; [apply HL; auto|rewrite FF by auto; intros [= ?]; lia|rewrite FF by auto; congruence]. }
        clear Hil Hi HE He Hh F0 H0. destruct HC as (_ & _ & HC). set (l := e0 :: l') in *.
        assert (CL : forall u v, reach nxt u v -> In u l -> In v l).
        { induction 1 as [u|u w v Hs _ IH]; auto. intros Hu. apply IH. apply (In_nth _ _ (0, 0)) in Hu as (i' & Hi' & <-).
          apply (eq_trans (eq_sym (HC i' Hi'))) in Hs. apply some_inj in Hs; subst w. apply nth_In. apply Nat.mod_upper_bound. simpl; discriminate. }
        eapply CL; eauto. simpl; auto. }
    split; [|split; auto].
    + clear E S1 S3. induction ls as [|[i l] ls IH]; simpl in *; [constructor|]. apply NoDup_app_inv in S2 as (N1 & N2 & N3). constructor.
      * intros Hin. apply in_map_iff in Hin as ([i' l'] & Ei & Hin). simpl in Ei. subst i'.
        destruct (COV i l (or_introl eq_refl)) as (_ & (Hne & _) & C1). destruct (COV i l' (or_intror Hin)) as (_ & _ & C2).
        destruct l as [|e0 l0]; [congruence|]. apply (N3 e0); [simpl; auto|].
        apply in_concat. exists l'. split; [apply in_map_iff; exists (i, l'); auto|]. apply C2, C1; simpl; auto.
      * apply IH; auto.
    + intros e i He Hi. assert (Hh := I2 _ _ He). apply HL in Hh.
      assert (Hc : In e (concat (map snd ls))). { apply S3. split; [apply KD; auto|]. rewrite FF in He by auto. injection He as ->. auto. }
      apply in_concat in Hc as (l & Hl & Hel). apply in_map_iff in Hl as ([i' l'] & El & Hl). simpl in El. subst l'.
      assert (E' : face e = Some i') by (apply (COV i' l Hl); auto). assert (i = i') by congruence. subst. apply in_map_iff. exists (i', l); auto.
Qed.

Lemma fold_faces_nh (ls : list (Z * list edge)) : NoDup (map fst ls) ->
  forall f vs, map_find Z.compare f (fold_left (fun ret '(f, l) => map_set Z.compare f (map fst l) ret) ls []) = Some vs <->
    exists l, In (f, l) ls /\ vs = map fst l.
Proof.
  intros N f vs.
  replace (fold_left _ ls []) with (fold_left (fun g '(k, v) => map_set Z.compare k v g) (map (fun '(f, l) => (f, map fst l)) ls) (@nil (Z * list Z))).
  - destruct (fold_set_spec _ _ _ Zcompare_total (map (fun '(f, l) => (f, map fst l)) ls : list (Z * list Z)) [] (ss_nil _)) as [_ S].
    + rewrite map_map. erewrite map_ext; [exact N|]. intros []; auto.
    + intros ? ? [].
    + rewrite S. simpl. rewrite in_map_iff. split.
      * intros [([f' l] & [= -> <-] & H)|?]; [eauto|discriminate].
      * intros (l & H & ->). left. exists (f, l); auto.
  - generalize (@nil (Z * list Z)). clear N. induction ls as [|[g l] ls IH]; intros acc; simpl; auto.
Qed.
Lemma fold_faces (ls : list (Z * list edge)) : NoDup (map fst ls) ->
  forall f S, map_find Z.compare f (fold_left (fun ret '(f, l) =>
      let old := match map_find Z.compare f ret with Some s => s | None => [] end in
      map_set Z.compare f (set_insert zlex (map fst l) old) ret) ls []) = Some S <->
    exists l, In (f, l) ls /\ S = [map fst l].
Proof.
  intros N f S.
  cut (fold_left (fun ret '(f, l) =>
      let old := match map_find Z.compare f ret with Some s => s | None => [] end in
      map_set Z.compare f (set_insert zlex (map fst l) old) ret) ls [] =
      fold_left (fun g '(k, v) => map_set Z.compare k v g) (map (fun '(f, l) => (f, [map fst l])) ls) (@nil (Z * list (list Z)))).
  - intros ->.
    destruct (fold_set_spec _ _ _ Zcompare_total (map (fun '(f, l) => (f, [map fst l])) ls : list (Z * list (list Z))) [] (ss_nil _)) as [_ S'].
    + rewrite map_map. erewrite map_ext; [exact N|]. intros []; auto.
    + intros ? ? [].
    + rewrite S'. simpl. rewrite in_map_iff. split.
      * intros [([f' l] & [= -> <-] & H)|?]; [eauto|discriminate].
      * intros (l & H & ->). left. exists (f, l); auto.
  - assert (G : forall acc : list (Z * list (list Z)), ssorted Z.compare (keys acc) -> (forall g, In g (map fst ls) -> ~ In g (keys acc)) ->
      fold_left (fun ret '(f, l) =>
      let old := match map_find Z.compare f ret with Some s => s | None => [] end in
      map_set Z.compare f (set_insert zlex (map fst l) old) ret) ls acc =
      fold_left (fun g '(k, v) => map_set Z.compare k v g) (map (fun '(f, l) => (f, [map fst l])) ls) acc).
    { induction ls as [|[g l] ls IH]; intros acc HS HD; [auto|]. cbn [map fst fold_left] in *. inversion N; subst.
      assert (E : map_find Z.compare g acc = None).
      { destruct (map_find Z.compare g acc) eqn:E; auto. exfalso. apply (HD g); simpl; auto. apply (find_key_In _ _ _ Zcompare_total); eauto. }
      rewrite E. cbn [set_insert]. apply IH; auto; [apply (map_set_sorted Zcompare_total); auto|].
      intros h Hh. rewrite map_set_keys, (set_insert_In Zcompare_total). intros [->|Hin]; [contradiction|]. apply (HD h); simpl; auto. }
    apply G; [constructor|intros ? ? []].
Qed.

Lemma faces_ok lnk ord : (forall a bs, Permutation (ord a bs) bs) -> forall edges rm, simple_edges edges ->
  let x := bake_simple lnk ord edges rm in
  let nxt := inc (fc_deg x) in let face := face_of (fc_map x) in
  exists r r1, faces x = Some r /\ faces_no_holes x = Some r1 /\
    (forall f, (exists S, map_find Z.compare f r = Some S) <-> 0 <= f /\ exists e, face e = Some f) /\
    (forall f S, map_find Z.compare f r = Some S -> exists l, closed_loop nxt l /\ (forall e, In e l <-> face e = Some f) /\
        S = [map fst l] /\ map_find Z.compare f r1 = Some (map fst l)) /\
    (forall f vs, map_find Z.compare f r1 = Some vs -> map_find Z.compare f r = Some [vs]).
Proof.
  intros OP edges rm SE x nxt face. destruct (loops_ok lnk ord OP edges rm SE) as (ls & E & N & C1 & C2).
  fold x nxt face in E, C1, C2. unfold faces, faces_no_holes. rewrite E. simpl option_map. eexists; eexists. split; [reflexivity|]. split; [reflexivity|].
  split; [|split].
  - intros f. split.
    + intros [S HS]. apply (fold_faces ls N) in HS as (l & Hl & _). destruct (C1 f l Hl) as (H0 & (Hne & _) & HC). split; auto.
      destruct l as [|e l]; [congruence|]. exists e. apply HC; simpl; auto.
    + intros [H0 [e He]]. assert (Hin := C2 e f He H0). apply in_map_iff in Hin as ([f' l] & Ef & Hl). simpl in Ef; subst.
      exists [map fst l]. apply (fold_faces ls N). eauto.
  - intros f S HS. apply (fold_faces ls N) in HS as (l & Hl & ->). destruct (C1 f l Hl) as (H0 & HCL & HC). exists l. split; auto. split; auto. split; auto.
    apply (fold_faces_nh ls N). eauto.
  - intros f vs H. apply (fold_faces_nh ls N) in H as (l & Hl & ->). apply (fold_faces ls N). eauto.
Qed.
