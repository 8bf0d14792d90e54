(** C151: FaceCollapser::bake with holes. *)
From Verif Require Import Base Num SmallestEdge SmallestEdgeProofs DisjointSet DisjointSetSpec DisjointSetProofs FaceCollapser FaceCollapserSpec FaceCollapserProofs FaceCollapserLoops FaceCollapserGeom AngleSort AngleSortSpec PropsCollapse Sparse MergeFaces.
From Coq Require Import Permutation Sorted Relations.
Set Implicit Arguments.
Local Open Scope Z_scope.

(** ** specification *)
(** signed area of the polygon through the vertices of a loop, by the shoelace formula *)
Definition polygon_area (V : Z -> vec2) (vs : list Z) : Qc :=
  (qhalf * lsum (fun i => let a := V (nth i vs 0%Z) in let b := V (nth ((i + 1) mod length vs) vs 0%Z) in fst a * snd b - fst b * snd a) (seq 0 (length vs)))%Qc.
(** loop [n] is a hole in loop [p]: it runs clockwise, p runs counter-clockwise, it is not larger, and all its vertices lie in p *)
Definition hole_in (V : Z -> vec2) (wind : list Z -> vec2 -> bool) (p n : list Z) : Prop :=
  (0 < polygon_area V p)%Qc /\ (polygon_area V n < 0)%Qc /\ (- polygon_area V n <= polygon_area V p)%Qc /\ forall v, In v n -> wind p (V v) = true.
(** a correct std::sort by a key *)
Definition sorts_up (s : (Z -> Qc) -> list Z -> list Z) : Prop := forall key l, Permutation (s key l) l /\ StronglySorted (fun a b => (key a <= key b)%Qc) (s key l).
Definition sorts_down (s : (Z -> Qc) -> list Z -> list Z) : Prop := forall key l, Permutation (s key l) l /\ StronglySorted (fun a b => (key b <= key a)%Qc) (s key l).

(** ** lemmas: volumes *)
Lemma Some_inj (A : Type) (a b : A) : Some a = Some b -> a = b.
Proof. congruence. Qed.
Definition id_of (x : edge * (Z * bool)) : Z := fst (snd x).
Definition dets (V : Z -> vec2) (m : emap) (f : Z) : Qc := lsum (fun x => det2 V (fst x)) (filter (fun x => id_of x =? f) m).
Definition occurs (m : emap) (f : Z) : Prop := In f (map id_of m).
Lemma occurs_app m m' f : occurs (m ++ m') f <-> occurs m f \/ occurs m' f.
Proof. unfold occurs. rewrite map_app, in_app_iff. tauto. Qed.
Lemma dets_app V m m' f : dets V (m ++ m') f = (dets V m f + dets V m' f)%Qc.
Proof. unfold dets. rewrite filter_app, lsum_app. auto. Qed.
Lemma dets_none V m f : ~ occurs m f -> dets V m f = 0%Qc.
Proof.
  intros N. unfold dets. induction m as [|x m IH]; auto. cbn [filter]. destruct (Z.eqb_spec (id_of x) f) as [E|E]; [exfalso; apply N; unfold occurs; cbn; auto|]. apply IH. intros H. apply N. unfold occurs in *. cbn. auto.
Qed.
Lemma volumes_spec V m : ssorted Z.compare (keys (volumes V m)) /\
  forall f v, map_find Z.compare f (volumes V m) = Some v <-> occurs m f /\ v = (qhalf * dets V m f)%Qc.
Proof.
  unfold volumes. set (step := fun ret '(e, (f, _)) => _).
  assert (G : forall post pre r, ssorted Z.compare (keys r) -> (forall f v, map_find Z.compare f r = Some v <-> occurs pre f /\ v = dets V pre f) ->
    ssorted Z.compare (keys (fold_left step post r)) /\ forall f v, map_find Z.compare f (fold_left step post r) = Some v <-> occurs (pre ++ post) f /\ v = dets V (pre ++ post) f).
  { induction post as [|[e [g s]] post IH]; intros pre r S H; cbn [fold_left]; [rewrite app_nil_r; auto|]. replace (pre ++ (e, (g, s)) :: post) with ((pre ++ [(e, (g, s))]) ++ post) by (rewrite <- app_assoc; auto).
    apply IH; unfold step at 1; [apply (map_set_sorted Zcompare_total); auto|]. intros f v. rewrite (map_find_set Zcompare_total) by auto. rewrite occurs_app, dets_app.
    assert (O : occurs [(e, (g, s))] f <-> f = g) by (unfold occurs, id_of; cbn; split; [intros [<-|[]]; auto|auto]).
    assert (D : dets V [(e, (g, s))] f = if g =? f then det2 V e else 0%Qc) by (unfold dets, id_of; cbn [filter fst snd]; destruct (g =? f); cbn; auto; ring).
    rewrite O, D. destruct (Z.compare_spec f g) as [->|L|L].
    - rewrite Z.eqb_refl. destruct (map_find Z.compare g r) as [w|] eqn:F.
      + apply H in F as [F ->]. split; [intros X; apply Some_inj in X; subst; auto|]. intros [_ ->]. auto.
      + assert (N : ~ occurs pre g) by (intros X; assert (Y : map_find Z.compare g r = Some (dets V pre g)) by (apply H; auto); congruence). rewrite (@dets_none V _ _ N). split; [intros X; apply Some_inj in X; subst; split; [auto|ring]|]. intros [_ ->]. f_equal. ring.
    - rewrite H. destruct (Z.eqb_spec g f); [lia|]. rewrite Qcplus_0_r. split; [tauto|]. intros [[X|X] Y]; [auto|lia].
    - rewrite H. destruct (Z.eqb_spec g f); [lia|]. rewrite Qcplus_0_r. split; [tauto|]. intros [[X|X] Y]; [auto|lia]. }
  destruct (G m [] []) as [S F]; [constructor| |]. { intros f v. cbn. split; [discriminate|]. intros [[] _]. }
  cbn [app] in F. set (r := fold_left step m []) in *. assert (K : keys (map (fun '(f, v) => (f, v * qhalf)%Qc) r) = keys r) by (unfold keys; rewrite map_map; apply map_ext; intros []; auto).
  rewrite K. split; auto. intros f v. assert (M : forall l : list (Z * Qc), map_find Z.compare f (map (fun '(f, v) => (f, v * qhalf)%Qc) l) = option_map (fun v => (v * qhalf)%Qc) (map_find Z.compare f l)).
  { clear. induction l as [|[k w] l IH]; auto. cbn [map map_find]. destruct (Z.compare f k); auto. } rewrite M.
  specialize (F f). destruct (map_find Z.compare f r) as [w|]; cbn [option_map].
  - destruct (proj1 (F w) eq_refl) as [O ->]. split; [intros X; apply Some_inj in X; subst; split; auto; ring|]. intros [_ ->]. f_equal. ring.
  - split; [discriminate|]. intros [O _]. assert (X := proj2 (F _) (conj O eq_refl)). discriminate.
Qed.
Lemma volumes_keys V m f : In f (keys (volumes V m)) <-> occurs m f.
Proof.
  destruct (volumes_spec V m) as [S F]. rewrite (find_key_In _ _ _ Zcompare_total) by auto. split; [intros (v & H); apply F in H; tauto|]. intros O. eexists. apply F. split; eauto.
Qed.
Lemma vol_of_spec V m f : occurs m f -> vol_of (volumes V m) f = (qhalf * dets V m f)%Qc.
Proof. intros O. unfold vol_of. rewrite (proj2 (proj2 (volumes_spec V m) f _) (conj O eq_refl)). auto. Qed.
Lemma positive_In V m f : In f (positive_areas (volumes V m)) <-> occurs m f /\ f <> -1 /\ (0 < qhalf * dets V m f)%Qc.
Proof.
  unfold positive_areas. destruct (volumes_spec V m) as [S F]. rewrite in_map_iff. split.
  - intros ([g v] & E & I). cbn in E. subst g. apply filter_In in I as [I T]. apply andb_true_iff in T as [T1 T2]. apply qltb_lt in T2. apply (map_find_Some Zcompare_total) in I; auto. apply F in I as [O ->]. destruct (Z.eqb_spec f (-1)); [discriminate|]. auto.
  - intros (O & N & P). exists (f, (qhalf * dets V m f)%Qc). split; auto. apply filter_In. split; [apply (map_find_Some Zcompare_total); auto; apply F; auto|]. apply andb_true_iff. split; [destruct (Z.eqb_spec f (-1)); auto|apply qltb_lt; auto].
Qed.
Lemma negative_In V m f : In f (negative_areas (volumes V m)) <-> occurs m f /\ f <> -1 /\ (qhalf * dets V m f < 0)%Qc.
Proof.
  unfold negative_areas. destruct (volumes_spec V m) as [S F]. rewrite in_map_iff. split.
  - intros ([g v] & E & I). cbn in E. subst g. apply filter_In in I as [I T]. apply andb_true_iff in T as [T1 T2]. apply qltb_lt in T2. apply (map_find_Some Zcompare_total) in I; auto. apply F in I as [O ->]. destruct (Z.eqb_spec f (-1)); [discriminate|]. auto.
  - intros (O & N & P). exists (f, (qhalf * dets V m f)%Qc). split; auto. apply filter_In. split; [apply (map_find_Some Zcompare_total); auto; apply F; auto|]. apply andb_true_iff. split; [destruct (Z.eqb_spec f (-1)); auto|apply qltb_lt; auto].
Qed.
(** ** joins *)
Lemma take_while_In (A : Type) (R : A -> A -> Prop) (p : A -> bool) l : StronglySorted R l -> (forall a b, R a b -> p b = true -> p a = true) -> forall a, In a (take_while p l) <-> In a l /\ p a = true.
Proof.
  intros S M. induction S as [|x l S IH F]; intros a; cbn [take_while In]; [tauto|]. rewrite Forall_forall in F. destruct (p x) eqn:E; cbn [In].
  - rewrite IH. split; [intros [<-|H]; tauto|tauto].
  - split; [tauto|]. intros [[<-|H] P]; [congruence|]. assert (X := M x a (F a H) P). congruence.
Qed.
Lemma joins_In inside vols fs pos neg p n : StronglySorted (fun a b => (vol_of vols b <= vol_of vols a)%Qc) neg ->
  (In (OpJoin p n) (merge_joins inside vols fs pos neg) <-> In p pos /\ In n neg /\ (- vol_of vols n <= vol_of vols p)%Qc /\ inside (loop_of fs n) (loop_of fs p) = true).
Proof.
  intros S. unfold merge_joins. rewrite in_flat_map.
  assert (T : forall q a, In a (take_while (fun n => negb (qltb (vol_of vols q) (- vol_of vols n)%Qc)) neg) <-> In a neg /\ (- vol_of vols a <= vol_of vols q)%Qc).
  { intros q a. rewrite (take_while_In _ S); [rewrite negb_true_iff, qltb_ge; tauto|]. intros u w R. rewrite !negb_true_iff, !qltb_ge. intros H. eapply Qcle_trans; [|exact H]. clear - R. qc_lra. }
  split.
  - intros (q & Q & H). apply in_map_iff in H as (a & E & H). injection E as -> ->. apply filter_In in H as [H I]. apply T in H as [H1 H2]. auto.
  - intros (P & N & L & I). exists p. split; auto. apply in_map. apply filter_In. split; auto. apply T. auto.
Qed.
Lemma joins_only inside vols fs pos neg o : In o (merge_joins inside vols fs pos neg) -> exists p n, o = OpJoin p n.
Proof. unfold merge_joins. rewrite in_flat_map. intros (p & _ & H). apply in_map_iff in H as (n & <- & _). eauto. Qed.
Lemma added_adds ks x : added (map OpAdd ks) x <-> In x ks.
Proof. induction ks as [|k ks IH]; cbn; [tauto|]. rewrite IH. split; intros [H|H]; auto. Qed.
Lemma added_no_adds ops x : (forall o, In o ops -> exists p n, o = OpJoin p n) -> ~ added ops x.
Proof. induction ops as [|o ops IH]; cbn; auto. intros H. destruct (H o) as (p & n & ->); auto. Qed.
Lemma joined_adds ks js a b : (forall o, In o js -> exists p n, o = OpJoin p n) -> (joined (map OpAdd ks ++ js) a b <-> In (OpJoin a b) js /\ In a ks /\ In b ks).
Proof.
  intros J. split.
  - intros (p & q & E & A & B). assert (I : In (OpJoin a b) (map OpAdd ks ++ js)) by (rewrite E; apply in_app_iff; cbn; auto). apply in_app_iff in I as [I|I]; [apply in_map_iff in I as (k & X & _); discriminate|]. split; auto.
    assert (AA : forall x, added p x -> In x ks). { intros x H. assert (X : added (map OpAdd ks ++ js) x) by (rewrite E; apply added_app; auto). apply added_app in X as [X|X]; [apply added_adds; auto|]. exfalso. eapply added_no_adds; eauto. } auto.
  - intros (I & A & B). apply in_split in I as (p & q & ->). exists (map OpAdd ks ++ p), q. rewrite <- app_assoc. split; auto. split; apply added_app; left; apply added_adds; auto.
Qed.
(** ** the renumbering *)
Lemma reindex_fold l : NoDup l -> let re := fold_left (fun re n => if n =? -1 then re else map_set Z.compare n (Z.of_nat (length re) - 1) re) l [(-1, -1)] in
  let l' := filter (fun n => negb (n =? -1)) l in
  ssorted Z.compare (keys re) /\ length re = S (length l') /\ forall k v, map_find Z.compare k re = Some v <-> (k = -1 /\ v = -1) \/ (k <> -1 /\ 0 <= v /\ nth_error l' (Z.to_nat v) = Some k).
Proof.
  induction l as [|n l IH] using rev_ind; intros ND; cbv zeta.
  - cbn. split; [repeat constructor|]. split; auto. intros k v. destruct (Z.compare_spec k (-1)) as [->|L|L]; (split; [|intros [[? ?]|(? & ? & H)]; subst; auto; try lia; try (destruct (Z.to_nat v); discriminate)]); try discriminate. intros X. injection X as <-. auto.
  - apply NoDup_remove in ND. rewrite app_nil_r in ND. destruct ND as [ND NI]. destruct (IH ND) as (SS & L & F). clear IH. rewrite fold_left_app, filter_app. cbn [fold_left filter]. set (re := fold_left _ l _) in *. set (l' := filter _ l) in *. destruct (Z.eqb_spec n (-1)) as [E|N]; cbn [negb]; [rewrite app_nil_r; auto|].
    assert (NL : ~ In n (keys re)). { rewrite (find_key_In _ _ _ Zcompare_total) by auto. intros (v & H). apply F in H as [[H _]|(_ & _ & H)]; [congruence|]. apply nth_error_In in H. apply filter_In in H as [H _]. contradiction. }
    split; [apply (map_set_sorted Zcompare_total); auto|]. split.
    + assert (X : length (keys (map_set Z.compare n (Z.of_nat (length re) - 1) re)) = S (length (keys re))). { rewrite map_set_keys. clear - NL SS. induction (keys re) as [|k ks IH]; auto. cbn [set_insert]. inversion SS; subst. destruct (Z.compare_spec n k) as [->|C|C]; cbn [length]; auto; [exfalso; apply NL; cbn; auto|]. rewrite IH; auto. intros I. apply NL. cbn; auto. }
      unfold keys in X. rewrite !map_length in X. rewrite X, L, app_length. cbn. lia.
    + intros k v. rewrite (map_find_set Zcompare_total) by auto. rewrite L. replace (Z.of_nat (S (length l')) - 1) with (Z.of_nat (length l')) by lia.
      assert (NE : k <> n -> (map_find Z.compare k re = Some v <-> (k = -1 /\ v = -1) \/ (k <> -1 /\ 0 <= v /\ nth_error (l' ++ [n]) (Z.to_nat v) = Some k))).
      { intros K. rewrite F. destruct (Nat.lt_ge_cases (Z.to_nat v) (length l')) as [C|C]; [rewrite nth_error_app1 by auto; tauto|]. rewrite nth_error_app2 by auto. rewrite (proj2 (nth_error_None l' _)) by auto. split; intros [H|(? & ? & H)]; auto; try discriminate. right. exfalso. destruct (Z.to_nat v - length l')%nat as [|q]; cbn in H; [congruence|destruct q; discriminate]. }
      destruct (Z.compare_spec k n) as [->|C|C]; [|apply NE; lia|apply NE; lia]. split.
      * intros X. apply Some_inj in X. subst v. right. split; auto. split; [lia|]. rewrite Nat2Z.id, nth_error_app2, Nat.sub_diag by lia. auto.
      * intros [[? _]|(_ & P & H)]; [congruence|]. destruct (Nat.lt_ge_cases (Z.to_nat v) (length l')) as [C|C].
        -- rewrite nth_error_app1 in H by auto. exfalso. apply nth_error_In in H. apply filter_In in H as [H _]. contradiction.
        -- rewrite nth_error_app2 in H by auto. destruct (Z.to_nat v - length l')%nat as [|q] eqn:E; [f_equal; lia|]. destruct q; discriminate.
Qed.

(** ** the area of a loop *)
Lemma lsum_nth (A : Type) (f : A -> Qc) (d : A) l : lsum f l = lsum (fun i => f (nth i l d)) (seq 0 (length l)).
Proof.
  assert (G : forall l pre, lsum f l = lsum (fun i => f (nth i (pre ++ l) d)) (seq (length pre) (length l))).
  { clear. induction l as [|a l IH]; intros pre; auto. cbn [length seq lsum]. f_equal; [rewrite app_nth2, Nat.sub_diag by lia; auto|]. rewrite (IH (pre ++ [a])), <- app_assoc, app_length, Nat.add_1_r. auto. }
  exact (G l []).
Qed.
Lemma closed_area V nxt l : (forall a b e, nxt (a, b) = Some e -> fst e = b) -> closed_loop nxt l -> (qhalf * lsum (det2 V) l)%Qc = polygon_area V (map fst l).
Proof.
  intros N (L0 & _ & C). unfold polygon_area. f_equal. rewrite (lsum_nth _ (0, 0)), map_length. apply lsum_ext. intros i I. apply in_seq in I. destruct I as [_ I]. cbn in I. specialize (C i I).
  cbv zeta. assert (MN : forall k, nth k (map fst l) 0 = fst (nth k l (0, 0))) by (intros k; exact (map_nth fst l (0, 0) k)). rewrite !MN. unfold edge in *. destruct (nth i l (0, 0)) as [a b]. unfold det2. cbn [fst snd]. assert (NC := N _ _ _ C). unfold edge in *. rewrite NC. reflexivity.
Qed.
Lemma dets_loop V m f l : ssorted edge_cmp (keys m) -> NoDup l -> (forall e, In e l <-> face_of m e = Some f) -> dets V m f = lsum (det2 V) l.
Proof.
  intros S ND H. unfold dets. rewrite <- lsum_map. apply lsum_perm. apply NoDup_Permutation; auto.
  - assert (K := ssorted_NoDup edge_total S). clear - K. unfold keys in K. induction m as [|x m IH]; [constructor|]. cbn [map] in K. inversion K; subst. cbn [filter]. destruct (id_of x =? f); auto. cbn [map]. constructor; auto. intros I. apply H1. apply in_map_iff in I as (y & E & I). apply filter_In in I as [I _]. rewrite <- E. apply in_map; auto.
  - intros e. rewrite H. unfold face_of. rewrite in_map_iff. split.
    + intros ([e' [g s]] & E & I). cbn in E. subst e'. apply filter_In in I as [I T]. apply Z.eqb_eq in T. cbn in T. subst g. apply (map_find_Some edge_total) in I; auto. rewrite I. auto.
    + destruct (map_find edge_cmp e m) as [[g s]|] eqn:F; [|discriminate]. cbn. intros X. injection X as ->. apply (map_find_Some edge_total) in F; auto. exists (e, (f, s)). split; auto. apply filter_In. split; auto. cbn. apply Z.eqb_refl.
Qed.
Lemma occurs_face m f : ssorted edge_cmp (keys m) -> (occurs m f <-> exists e, face_of m e = Some f).
Proof.
  intros S. unfold occurs, face_of. rewrite in_map_iff. split.
  - intros ([e [g s]] & E & I). cbn in E. subst g. exists e. apply (map_find_Some edge_total) in I; auto. rewrite I; auto.
  - intros (e & H). destruct (map_find edge_cmp e m) as [[g s]|] eqn:F; [|discriminate]. cbn in H. injection H as ->. apply (map_find_Some edge_total) in F; auto. exists (e, (f, s)). auto.
Qed.

(** ** the whole merge *)
Lemma merge_face d m e : face_of (merge_map d m) e = option_map (fun c => zfind (match ds_root d c with Some r => r | None => c end) (merge_reindexer d)) (face_of m e).
Proof.
  unfold face_of, merge_map. induction m as [|[k [c s]] m IH]; auto. cbn [map map_find]. destruct (edge_cmp e k); auto.
Qed.
Lemma connected_ext (R R' : Z -> Z -> Prop) : (forall a b, R a b <-> R' a b) -> forall a b, connected R a b <-> connected R' a b.
Proof. intros H a b. split; intros C; induction C; [apply rst_step; apply H; auto|apply rst_refl|apply rst_sym; auto|eapply rst_trans; eauto|apply rst_step; apply H; auto|apply rst_refl|apply rst_sym; auto|eapply rst_trans; eauto]. Qed.
Lemma connected_alone (R : Z -> Z -> Prop) x : (forall a b, R a b -> a <> x /\ b <> x) -> forall a b, connected R a b -> (a = x <-> b = x).
Proof. intros H a b C. induction C as [a b C|a|a b C IH|a b c C1 IH1 C2 IH2]; [destruct (H _ _ C); tauto|tauto|tauto|tauto]. Qed.

(** the relation of the specification: [n] is the id of a hole of the face with id [p] *)
Definition hole_ids (V : Z -> vec2) (wind : list Z -> vec2 -> bool) (fs : list (Z * list Z)) (p n : Z) : Prop :=
  exists lp ln, map_find Z.compare p fs = Some lp /\ map_find Z.compare n fs = Some ln /\ hole_in V wind lp ln.

Section Main.
  Variables (lnk lnk' : ds -> Z -> Z -> bool) (ord : Z -> list Z -> list Z) (sortp sortn : (Z -> Qc) -> list Z -> list Z) (V : Z -> vec2) (wind : list Z -> vec2 -> bool) (edges rm : list edge).
  Hypothesis OP : forall a bs, Permutation (ord a bs) bs.
  Hypothesis SP : sorts_up sortp.
  Hypothesis SN : sorts_down sortn.
  Hypothesis SE : simple_edges edges.
  Let x0 := bake_simple lnk ord edges rm.
  Let m := fc_map x0.
  Variable fs : list (Z * list Z).
  Hypothesis FS : faces_no_holes x0 = Some fs.
  Let d := merge_ds lnk' sortp sortn V wind m fs.
  Let R := hole_ids V wind fs.
  Lemma m_sorted0 : ssorted edge_cmp (keys m).
  Proof.
    unfold m, x0, bake_simple, finalize. cbn [fc_map]. unfold finalize_map, keys. rewrite map_map. erewrite map_ext; [exact (proj1 (init_map_keys edges))|]. intros [e [c s]]. auto.
  Qed.
  Lemma loop_area f vs : map_find Z.compare f fs = Some vs -> 0 <= f /\ occurs m f /\ (qhalf * dets V m f)%Qc = polygon_area V vs.
  Proof.
    intros F. destruct (c18_faces_are_the_loops lnk ord OP edges rm SE) as (r & r1 & _ & E & H1 & H2 & H3). fold x0 in E, H1, H2. rewrite E in FS. injection FS as ->. specialize (H3 f vs F).
    destruct (proj1 (H1 f) (ex_intro _ _ H3)) as [P (e & Fe)]. split; auto. split; [apply (@occurs_face _ _ m_sorted0); eauto|].
    destruct (H2 f _ H3) as (l & C & I & E1 & _). injection E1 as ->. rewrite (@dets_loop V _ _ _ m_sorted0 (proj1 (proj2 C)) I). eapply closed_area; [|exact C].
    intros a b e' N. destruct (c17_successor_is_a_permutation lnk ord OP edges rm) as (N1 & N2 & _). fold x0 in N1, N2. destruct (N1 a b (N2 _ _ N)) as (c & E2 & _). rewrite E2 in N. injection N as <-. auto.
  Qed.
  Lemma loop_exists f : occurs m f -> f <> -1 -> exists vs, map_find Z.compare f fs = Some vs.
  Proof.
    intros O N. apply (@occurs_face _ _ m_sorted0) in O as (e & Fe). destruct (c18_face_ids lnk ord OP edges rm SE) as (k & _ & K1 & K2 & _). fold x0 in K1, K2. fold m in K1, K2. destruct (K1 e (K2 _ _ Fe)) as (f' & E & B). rewrite Fe in E. injection E as <-.
    destruct (c18_faces_are_the_loops lnk ord OP edges rm SE) as (r & r1 & _ & E & H1 & H2 & _). fold x0 in E, H1, H2. rewrite E in FS. injection FS as ->. destruct (proj2 (H1 f)) as (S & HS); [split; [lia|eauto]|]. destruct (H2 f S HS) as (l & _ & _ & _ & G). eauto.
  Qed.
  Lemma joins_spec p n : joined (map OpAdd (keys (volumes V m)) ++ merge_joins (is_inside V wind) (volumes V m) fs (sortp (vol_of (volumes V m)) (positive_areas (volumes V m))) (sortn (vol_of (volumes V m)) (negative_areas (volumes V m)))) p n <-> R p n.
  Proof.
    rewrite joined_adds by (apply joins_only). destruct (SN (vol_of (volumes V m)) (negative_areas (volumes V m))) as [PN SSN]. destruct (SP (vol_of (volumes V m)) (positive_areas (volumes V m))) as [PP _]. rewrite (@joins_In _ _ _ _ _ _ _ SSN), !volumes_keys.
    assert (IP : In p (sortp (vol_of (volumes V m)) (positive_areas (volumes V m))) <-> occurs m p /\ p <> -1 /\ (0 < qhalf * dets V m p)%Qc) by (rewrite <- positive_In; split; apply Permutation_in; auto; apply Permutation_sym; auto).
    assert (IN : In n (sortn (vol_of (volumes V m)) (negative_areas (volumes V m))) <-> occurs m n /\ n <> -1 /\ (qhalf * dets V m n < 0)%Qc) by (rewrite <- negative_In; split; apply Permutation_in; auto; apply Permutation_sym; auto).
    rewrite IP, IN. unfold R, hole_ids, hole_in, is_inside, loop_of. split.
    - intros ((P & N & L & I) & _ & _). destruct P as (OP1 & NP & AP). destruct N as (ON & NN & AN). rewrite !vol_of_spec in L by auto. destruct (loop_exists OP1 NP) as (lp & Fp). destruct (loop_exists ON NN) as (ln & Fn). rewrite Fp, Fn in I. rewrite forallb_forall in I.
      destruct (loop_area _ Fp) as (_ & _ & Ep). destruct (loop_area _ Fn) as (_ & _ & En). rewrite Ep in *. rewrite En in *. exists lp, ln. auto 8.
    - intros (lp & ln & Fp & Fn & A1 & A2 & A3 & I). destruct (loop_area _ Fp) as (P1 & O1 & Ep). destruct (loop_area _ Fn) as (P2 & O2 & En). rewrite !vol_of_spec by auto. rewrite Ep, En, Fp, Fn, forallb_forall. repeat split; auto; lia.
  Qed.
  Lemma d_inv : ds_inv d (occurs m) R.
  Proof.
    unfold d, merge_ds. cbv zeta. destruct (ds_run_inv lnk' (map OpAdd (keys (volumes V m)) ++ merge_joins (is_inside V wind) (volumes V m) fs (sortp (vol_of (volumes V m)) (positive_areas (volumes V m))) (sortn (vol_of (volumes V m)) (negative_areas (volumes V m))))) as [A B C D E].
    constructor; auto.
    - intros x. rewrite B, added_app, added_adds, volumes_keys. split; [|auto]. intros [H|H]; auto. exfalso. revert H. apply added_no_adds. intros o. apply joins_only.
    - intros x y rx ry Hx Hy. rewrite (D _ _ _ _ Hx Hy). apply connected_ext. apply joins_spec.
    - intros x y H. apply joins_spec in H. apply joined_adds in H as (_ & H1 & H2); [|apply joins_only]. rewrite volumes_keys in *. auto.
  Qed.
  Lemma R_nonneg p n : R p n -> p <> -1 /\ n <> -1.
  Proof. intros (lp & ln & Fp & Fn & _). apply loop_area in Fp as [P _]. apply loop_area in Fn as [N _]. lia. Qed.
  (** the new id of an old one *)
  Definition newid (f : Z) : Z := zfind (match ds_root d f with Some r => r | None => f end) (merge_reindexer d).
  Lemma newid_spec f : occurs m f -> exists r, ds_root d f = Some r /\ ds_root d r = Some r /\ connected R f r /\ (f = -1 <-> r = -1) /\
    (f = -1 -> newid f = -1) /\ (f <> -1 -> 0 <= newid f /\ nth_error (filter (fun n => negb (n =? -1)) (ds_roots d)) (Z.to_nat (newid f)) = Some r).
  Proof.
    intros O. destruct d_inv as [A B C D E]. destruct (proj2 (ds_root_In d f)) as (r & Hr); [apply B; auto|]. exists r. assert (Hrr := C _ _ Hr). assert (CN : connected R f r) by (apply (D _ _ _ _ Hr Hrr); auto). assert (X := @connected_alone R _ R_nonneg _ _ CN).
    destruct (reindex_fold (ds_roots_NoDup _ A)) as (S & L & F). fold (merge_reindexer d) in S, L, F. unfold newid, zfind. rewrite Hr. repeat split; auto; try tauto.
    - intros ->. rewrite (proj1 X eq_refl). rewrite (proj2 (F (-1) (-1))); auto.
    - destruct (In_nth_error (filter (fun n => negb (n =? -1)) (ds_roots d)) r) as (i & Hi); [apply filter_In; split; [apply (ds_roots_In _ _ A); auto|destruct (Z.eqb_spec r (-1)); auto; tauto]|].
      rewrite (proj2 (F r (Z.of_nat i))); [lia|]. right. rewrite Nat2Z.id. split; [tauto|]. split; [lia|auto].
    - destruct (In_nth_error (filter (fun n => negb (n =? -1)) (ds_roots d)) r) as (i & Hi); [apply filter_In; split; [apply (ds_roots_In _ _ A); auto|destruct (Z.eqb_spec r (-1)); auto; tauto]|].
      rewrite (proj2 (F r (Z.of_nat i))); [rewrite Nat2Z.id; auto|]. right. rewrite Nat2Z.id. split; [tauto|]. split; [lia|auto].
  Qed.
  Lemma newid_same f g : occurs m f -> occurs m g -> f <> -1 -> g <> -1 -> (newid f = newid g <-> connected R f g).
  Proof.
    intros Of Og Nf Ng. destruct (@newid_spec _ Of) as (r & H1 & _ & _ & _ & _ & H2). destruct (@newid_spec _ Og) as (s & G1 & _ & _ & _ & _ & G2). destruct (H2 Nf) as [P E]. destruct (G2 Ng) as [Q E']. destruct d_inv as [A B C D _]. rewrite <- (D _ _ _ _ H1 G1). split.
    - intros X. rewrite X in E. rewrite E in E'. congruence.
    - intros ->. assert (ND : NoDup (filter (fun n => negb (n =? -1)) (ds_roots d))) by (apply NoDup_filter, ds_roots_NoDup; auto). assert (X : Z.to_nat (newid f) = Z.to_nat (newid g)); [|lia]. eapply NoDup_nth_error; eauto; [apply nth_error_Some; congruence|congruence].
  Qed.
End Main.

(** ** theorems *)
(** the specification of the merge: faces joined by holes become one face; ids stay contiguous *)
Theorem c151_merged : forall lnk lnk' ord sortp sortn V wind edges rm, (forall a bs, Permutation (ord a bs) bs) -> sorts_up sortp -> sorts_down sortn -> simple_edges edges ->
  let x0 := bake_simple lnk ord edges rm in
  exists fs x, faces_no_holes x0 = Some fs /\ merge_faces lnk' sortp sortn V wind x0 = Some x /\ fc_deg x = fc_deg x0 /\
    let old := face_of (fc_map x0) in let new := face_of (fc_map x) in
    (forall e, new e = None <-> old e = None) /\
    (forall e, new e = Some (-1) <-> old e = Some (-1)) /\
    (forall e e' f f', old e = Some f -> old e' = Some f' -> 0 <= f -> 0 <= f' ->
       (new e = new e' <-> connected (fun p n => exists lp ln, map_find Z.compare p fs = Some lp /\ map_find Z.compare n fs = Some ln /\ hole_in V wind lp ln) f f')) /\
    exists k, (forall e f, new e = Some f -> -1 <= f < k) /\ forall f, 0 <= f < k -> exists e, new e = Some f.
Proof.
  intros lnk lnk' ord sortp sortn V wind edges rm OP SP SN SE x0. destruct (c18_faces_are_the_loops lnk ord OP edges rm SE) as (r & fs & _ & FS & _). fold x0 in FS.
  set (d := merge_ds lnk' sortp sortn V wind (fc_map x0) fs). exists fs, (mkFC (merge_map d (fc_map x0)) (fc_ds x0) (fc_deg x0)). split; auto. split; [unfold merge_faces; rewrite FS; auto|]. split; auto. cbn [fc_map]. cbv zeta.
  set (m := fc_map x0) in *. assert (MS : ssorted edge_cmp (keys m)) by apply m_sorted0.
  assert (NF : forall e, face_of (merge_map d m) e = option_map (newid lnk lnk' ord sortp sortn V wind edges rm fs) (face_of m e)) by (intros e; apply merge_face).
  set (nid := newid lnk lnk' ord sortp sortn V wind edges rm fs) in *.
  assert (OC : forall e f, face_of m e = Some f -> occurs m f) by (intros e f H; apply (@occurs_face _ _ MS); eauto).
  assert (NEG : forall e f, face_of m e = Some f -> -1 <= f). { intros e f H. destruct (c18_face_ids lnk ord OP edges rm SE) as (k & _ & K1 & K2 & _). fold x0 in K1, K2. fold m in K1, K2. destruct (K1 e (K2 _ _ H)) as (f' & E & B). rewrite H in E. injection E as <-. lia. }
  assert (SPC := fun f => @newid_spec lnk lnk' ord sortp sortn V wind edges rm OP SP SN SE fs FS f). fold x0 in SPC. fold m in SPC. fold nid in SPC. fold d in SPC.
  split; [|split; [|split]].
  - intros e. rewrite NF. destruct (face_of m e); cbn [option_map]; split; congruence.
  - intros e. rewrite NF. destruct (face_of m e) as [f|] eqn:F; [|cbn [option_map]; split; discriminate]. cbn [option_map]. destruct (SPC f (OC _ _ F)) as (q & _ & _ & _ & _ & A & B). split; [|intros H; injection H as ->; rewrite A; auto]. intros H. injection H as H. destruct (Z.eq_dec f (-1)) as [->|N]; auto. destruct (B N). lia.
  - intros e e' f f' F F' P P'. rewrite !NF, F, F'. cbn [option_map]. transitivity (nid f = nid f'); [split; congruence|]. apply (@newid_same lnk lnk' ord sortp sortn V wind edges rm OP SP SN SE fs FS f f'); eauto; lia.
  - exists (Z.of_nat (length (filter (fun n => negb (n =? -1)) (ds_roots d)))). split.
    + intros e f. rewrite NF. destruct (face_of m e) as [g|] eqn:F; [|discriminate]. cbn [option_map]. intros H. injection H as <-. destruct (SPC g (OC _ _ F)) as (q & _ & _ & _ & _ & A & B). destruct (Z.eq_dec g (-1)) as [E|N]; [rewrite A; auto; lia|]. destruct (B N) as [B1 B2]. assert (L : (Z.to_nat (nid g) < length (filter (fun n => negb (n =? -1)%Z) (ds_roots d)))%nat) by (apply nth_error_Some; congruence). revert L B1. generalize (length (filter (fun n => negb (n =? -1)) (ds_roots d))). intros. lia.
    + intros f [P L]. destruct (nth_error (filter (fun n => negb (n =? -1)) (ds_roots d)) (Z.to_nat f)) as [q|] eqn:Q; [|apply nth_error_None in Q; lia].
      assert (I := nth_error_In _ _ Q). apply filter_In in I as [I T]. destruct (@d_inv lnk lnk' ord sortp sortn V wind edges rm OP SP SN SE fs FS) as [A B _ _ _]. fold x0 in A, B. fold m in A, B. fold d in A, B. apply (ds_roots_In _ _ A) in I. assert (O : occurs m q) by (apply B; apply ds_root_In; eauto).
      assert (N : q <> -1) by (destruct (Z.eqb_spec q (-1)); auto; discriminate). destruct (SPC q O) as (q' & E & _ & _ & _ & _ & G). rewrite I in E. injection E as <-. destruct (G N) as [G1 G2]. apply (@occurs_face _ _ MS) in O as (e & Fe). exists e. rewrite NF, Fe. cbn [option_map]. f_equal.
      assert (ND : NoDup (filter (fun n => negb (n =? -1)) (ds_roots d))) by (apply NoDup_filter, ds_roots_NoDup; auto). assert (X : Z.to_nat (nid q) = Z.to_nat f); [|lia]. eapply NoDup_nth_error; eauto; [apply nth_error_Some; congruence|congruence].
Qed.

(** the loops of the merged faces *)
Lemma faces_loop_relabel m m' deg (nid : Z -> Z) : (forall e, face_of m' e = option_map nid (face_of m e)) -> (forall e f, face_of m e = Some f -> (nid f <? 0) = (f <? 0)) ->
  forall todo avail, faces_loop m' deg todo avail = option_map (map (fun '(f, l) => (nid f, l))) (faces_loop m deg todo avail).
Proof.
  intros H N. induction todo as [|[e e'] todo IH]; intros avail; auto. cbn [faces_loop]. destruct (existsb (edge_eqb e) avail); [|apply IH]. rewrite H. destruct (face_of m e) as [f|] eqn:F; [|reflexivity]. cbn [option_map]. rewrite (N _ _ F). destruct (f <? 0); [apply IH|]. destruct (trace_from deg e); [|reflexivity]. rewrite IH. destruct (faces_loop m deg todo _); reflexivity.
Qed.
Definition put_loop (ret : list (Z * list (list Z))) (x : Z * list edge) : list (Z * list (list Z)) :=
  let '(f, l) := x in let old := match map_find Z.compare f ret with Some s => s | None => [] end in map_set Z.compare f (set_insert zlex (map fst l) old) ret.
Lemma fold_sets (ls : list (Z * list edge)) : let r := fold_left put_loop ls [] in
  ssorted Z.compare (keys r) /\ (forall f S, map_find Z.compare f r = Some S -> forall vs, In vs S <-> exists l, In (f, l) ls /\ vs = map fst l) /\ (forall f, (exists S, map_find Z.compare f r = Some S) <-> exists l, In (f, l) ls).
Proof.
  induction ls as [|[g l] ls IH] using rev_ind; cbv zeta.
  - split; [constructor|]. split; [discriminate|]. intros f. cbn. split; [intros (S & H); discriminate|intros (l & [])].
  - rewrite fold_left_app. cbn [fold_left]. cbv zeta in IH. set (r := fold_left put_loop ls []) in *. destruct IH as (SS & F1 & F2). unfold put_loop. cbv zeta. split; [apply (map_set_sorted Zcompare_total); auto|]. split.
    + intros f S. rewrite (map_find_set Zcompare_total) by auto. destruct (Z.compare_spec f g) as [->|C|C].
      * intros H vs. injection H as <-. rewrite (set_insert_In zlex_total). destruct (map_find Z.compare g r) as [S0|] eqn:E.
        -- rewrite (F1 _ _ E). split; [intros [ -> | (l0 & I & ->)]; [exists l|exists l0]; rewrite in_app_iff; cbn; auto|]. intros (l0 & I & ->). apply in_app_iff in I as [I|[I|[]]]; [right; eauto|left; congruence].
        -- split; [intros [ -> | []]; exists l; rewrite in_app_iff; cbn; auto|]. intros (l0 & I & ->). apply in_app_iff in I as [I|[I|[]]]; [|left; congruence]. destruct (proj2 (F2 g) (ex_intro (fun l => In (g, l) ls) l0 I)) as (S & HS). congruence.
      * intros H vs. rewrite (F1 _ _ H). split; intros (l0 & I & ->); exists l0; split; auto; [apply in_app_iff; auto|]. apply in_app_iff in I as [I|[I|[]]]; auto. injection I as -> ->. lia.
      * intros H vs. rewrite (F1 _ _ H). split; intros (l0 & I & ->); exists l0; split; auto; [apply in_app_iff; auto|]. apply in_app_iff in I as [I|[I|[]]]; auto. injection I as -> ->. lia.
    + intros f. rewrite (map_find_set Zcompare_total) by auto. destruct (Z.compare_spec f g) as [->|C|C].
      * split; intros _; [exists l; rewrite in_app_iff; cbn; auto|eauto].
      * rewrite F2. split; intros (l0 & I); exists l0; [apply in_app_iff; auto|]. apply in_app_iff in I as [I|[I|[]]]; auto. injection I as -> ->. lia.
      * rewrite F2. split; intros (l0 & I); exists l0; [apply in_app_iff; auto|]. apply in_app_iff in I as [I|[I|[]]]; auto. injection I as -> ->. lia.
Qed.
(** faces() after merging: for every new id the loops of all the old faces with that id, outer boundary and holes *)
Theorem c151_faces : forall lnk lnk' ord sortp sortn V wind edges rm, (forall a bs, Permutation (ord a bs) bs) -> sorts_up sortp -> sorts_down sortn -> simple_edges edges ->
  let x0 := bake_simple lnk ord edges rm in forall fs x, faces_no_holes x0 = Some fs -> merge_faces lnk' sortp sortn V wind x0 = Some x ->
  exists r, faces x = Some r /\
    (forall g, (exists S, map_find Z.compare g r = Some S) <-> 0 <= g /\ exists e, face_of (fc_map x) e = Some g) /\
    forall g S, map_find Z.compare g r = Some S -> forall vs, In vs S <-> exists f e, map_find Z.compare f fs = Some vs /\ face_of (fc_map x0) e = Some f /\ face_of (fc_map x) e = Some g.
Proof.
  intros lnk lnk' ord sortp sortn V wind edges rm OP SP SN SE x0 fs x FS MX. unfold merge_faces in MX. rewrite FS in MX. apply Some_inj in MX.
  set (m := fc_map x0) in *. set (d := merge_ds lnk' sortp sortn V wind m fs) in *. assert (MS : ssorted edge_cmp (keys m)) by apply m_sorted0.
  assert (NF : forall e, face_of (fc_map x) e = option_map (newid lnk lnk' ord sortp sortn V wind edges rm fs) (face_of m e)) by (intros e; rewrite <- MX; apply merge_face).
  set (nid := newid lnk lnk' ord sortp sortn V wind edges rm fs) in *. assert (FD : fc_deg x = fc_deg x0) by (rewrite <- MX; auto). clear MX.
  assert (OC : forall e f, face_of m e = Some f -> occurs m f) by (intros e f H; apply (@occurs_face _ _ MS); eauto).
  assert (NEG : forall e f, face_of m e = Some f -> -1 <= f). { intros e f H. destruct (c18_face_ids lnk ord OP edges rm SE) as (k & _ & K1 & K2 & _). fold x0 in K1, K2. fold m in K1, K2. destruct (K1 e (K2 _ _ H)) as (f' & E & B). rewrite H in E. injection E as <-. lia. }
  assert (SG : forall e f, face_of m e = Some f -> (nid f <? 0) = (f <? 0)).
  { intros e f H. destruct (@newid_spec lnk lnk' ord sortp sortn V wind edges rm OP SP SN SE fs FS f (OC _ _ H)) as (q & _ & _ & _ & _ & A & B). fold nid in A, B. assert (NN := NEG _ _ H). destruct (Z.eq_dec f (-1)) as [E|E]; [rewrite A, E; auto|]. destruct (B E) as [B1 _]. destruct (Z.ltb_spec (nid f) 0), (Z.ltb_spec f 0); auto; lia. }
  destruct (loops_ok lnk ord OP edges rm SE) as (ls & L0 & ND & L1 & L2). fold x0 in L0, L1, L2. fold m in L1, L2.
  assert (FL : face_loops x = Some (map (fun '(f, l) => (nid f, l)) ls)). { unfold face_loops in *. rewrite FD. fold m in L0. rewrite (@faces_loop_relabel _ _ _ _ NF SG), L0. auto. }
  assert (FSL : forall f vs, map_find Z.compare f fs = Some vs <-> exists l, In (f, l) ls /\ vs = map fst l). { unfold faces_no_holes in FS. rewrite L0 in FS. cbn [option_map] in FS. apply Some_inj in FS. rewrite <- FS. apply fold_faces_nh; auto. }
  unfold faces. rewrite FL. cbn [option_map]. exists (fold_left put_loop (map (fun '(f, l) => (nid f, l)) ls) []). split; [reflexivity|]. destruct (fold_sets (map (fun '(f, l) => (nid f, l)) ls)) as (_ & G1 & G2). cbv zeta in G1, G2. split.
  - intros g. rewrite G2. split.
    + intros (l & I). apply in_map_iff in I as ([f l'] & E & I). injection E as <- <-. destruct (L1 _ _ I) as (P & (C1 & _) & C2). destruct l' as [|e l']; [congruence|]. assert (Fe : face_of m e = Some f) by (apply C2; cbn; auto). split; [|exists e; rewrite NF, Fe; auto]. assert (X := SG _ _ Fe). destruct (Z.ltb_spec (nid f) 0), (Z.ltb_spec f 0); try discriminate; lia.
    + intros (P & e & Fe). rewrite NF in Fe. destruct (face_of m e) as [f|] eqn:F; [|discriminate]. cbn [option_map] in Fe. apply Some_inj in Fe. subst g. assert (X := SG _ _ F). assert (I : In f (map fst ls)) by (apply (L2 e); auto; destruct (Z.ltb_spec (nid f) 0), (Z.ltb_spec f 0); try discriminate; lia). apply in_map_iff in I as ([f' l] & <- & I). exists l. apply in_map_iff. exists (f', l). auto.
  - intros g S HS vs. rewrite (G1 _ _ HS). split.
    + intros (l & I & ->). apply in_map_iff in I as ([f l'] & E & I). injection E as <- <-. destruct (L1 _ _ I) as (P & (C1 & _) & C2). destruct l' as [|e l']; [congruence|]. assert (Fe : face_of m e = Some f) by (apply C2; cbn; auto). exists f, e. split; [apply FSL; eauto|]. split; auto. rewrite NF, Fe. auto.
    + intros (f & e & H & Fe & Ge). apply FSL in H as (l & I & ->). exists l. split; auto. rewrite NF, Fe in Ge. cbn [option_map] in Ge. apply Some_inj in Ge. subst g. apply in_map_iff. exists (f, l). auto.
Qed.
(** when no hole lies in two outer loops, two old faces become one exactly when they are the same, one is a hole of the other, or both are holes of a third *)
Theorem c151_flat_partial : forall lnk lnk' ord sortp sortn V wind edges rm, (forall a bs, Permutation (ord a bs) bs) -> sorts_up sortp -> sorts_down sortn -> simple_edges edges ->
  let x0 := bake_simple lnk ord edges rm in forall fs x, faces_no_holes x0 = Some fs -> merge_faces lnk' sortp sortn V wind x0 = Some x ->
  let hole_of p n := exists lp ln, map_find Z.compare p fs = Some lp /\ map_find Z.compare n fs = Some ln /\ hole_in V wind lp ln in
  (forall p q n, hole_of p n -> hole_of q n -> p = q) ->
  forall e e' f f', face_of (fc_map x0) e = Some f -> face_of (fc_map x0) e' = Some f' -> 0 <= f -> 0 <= f' ->
  (face_of (fc_map x) e = face_of (fc_map x) e' <-> f = f' \/ hole_of f f' \/ hole_of f' f \/ exists p, hole_of p f /\ hole_of p f').
Proof.
  intros lnk lnk' ord sortp sortn V wind edges rm OP SP SN SE x0 fs x FS MX hole_of U e e' f f' Fe Fe' P P'.
  destruct (@c151_merged lnk lnk' ord sortp sortn V wind edges rm OP SP SN SE) as (fs' & x' & FS' & MX' & _ & H). fold x0 in FS', MX', H. rewrite FS in FS'. apply Some_inj in FS'. subst fs'. rewrite MX in MX'. apply Some_inj in MX'. subst x'. cbv zeta in H. destruct H as (_ & _ & H & _). rewrite (H _ _ _ _ Fe Fe' P P'). fold hole_of. clear H.
  assert (SIGN : forall a b c, hole_of a b -> hole_of b c -> False).
  { intros a b c (la & lb & _ & Eb & _ & N & _) (lb' & lc & Eb' & _ & Q & _). rewrite Eb in Eb'. apply Some_inj in Eb'. subst lb'. clear - N Q. exact (Qclt_not_le _ _ N (Qclt_le_weak _ _ Q)). }
  split.
  - intros C. clear Fe Fe' P P'. induction C as [a b C|a|a b C IH|a b c C1 IH1 C2 IH2]; auto.
    + destruct IH as [ -> | [A|[A|(p & A & B)]]]; auto. right. right. right. eauto.
    + destruct IH1 as [ -> | [A|[A|(p & A & B)]]]; auto; destruct IH2 as [ <- | [A'|[A'|(q & A' & B')]]]; auto.
      * exfalso. eauto.
      * left. eauto.
      * right. left. assert (q = a) by eauto. subst. auto.
      * right. right. right. eauto.
      * exfalso. eauto.
      * exfalso. eauto.
      * right. right. right. eauto.
      * exfalso. eauto.
      * right. right. left. assert (p = c) by eauto. subst. auto.
      * right. right. right. assert (p = q) by eauto. subst. eauto.
  - intros [ -> | [A|[A|(p & A & B)]]]; [apply rst_refl|apply rst_step; auto|apply rst_sym, rst_step; auto|]. eapply rst_trans; [apply rst_sym, rst_step; exact A|apply rst_step; auto].
Qed.
(** refuted: that only loops bounding one region of the plane are merged. Two different outer loops around one hole become one face, also when one of them bounds a region inside the other *)
Theorem c151_nested_refuted : forall lnk lnk' ord sortp sortn V wind edges rm, (forall a bs, Permutation (ord a bs) bs) -> sorts_up sortp -> sorts_down sortn -> simple_edges edges ->
  let x0 := bake_simple lnk ord edges rm in forall fs x, faces_no_holes x0 = Some fs -> merge_faces lnk' sortp sortn V wind x0 = Some x ->
  forall p q n lp lq ln, map_find Z.compare p fs = Some lp -> map_find Z.compare q fs = Some lq -> map_find Z.compare n fs = Some ln -> hole_in V wind lp ln -> hole_in V wind lq ln ->
  forall e e', face_of (fc_map x0) e = Some p -> face_of (fc_map x0) e' = Some q -> face_of (fc_map x) e = face_of (fc_map x) e'.
Proof.
  intros lnk lnk' ord sortp sortn V wind edges rm OP SP SN SE x0 fs x FS MX p q n lp lq ln Fp Fq Fn Hp Hq e e' Fe Fe'.
  destruct (@c151_merged lnk lnk' ord sortp sortn V wind edges rm OP SP SN SE) as (fs' & x' & FS' & MX' & _ & H). fold x0 in FS', MX', H. rewrite FS in FS'. apply Some_inj in FS'. subst fs'. rewrite MX in MX'. apply Some_inj in MX'. subst x'. cbv zeta in H. destruct H as (_ & _ & H & _).
  assert (PP : 0 <= p /\ 0 <= q) by (split; [eapply (@loop_area lnk ord V edges rm OP SE fs FS p lp Fp)|eapply (@loop_area lnk ord V edges rm OP SE fs FS q lq Fq)]).
  apply (H _ _ _ _ Fe Fe'); try tauto. eapply rst_trans; [apply rst_step|apply rst_sym, rst_step]; cbv beta; [exists lp, ln|exists lq, ln]; eauto.
Qed.
(** Example: three nested squares; the region outside is removed *)
Definition nest_V (i : Z) : vec2 :=
  let r := 3 - i / 4 in let s := i mod 4 in (Z2Qc (if (s =? 0) || (s =? 3) then - r else r), Z2Qc (if s <? 2 then - r else r)).
Definition nest_edges : list edge := [(0, 1); (1, 2); (2, 3); (3, 0); (4, 5); (5, 6); (6, 7); (7, 4); (8, 9); (9, 10); (10, 11); (11, 8)].
(** strictly inside the bounding box: for these loops the same as the winding number test *)
Definition box_wind (l : list Z) (p : vec2) : bool :=
  existsb (fun i => qltb (fst (nest_V i)) (fst p)) l && existsb (fun i => qltb (fst p) (fst (nest_V i))) l && existsb (fun i => qltb (snd (nest_V i)) (snd p)) l && existsb (fun i => qltb (snd p) (snd (nest_V i))) l.
Definition ex_up (key : Z -> Qc) (l : list Z) : list Z := isort (fun i j => qltb (key i) (key j)) l.
Definition ex_down (key : Z -> Qc) (l : list Z) : list Z := isort (fun i j => qltb (key j) (key i)) l.
Lemma ex_up_ok : sorts_up ex_up.
Proof.
  intros key l. destruct (@isort_sorts (fun i j => qltb (key i) (key j)) l (fun _ => True)) as [A B]; auto.
  - intros x y _ _ H. apply qltb_lt in H. apply qltb_ge. apply Qclt_le_weak. auto.
  - intros x y z _ _ _ H1 H2. apply qltb_ge in H1, H2. apply qltb_ge. eapply Qcle_trans; eauto.
  - split; auto. clear A. unfold ex_up. revert B. generalize (isort (fun i j => qltb (key i) (key j)) l). intros k B. induction B as [|a t B IH F]; constructor; auto. rewrite Forall_forall in *. intros b I. apply qltb_ge. auto.
Qed.
Lemma ex_down_ok : sorts_down ex_down.
Proof.
  intros key l. destruct (@isort_sorts (fun i j => qltb (key j) (key i)) l (fun _ => True)) as [A B]; auto.
  - intros x y _ _ H. apply qltb_lt in H. apply qltb_ge. apply Qclt_le_weak. auto.
  - intros x y z _ _ _ H1 H2. apply qltb_ge in H1, H2. apply qltb_ge. eapply Qcle_trans; eauto.
  - split; auto. clear A. unfold ex_down. revert B. generalize (isort (fun i j => qltb (key j) (key i)) l). intros k B. induction B as [|a t B IH F]; constructor; auto. rewrite Forall_forall in *. intros b I. apply qltb_ge. auto.
Qed.
Lemma nest_simple : simple_edges nest_edges.
Proof.
  split; [repeat constructor; simpl; intuition congruence|].
  intros a b H. simpl in *. repeat (destruct H as [[= <- <-]|H]; [split; [lia|intuition congruence]|]). destruct H.
Qed.
(** the two rings become one face, although they are different regions; the inner square stays a face of its own *)
Example c151_nested : (forall a bs, Permutation (angle_ord nest_V a bs) bs) /\
  option_map faces (bake_holes ex_lnk ex_up ex_down nest_V box_wind (angle_ord nest_V) nest_edges [(1, 0)]) =
    Some (Some [(0, [[8; 9; 10; 11]]); (1, [[0; 1; 2; 3]; [4; 5; 6; 7]; [4; 7; 6; 5]; [8; 11; 10; 9]])]) /\
  (* one square in another: an annulus and a square *)
  option_map faces (bake_holes ex_lnk ex_up ex_down nest_V box_wind (angle_ord nest_V) (firstn 8 nest_edges) [(1, 0)]) =
    Some (Some [(0, [[4; 5; 6; 7]]); (1, [[0; 1; 2; 3]; [4; 7; 6; 5]])]).
Proof. split; [apply angle_ord_ok|]. vm_compute. auto. Qed.
Print Assumptions c151_merged.
