From Verif Require Import Base Num SmallestEdge SmallestEdgeProofs Grid GridEdgesProofs DisjointSet DisjointSetSpec DisjointSetProofs FinPerm
  FaceCollapser FaceCollapserSpec FaceCollapserProofs.
From Coq Require Import Relations Permutation.
Local Open Scope Z_scope.

(** *** well-scoped operation sequences *)
Fixpoint ws (N : Z -> Prop) (ops : list ds_op) : Prop :=
  match ops with
  | [] => True
  | OpAdd x :: t => ws (fun y => N y \/ y = x) t
  | OpJoin a b :: t => N a /\ N b /\ ws N t
  end.
Lemma ws_mono ops : forall (N N' : Z -> Prop), (forall x, N x -> N' x) -> ws N ops -> ws N' ops.
Proof.
  induction ops as [|[x|a b] ops IH]; simpl; intros N N' H; auto.
  - apply IH. intros y [?|?]; auto.
  - intros (? & ? & ?). repeat split; auto. eapply IH; eauto.
Qed.
Lemma ws_app p q : forall N, ws N (p ++ q) <-> ws N p /\ ws (fun x => N x \/ added p x) q.
Proof.
  induction p as [|[x|a b] p IH]; simpl; intros N.
  - split; [intros H; split; auto; eapply ws_mono; [|exact H]; intros ?; simpl; tauto|intros [_ H]; eapply ws_mono; [|exact H]; intros ?; simpl; tauto].
  - rewrite IH. split; intros [H1 H2]; split; auto; (eapply ws_mono; [|exact H2]; intros ?; simpl; tauto).
  - rewrite IH. tauto.
Qed.
Lemma joined_ws ops a b : ws (fun _ => False) ops -> (joined ops a b <-> In (OpJoin a b) ops).
Proof.
  intros H. unfold joined. split.
  - intros (p & q & -> & _). apply in_app_iff; simpl; auto.
  - intros Hin. apply in_split in Hin as (p & q & ->). exists p, q. split; auto.
    apply ws_app in H as [_ H]. simpl in H. tauto.
Qed.

(** *** node order *)
Lemma join_nodes lnk d a b : ds_nodes (ds_join lnk d a b) = ds_nodes d.
Proof.
  unfold ds_join. destruct (ds_root d a); auto. destruct (ds_root d b); auto. destruct (_ =? _); auto.
  destruct (lnk _ _ _); apply relabel_nodes.
Qed.
Lemma add_nodes d x : ds_nodes (add_node d x) = if in_dec Z.eq_dec x (ds_nodes d) then ds_nodes d else ds_nodes d ++ [x].
Proof.
  unfold add_node, has_node. destruct (in_dec Z.eq_dec x (ds_nodes d)) as [Hin|Hn].
  - apply ds_root_In in Hin as [r ->]; auto.
  - destruct (ds_root d x) eqn:E; [exfalso; apply Hn, ds_root_In; eauto|]. unfold ds_nodes. rewrite map_app. auto.
Qed.
Lemma steps_nodes_same lnk ops : forall d, (forall x, In (OpAdd x) ops -> In x (ds_nodes d)) ->
  ds_nodes (fold_left (ds_step lnk) ops d) = ds_nodes d.
Proof.
  induction ops as [|[x|a b] ops IH]; intros d H; simpl; auto.
  - assert (E : ds_nodes (add_node d x) = ds_nodes d).
    { rewrite add_nodes. destruct (in_dec _ _ _) as [|n]; auto. exfalso; apply n, H; simpl; auto. }
    rewrite IH; auto. intros y Hy. rewrite E. apply H; simpl; auto.
  - rewrite IH; [apply join_nodes|]. intros y Hy. rewrite join_nodes. apply H; simpl; auto.
Qed.

(** *** reindexing by rank *)
Lemma map_set_length_new k v (m : list (Z * Z)) : ~ In k (keys m) -> length (map_set Z.compare k v m) = S (length m).
Proof.
  induction m as [|[k' v'] m IH]; simpl; intros H; auto.
  destruct (Z.compare_spec k k'); simpl; auto; [subst; exfalso; auto|]. rewrite IH; auto.
Qed.
Definition rank_step (re : list (Z * Z)) (n : Z) : list (Z * Z) := map_set Z.compare n (Z.of_nat (length re)) re.
Lemma rank_fold ns : forall re, ssorted Z.compare (keys re) -> NoDup ns -> (forall n, In n ns -> ~ In n (keys re)) ->
  let r := fold_left rank_step ns re in
  ssorted Z.compare (keys r) /\ length r = (length re + length ns)%nat /\
  forall n j, map_find Z.compare n r = Some j <->
    (exists p, nth_error ns p = Some n /\ j = Z.of_nat (length re + p)) \/ map_find Z.compare n re = Some j.
Proof.
  induction ns as [|n0 ns IH]; intros re HS HN HD; simpl.
  - split; auto. split; [lia|]. intros n j. split; auto. intros [([|p] & E & _)|?]; [discriminate..|auto].
  - inversion HN; subst.
    assert (L : length (rank_step re n0) = S (length re)) by (apply map_set_length_new; apply HD; simpl; auto).
    destruct (IH (rank_step re n0)) as (S1 & S2 & S3).
    + apply (map_set_sorted Zcompare_total); auto.
    + auto.
    + intros n Hn. unfold rank_step. rewrite map_set_keys, (set_insert_In Zcompare_total). intros [->|Hin]; auto. apply (HD n); simpl; auto.
    + split; auto. rewrite L in *. split; [lia|]. intros n j. rewrite S3. unfold rank_step.
      rewrite (map_find_set Zcompare_total) by auto. destruct (Z.compare_spec n n0) as [->|Hlt|Hgt].
      * split.
        -- intros [(p & E & ->)|[= <-]]; [exfalso; apply H1; eapply nth_error_In; eauto|].
           left. exists 0%nat. split; auto; f_equal; lia.
        -- intros [([|p] & E & ->)|E]; [right; f_equal; f_equal; lia| |].
           ++ exfalso. simpl in E. apply H1. eapply nth_error_In; eauto.
           ++ exfalso. apply (HD n0); simpl; auto. apply (find_key_In _ _ _ Zcompare_total); eauto.
      * split.
        -- intros [(p & E & ->)|E]; auto. left. exists (S p). split; auto; f_equal; lia.
        -- intros [([|p] & E & ->)|E]; auto; [simpl in E; injection E; lia|]. left. exists p. split; auto; f_equal; lia.
      * split.
        -- intros [(p & E & ->)|E]; auto. left. exists (S p). split; auto; f_equal; lia.
        -- intros [([|p] & E & ->)|E]; auto; [simpl in E; injection E; lia|]. left. exists p. split; auto; f_equal; lia.
Qed.

Lemma ranks_nil ns : NoDup ns -> forall n j,
  map_find Z.compare n (fold_left rank_step ns []) = Some j <-> exists p, nth_error ns p = Some n /\ j = Z.of_nat p.
Proof.
  intros HN n j. destruct (rank_fold ns [] (ss_nil _) HN) as (_ & _ & S); [intros ? ? []|]. rewrite S. simpl.
  split; [intros [?|?]; [auto|discriminate]|auto].
Qed.

(** *** initial ids *)
Lemma simple_perm (l : list edge) : Permutation (flat_map (fun e => [e; swap_edge e]) l) (l ++ map swap_edge l).
Proof.
  induction l as [|e l IH]; simpl; [constructor|]. constructor.
  rewrite IH. apply Permutation_cons_app. reflexivity.
Qed.
Lemma simple_NoDup edges : simple_edges edges -> NoDup (edges ++ map swap_edge edges).
Proof.
  intros [H1 H2]. apply NoDup_app_intro; auto.
  - apply FinFun.Injective_map_NoDup; auto. intros [a b] [c d]; unfold swap_edge; simpl; congruence.
  - intros [a b] Hx Hin. apply in_map_iff in Hin as ([c d] & E & Hin). unfold swap_edge in E; simpl in E. injection E as -> ->.
    apply (H2 a b Hx); auto.
Qed.

Definition assigns (l : list (Z * edge)) : list (edge * (Z * bool)) :=
  flat_map (fun '(c, e) => [(e, (2 * c, true)); (swap_edge e, (2 * c + 1, false))]) l.
Lemma init_assigns l : forall m, fold_left init_step l m = fold_left (fun g '(k, v) => map_set edge_cmp k v g) (assigns l) m.
Proof. induction l as [|[c e] l IH]; intros m; simpl; auto. Qed.
Lemma assigns_keys l : map fst (assigns l) = flat_map (fun e => [e; swap_edge e]) (map snd l).
Proof. induction l as [|[c e] l IH]; simpl; auto. f_equal. f_equal. exact IH. Qed.

Lemma init_find edges : simple_edges edges -> forall e v, map_find edge_cmp e (init_map edges) = Some v <->
  exists i e0, nth_error edges i = Some e0 /\
    (e = e0 /\ v = (2 * Z.of_nat i, true) \/ e = swap_edge e0 /\ v = (2 * Z.of_nat i + 1, false)).
Proof.
  intros HS e v. change (init_map edges) with (fold_left init_step (enum_from 0 edges) []). rewrite init_assigns.
  destruct (fold_set_spec _ _ _ edge_total (assigns (enum_from 0 edges)) [] (ss_nil _)) as [_ S2].
  - rewrite assigns_keys, enum_from_snd. eapply Permutation_NoDup; [symmetry; apply simple_perm|]. apply simple_NoDup; auto.
  - intros ? ? [].
  - rewrite S2. simpl. unfold assigns. rewrite in_flat_map. split.
    + intros [([c e0] & Hin & Hv)|?]; [|discriminate]. apply enum_from_In in Hin as [Hc Hn]. rewrite Z.sub_0_r in Hn.
      exists (Z.to_nat c), e0. rewrite Z2Nat.id by lia. split; auto. destruct Hv as [[= -> ->]|[[= -> ->]|[]]]; auto.
    + intros (i & e0 & Hn & Hv). left. exists (Z.of_nat i, e0). split.
      * apply enum_from_In. split; [lia|]. rewrite Z.sub_0_r, Nat2Z.id. auto.
      * destruct Hv as [[-> ->]|[-> ->]]; simpl; auto.
Qed.

(** *** finalize: positions and data of the roots *)
Definition rp_from (k : Z) (d : ds) : list (Z * Z) :=
  map (fun '(i, (n, _)) => (i, n)) (filter (fun '(_, (n, r)) => n =? r) (enum_from k d)).
Lemma rp_app d d' : forall k, rp_from k (d ++ d') = rp_from k d ++ rp_from (k + Z.of_nat (length d)) d'.
Proof.
  induction d as [|[n r] d IH]; intros k; [simpl; f_equal; lia|].
  unfold rp_from in *. cbn [app enum_from filter]. replace (k + Z.of_nat (length ((n, r) :: d))) with (k + 1 + Z.of_nat (length d)) by (simpl length; lia).
  destruct (n =? r); cbn [map app]; rewrite IH; auto.
Qed.
Lemma rp_aligned d : forall k, ds_nodes d = zrange k (length d) -> rp_from k d = map (fun n => (n, n)) (ds_roots d).
Proof.
  induction d as [|[n r] d IH]; intros k H; [auto|].
  change (length ((n, r) :: d)) with (1 + length d)%nat in H. rewrite zrange_app in H.
  unfold zrange at 1 in H. cbn [seq map app ds_nodes fst] in H. injection H as H1 H2. rewrite Z.add_0_r in H1. subst n.
  unfold rp_from, ds_roots in *. cbn [enum_from filter]. destruct (k =? r); cbn [map fst]; rewrite IH; auto.
Qed.
Lemma re_fold null l : forall re,
  fold_left (fun re '(i, n) => if i =? null then re else map_set Z.compare n (Z.of_nat (length re)) re) l re =
  fold_left rank_step (map snd (filter (fun x => negb (fst x =? null)) l)) re.
Proof. induction l as [|[i n] l IH]; intros re; simpl; auto. destruct (i =? null); simpl; auto. Qed.
Lemma filter_pairs (f : Z -> bool) l : map snd (filter (fun x => f (fst x)) (map (fun n : Z => (n, n)) l)) = filter f l.
Proof. induction l as [|a l IH]; simpl; auto. destruct (f a); simpl; rewrite IH; auto. Qed.
Lemma roots_app d d' : ds_roots (d ++ d') = ds_roots d ++ ds_roots d'.
Proof. unfold ds_roots. rewrite filter_app, map_app. auto. Qed.

Section Bake.
  Variable lnk : ds -> Z -> Z -> bool.
  Variable ord : Z -> list Z -> list Z.
  Hypothesis ord_perm : forall a bs, Permutation (ord a bs) bs.
  Variable edges rm : list edge.
  Hypothesis simple : simple_edges edges.
  Let m := init_map edges.
  Let cs := corner_list ord m.
  Let n2 := 2 * Z.of_nat (length edges).
  Let half (e : edge) := In e (keys m).

  Lemma half_iff e : half e <-> half_edge edges e.
  Proof. unfold half, m. rewrite (proj2 (init_map_keys edges)). reflexivity. Qed.
  Lemma m_sorted : ssorted edge_cmp (keys m).
  Proof. apply init_map_keys. Qed.
  Lemma m_swap e : half e -> half (swap_edge e).
  Proof. rewrite !half_iff. unfold half_edge, swap_edge; simpl. destruct e; simpl; tauto. Qed.
  Lemma succ_ok :
    (forall e, half e -> exists ne, inc (deg_of cs) e = Some ne /\ half ne /\ snd e = fst ne) /\
    (forall e ne, inc (deg_of cs) e = Some ne -> half e) /\
    (forall e e' ne, inc (deg_of cs) e = Some ne -> inc (deg_of cs) e' = Some ne -> e = e') /\
    (forall ne, half ne -> exists e, inc (deg_of cs) e = Some ne).
  Proof. apply succ_perm; auto. intros e; apply m_swap. Qed.

  Definition fsucc (e : edge) : edge := match inc (deg_of cs) e with Some x => x | None => e end.
  Lemma fsucc_inc e : half e -> inc (deg_of cs) e = Some (fsucc e).
  Proof. intros H. unfold fsucc. destruct (proj1 succ_ok e H) as (ne & -> & _). auto. Qed.
  Lemma fsucc_in e : In e (keys m) -> In (fsucc e) (keys m).
  Proof. intros H. unfold fsucc. destruct (proj1 succ_ok e H) as (ne & -> & ? & _). auto. Qed.
  Lemma fsucc_inj x y : In x (keys m) -> In y (keys m) -> fsucc x = fsucc y -> x = y.
  Proof.
    intros Hx Hy E. destruct succ_ok as (_ & _ & S & _). apply (S x y (fsucc x)).
    - apply fsucc_inc; auto.
    - rewrite E. apply fsucc_inc; auto.
  Qed.
  Notation orb := (orbit fsucc).
  Lemma reach_orbit e e' : half e -> (reach (inc (deg_of cs)) e e' <-> orb e e').
  Proof.
    intros H. split.
    - induction 1 as [e|e e1 e2 H1 _ IH]; [apply orbit_refl|].
      assert (e1 = fsucc e) by (unfold fsucc; rewrite H1; auto). subst.
      apply orbit_trans with (fsucc e); [exists 1%nat; auto|]. apply IH. apply fsucc_in; auto.
    - intros [n <-]. revert e H. induction n as [|n IH]; intros e H; simpl; [constructor|].
      rewrite <- iter_S_comm. econstructor; [apply fsucc_inc; auto|]. apply IH, fsucc_in; auto.
  Qed.

  (** ids *)
  Lemma id_find e f : face_of m e = Some f <-> exists i e0, nth_error edges i = Some e0 /\
    (e = e0 /\ f = 2 * Z.of_nat i \/ e = swap_edge e0 /\ f = 2 * Z.of_nat i + 1).
  Proof.
    unfold face_of. split.
    - destruct (map_find edge_cmp e m) as [[f' b]|] eqn:E; [|discriminate]. intros [= <-].
      apply init_find in E as (i & e0 & Hn & H); auto. exists i, e0. split; auto.
      destruct H as [[-> [= -> _]]|[-> [= -> _]]]; auto.
    - intros (i & e0 & Hn & H).
      assert (E : exists b, map_find edge_cmp e m = Some (f, b)).
      { destruct H as [[-> ->]|[-> ->]]; eexists; apply init_find; auto; exists i, e0; split; auto. }
      destruct E as [b ->]. auto.
  Qed.
  Lemma id_ex e : half e -> exists f, face_of m e = Some f /\ 0 <= f < n2.
  Proof.
    intros H. apply (find_key_In _ _ _ edge_total) in H; [|apply m_sorted]. destruct H as [[f b] E].
    exists f. assert (F : face_of m e = Some f) by (unfold face_of; rewrite E; auto). split; auto.
    apply id_find in F as (i & e0 & Hn & H). assert (i < length edges)%nat by (apply nth_error_Some; congruence).
    unfold n2. destruct H as [[_ ->]|[_ ->]]; lia.
  Qed.
  Lemma id_half e f : face_of m e = Some f -> half e.
  Proof.
    unfold face_of, half. intros H. apply (find_key_In _ _ _ edge_total); [apply m_sorted|].
    destruct (map_find edge_cmp e m) eqn:E; [eauto|discriminate].
  Qed.
  Lemma id_range e f : face_of m e = Some f -> 0 <= f < n2.
  Proof. intros H. destruct (id_ex e (id_half _ _ H)) as (f' & E & ?). congruence. Qed.
  Lemma id_inj e e' f : face_of m e = Some f -> face_of m e' = Some f -> e = e'.
  Proof.
    rewrite !id_find. intros (i & e0 & Hn & H) (i' & e0' & Hn' & H').
    destruct H as [[-> ->]|[-> ->]], H' as [[-> E]|[-> E]]; try lia.
    - assert (i = i') by lia. subst. congruence.
    - assert (i = i') by lia. subst. congruence.
  Qed.
  Lemma id_surj f : 0 <= f < n2 -> exists e, face_of m e = Some f.
  Proof.
    intros H. set (i := Z.to_nat (f / 2)). assert (D := Z.div_mod f 2 ltac:(lia)). assert (M := Z.mod_pos_bound f 2 ltac:(lia)).
    assert (Hi : (i < length edges)%nat) by (unfold i, n2 in *; lia).
    destruct (nth_error edges i) as [e0|] eqn:E; [|apply nth_error_None in E; lia].
    assert (Z.of_nat i = f / 2) by (unfold i; lia).
    destruct (Z.eq_dec (f mod 2) 0).
    - exists e0. apply id_find. exists i, e0. split; auto. left; split; auto. lia.
    - exists (swap_edge e0). apply id_find. exists i, e0. split; auto. right; split; auto. lia.
  Qed.

  (** operations *)
  Let rmops := flat_map (removal_ops_edge m) rm.
  Let ops := init_ops edges ++ rmops ++ corner_ops m cs.
  Lemma init_ops_gen (l : list edge) : forall k,
    let o := flat_map (fun '(cid, _) => [OpAdd (2 * cid); OpAdd (2 * cid + 1)]) (enum_from k l) in
    (forall x, added o x <-> 2 * k <= x < 2 * k + 2 * Z.of_nat (length l)) /\ (forall N, ws N o) /\ (forall a b, ~ In (OpJoin a b) o).
  Proof.
    induction l as [|e l IH]; intros k; cbn [enum_from flat_map app added length ws In].
    - split; [intros; split; [tauto|lia]|split; [auto|tauto]].
    - destruct (IH (k + 1)) as (H1 & H2 & H3). split; [|split].
      + intros x. rewrite H1. lia.
      + intros N. apply H2.
      + intros a b [?|[?|?]]; try discriminate. eapply H3; eauto.
  Qed.
  Lemma init_added x : added (init_ops edges) x <-> 0 <= x < n2.
  Proof. destruct (init_ops_gen edges 0) as [H _]. unfold init_ops. rewrite H. unfold n2. lia. Qed.
  Lemma added_In o x : added o x <-> In (OpAdd x) o.
  Proof. induction o as [|[y|a b] o IH]; simpl; [tauto|rewrite IH; intuition congruence|rewrite IH; intuition congruence]. Qed.
  Lemma rm_added x : added rmops x <-> x = -1 /\ rm <> [].
  Proof.
    rewrite added_In. unfold rmops. rewrite in_flat_map. split.
    - intros (r & Hr & Hin). split; [|intros ->; destruct Hr]. unfold removal_ops_edge in Hin.
      destruct Hin as [[= <-]|Hin]; auto. destruct (face_of m r); [destruct Hin as [?|[]]; discriminate|destruct Hin].
    - intros [-> Hr]. destruct rm as [|r rm']; [congruence|]. exists r. split; simpl; auto.
  Qed.
  Lemma corner_ops_In o : In o (corner_ops m cs) <-> exists e ne f g, In (e, ne) cs /\ face_of m e = Some f /\ face_of m ne = Some g /\ o = OpJoin f g.
  Proof.
    unfold corner_ops. rewrite in_flat_map. split.
    - intros ([e ne] & Hin & Ho). destruct (face_of m e) as [f|] eqn:E; [|destruct Ho].
      destruct (face_of m ne) as [g|] eqn:E'; [|destruct Ho]. destruct Ho as [<-|[]]. exists e, ne, f, g. auto.
    - intros (e & ne & f & g & Hin & E & E' & ->). exists (e, ne). split; auto. rewrite E, E'. simpl; auto.
  Qed.
  Lemma rm_ops_In a b : In (OpJoin a b) rmops <-> exists r, In r rm /\ face_of m r = Some a /\ b = -1.
  Proof.
    unfold rmops, removal_ops_edge. rewrite in_flat_map. split.
    - intros (r & Hr & [?|Hin]); [discriminate|]. exists r. split; auto. destruct (face_of m r); [|destruct Hin].
      destruct Hin as [[= -> <-]|[]]. auto.
    - intros (r & Hr & E & ->). exists r. split; auto. rewrite E. simpl; auto.
  Qed.
  Lemma ws_all (N : Z -> Prop) o : (forall a b, In (OpJoin a b) o -> N a /\ N b) -> ws N o.
  Proof.
    revert N. induction o as [|[x|a b] o IH]; intros N H; simpl; auto.
    - apply IH. intros a b Hin. destruct (H a b); simpl; auto.
    - destruct (H a b); simpl; auto. split; auto. split; auto. apply IH. intros; apply H; simpl; auto.
  Qed.
  Lemma ops_ws : ws (fun _ => False) ops.
  Proof.
    unfold ops. apply ws_app. split; [apply init_ops_gen|]. apply ws_app. split.
    - eapply ws_mono with (N := fun x => 0 <= x < n2); [intros x Hx; right; apply init_added; auto|].
      unfold rmops. induction rm as [|r rs IH]; [exact I|]. simpl. unfold removal_ops_edge at 1.
      destruct (face_of m r) eqn:E; simpl.
      + split; [left; eapply id_range; eauto|]. split; auto. eapply ws_mono; [|exact IH]. auto.
      + eapply ws_mono; [|exact IH]. auto.
    - apply ws_all. intros a b Hin. apply corner_ops_In in Hin as (e & ne & f & g & Hin & E & E' & [= -> ->]).
      apply id_range in E. apply id_range in E'. rewrite !init_added. tauto.
  Qed.
  Lemma ops_added x : added ops x <-> 0 <= x < n2 \/ (x = -1 /\ rm <> []).
  Proof.
    unfold ops. rewrite !added_app, init_added, rm_added. rewrite (added_In (corner_ops m cs)), corner_ops_In.
    split; [|tauto]. intros [?|[?|(e & ne & f & g & _ & _ & _ & ?)]]; auto. discriminate.
  Qed.
  Lemma ops_joined a b : joined ops a b <->
    (exists e, half e /\ face_of m e = Some a /\ face_of m (fsucc e) = Some b) \/
    (exists r, In r rm /\ face_of m r = Some a /\ b = -1).
  Proof.
    rewrite joined_ws by apply ops_ws. unfold ops. rewrite !in_app_iff, corner_ops_In, rm_ops_In. split.
    - intros [H|[H|(e & ne & f & g & H & E & E' & [= -> ->])]]; auto.
      + exfalso. destruct (init_ops_gen edges 0) as (_ & _ & H3). eapply H3; eauto.
      + left. exists e. assert (H' : inc (deg_of cs) e = Some ne).
        { apply deg_find; auto. }
        assert (half e) by (eapply id_half; eauto). split; auto. split; auto. unfold fsucc. rewrite H'; auto.
    - intros [(e & H & E & E')|H]; auto. right; right. exists e, (fsucc e), a, b. split; auto.
      apply deg_find; auto. apply fsucc_inc; auto.
  Qed.

  Definition hit (e : edge) : Prop := exists r, In r rm /\ half r /\ orb e r.
  Lemma hit_orbit e e' : half e -> orb e e' -> (hit e <-> hit e').
  Proof.
    intros H HO. split; intros (r & Hr & Hh & Ho); exists r; split; auto; split; auto.
    - eapply orbit_trans; [|exact Ho]. eapply orbit_sym; eauto using edge_eq_dec, fsucc_in, fsucc_inj.
    - eapply orbit_trans; eauto.
  Qed.

  Definition cls (x : Z) (z : edge) : Prop :=
    (exists e, face_of m e = Some x /\ (orb e z \/ (hit e /\ hit z))) \/ (x = -1 /\ hit z).
  Lemma cls_id e x z : face_of m e = Some x -> (cls x z <-> orb e z \/ (hit e /\ hit z)).
  Proof.
    intros E. unfold cls. split.
    - intros [(e' & E' & H)|[-> _]]; [|apply id_range in E; lia]. assert (e = e') by (eapply id_inj; eauto). subst; auto.
    - intros H. left. eauto.
  Qed.
  Lemma cls_null z : cls (-1) z <-> hit z.
  Proof.
    unfold cls. split; [|auto]. intros [(e & E & _)|[_ H]]; auto. apply id_range in E; lia.
  Qed.
  Lemma cls_conn x y : connected (joined ops) x y -> forall z, cls x z <-> cls y z.
  Proof.
    induction 1 as [x y H|x|x y _ IH|x y z _ IH1 _ IH2]; intros w; try tauto.
    - apply ops_joined in H as [(e & Hh & E & E')|(r & Hr & E & ->)].
      + rewrite (cls_id e), (cls_id (fsucc e)) by auto.
        assert (O1 : orb e (fsucc e)) by (exists 1%nat; auto).
        assert (O2 : orb (fsucc e) e) by (eapply orbit_sym; eauto using edge_eq_dec, fsucc_in, fsucc_inj).
        rewrite (hit_orbit e (fsucc e)) by auto.
        split; (intros [H|H]; [left; eapply orbit_trans; eauto|auto]).
      + rewrite (cls_id r), cls_null by auto.
        assert (HR : half r) by (eapply id_half; eauto).
        assert (hit r) by (exists r; split; [auto|split; [auto|apply orbit_refl]]).
        split; [|auto]. intros [HO|[_ HH]]; auto. apply (hit_orbit r w); auto.
    - symmetry; auto.
    - rewrite IH1; auto.
  Qed.
  Lemma conn_orbit e e' x x' : face_of m e = Some x -> face_of m e' = Some x' ->
    (connected (joined ops) x x' <-> orb e e' \/ (hit e /\ hit e')).
  Proof.
    intros E E'. split.
    - intros C. apply (cls_id e x e' E). apply (cls_conn _ _ C). apply (cls_id e' x' e' E'). left. apply orbit_refl.
    - assert (ORB : forall n e x x', face_of m e = Some x -> face_of m (iter fsucc n e) = Some x' -> connected (joined ops) x x').
      { clear e e' x x' E E'. intros n. induction n as [|n IH]; simpl; intros e x x' E E'.
        - assert (x = x') by congruence. subst. apply rst_refl.
        - assert (HI : half (iter fsucc n e)) by (apply iter_in; [apply fsucc_in|eapply id_half; eauto]).
          destruct (id_ex _ HI) as (y & Ey & _). eapply rst_trans; [eapply IH; eauto|].
          apply rst_step. apply ops_joined. left. exists (iter fsucc n e). auto. }
      assert (NUL : forall e x, face_of m e = Some x -> hit e -> connected (joined ops) x (-1)).
      { intros e1 x1 E1 (r & Hr & Hh & [n HO]). destruct (id_ex r Hh) as (y & Ey & _).
        eapply rst_trans; [eapply (ORB n e1); eauto; rewrite HO; eauto|]. apply rst_step. apply ops_joined. right. eauto. }
      intros [[n HO]|[H1 H2]].
      + eapply (ORB n e); eauto. rewrite HO; auto.
      + eapply rst_trans; [eapply NUL; eauto|]. apply rst_sym. eapply NUL; eauto.
  Qed.
  Lemma conn_null e x : face_of m e = Some x -> (connected (joined ops) x (-1) <-> hit e).
  Proof.
    intros E. split.
    - intros C. apply cls_null. apply (cls_conn _ _ C). apply (cls_id e x e E). left; apply orbit_refl.
    - intros H. assert (H' := H). destruct H as (r & Hr & Hh & HO). destruct (id_ex r Hh) as (y & Ey & _).
      eapply rst_trans; [apply (conn_orbit e r x y E Ey); auto|]. apply rst_step, ops_joined. right. eauto.
  Qed.

  (** *** finalize *)
  Let d := ds_run lnk ops.
  Lemma d_inv : ds_inv d (added ops) (joined ops).
  Proof. apply ds_run_inv. Qed.

  Lemma init_nodes (l : list edge) : forall k d0, (forall x, 2 * k <= x -> ~ In x (ds_nodes d0)) ->
    ds_nodes (fold_left (ds_step lnk) (flat_map (fun '(cid, _) => [OpAdd (2 * cid); OpAdd (2 * cid + 1)]) (enum_from k l)) d0)
    = ds_nodes d0 ++ zrange (2 * k) (2 * length l).
  Proof.
    induction l as [|e l IH]; intros k d0 H; [simpl; rewrite app_nil_r; auto|]. cbn [enum_from flat_map app fold_left ds_step length].
    assert (E : ds_nodes (add_node (add_node d0 (2 * k)) (2 * k + 1)) = ds_nodes d0 ++ [2 * k; 2 * k + 1]).
    { rewrite add_nodes, (add_nodes d0). destruct (in_dec _ (2 * k) _) as [i|_]; [exfalso; apply (H (2 * k)); auto; lia|].
      destruct (in_dec _ _ _) as [i|_]; [|rewrite <- app_assoc; auto]. apply in_app_iff in i as [i|[i|[]]]; [exfalso; apply (H (2 * k + 1)); auto; lia|lia]. }
    rewrite IH.
    - rewrite E, <- app_assoc. f_equal. replace (2 * S (length l))%nat with (2 + 2 * length l)%nat by lia.
      rewrite zrange_app. unfold zrange at 2. cbn [seq map app]. rewrite Z.add_0_r. do 2 f_equal. f_equal. lia.
    - intros x Hx. rewrite E, in_app_iff. cbn [In]. intros [Hin|[?|[?|[]]]]; try lia. apply (H x); auto. lia.
  Qed.
  Lemma d_nodes : ds_nodes d = zrange 0 (2 * length edges) ++ (if match rm with [] => true | _ => false end then [] else [-1]).
  Proof.
    unfold d, ds_run, ops. rewrite !fold_left_app.
    assert (N1 := init_nodes edges 0 [] ltac:(intros x _ [])). simpl app in N1. change (2 * 0) with 0 in N1.
    fold (init_ops edges) in N1. set (d1 := fold_left (ds_step lnk) (init_ops edges) []) in *. clearbody d1.
    assert (N2 : ds_nodes (fold_left (ds_step lnk) rmops d1) = ds_nodes d1 ++ (if match rm with [] => true | _ => false end then [] else [-1])).
    { unfold rmops. destruct rm as [|r rs]; [simpl; rewrite app_nil_r; auto|].
      assert (E : ds_nodes (add_node d1 (-1)) = ds_nodes d1 ++ [-1]).
      { rewrite add_nodes. destruct (in_dec _ _ _) as [i|]; auto. rewrite N1 in i. apply zrange_In in i. lia. }
      change (flat_map (removal_ops_edge m) (r :: rs)) with
        (OpAdd (-1) :: (match face_of m r with Some f => [OpJoin f (-1)] | None => [] end ++ flat_map (removal_ops_edge m) rs)).
      cbn [fold_left ds_step]. rewrite steps_nodes_same; auto.
      intros x Hx. rewrite E. apply in_app_iff. right. left.
      apply in_app_iff in Hx as [Hx|Hx].
      - destruct (face_of m r); [destruct Hx as [?|[]]; discriminate|destruct Hx].
      - apply in_flat_map in Hx as (r' & _ & [[= <-]|Hx]); auto. destruct (face_of m r'); [destruct Hx as [?|[]]; discriminate|destruct Hx]. }
    rewrite steps_nodes_same, N2, N1; auto.
    intros x Hx. apply corner_ops_In in Hx as (? & ? & ? & ? & _ & _ & _ & ?). discriminate.
  Qed.
  Let null := match ds_root d (-1) with Some r => r | None => -1 end.
  Let rs := filter (fun n => negb (n =? null)) (ds_roots d).
  Lemma d_split : exists d1 d2, d = d1 ++ d2 /\ ds_nodes d1 = zrange 0 (length d1) /\ length d1 = (2 * length edges)%nat /\
    (d2 = [] \/ exists r, d2 = [(-1, r)]).
  Proof.
    assert (H := d_nodes). unfold ds_nodes in H. set (N := (2 * length edges)%nat) in *.
    exists (firstn N d), (skipn N d). split; [symmetry; apply firstn_skipn|].
    assert (L : (N <= length d)%nat). { apply (f_equal (@length _)) in H. rewrite map_length, app_length, zrange_length in H. lia. }
    assert (L1 : length (firstn N d) = N) by (apply firstn_length_le; auto).
    rewrite <- (firstn_skipn N d), map_app in H at 1.
    assert (E : map fst (firstn N d) = zrange 0 N).
    { apply (f_equal (firstn N)) in H. rewrite !firstn_app, map_length, L1, zrange_length, Nat.sub_diag, !firstn_O, !app_nil_r in H.
      rewrite (firstn_all2 (map fst _)) in H by (rewrite map_length; lia).
      rewrite (firstn_all2 (zrange 0 N)) in H by (rewrite zrange_length; lia). auto. }
    rewrite E in H. apply app_inv_head in H. split; [unfold ds_nodes; rewrite L1; auto|]. split; auto.
    destruct rm; [left; apply map_eq_nil in H; auto|]. right.
    destruct (skipn N d) as [|[n r] [|]]; try discriminate. simpl in H. injection H as ->. eauto.
  Qed.
  Lemma root_pos_ns : map snd (filter (fun x => negb (fst x =? null)) (root_positions d)) = rs \/
    (map snd (filter (fun x => negb (fst x =? null)) (root_positions d)) = rs ++ [-1] /\ null = -1).
  Proof.
    change (root_positions d) with (rp_from 0 d).
    destruct d_split as (d1 & d2 & E & E1 & L1 & E2). unfold rs. rewrite E. rewrite rp_app, roots_app, filter_app, map_app, (filter_app _ (ds_roots d1)).
    rewrite (rp_aligned d1 0 E1), (filter_pairs (fun n => negb (n =? null))). destruct E2 as [->|[r ->]]; [left; auto|].
    assert (RN : null = r).
    { unfold null. rewrite E, ds_root_app. replace (ds_root d1 (-1)) with (@None Z); [reflexivity|].
      destruct (ds_root d1 (-1)) eqn:ER; auto. exfalso.
      assert (Hin : In (-1) (ds_nodes d1)) by (apply ds_root_In; eauto). rewrite E1 in Hin. apply zrange_In in Hin. lia. }
    rewrite RN. unfold rp_from, ds_roots. cbn [enum_from filter].
    destruct (Z.eqb_spec (-1) r) as [<-|Hne]; cbn [map filter fst snd]; [|left; auto].
    rewrite Z.eqb_refl. cbn [negb]. rewrite app_nil_r. replace (0 + Z.of_nat (length d1) =? -1) with false by lia. cbn. right; auto.
  Qed.
  Lemma rs_NoDup : NoDup rs.
  Proof. apply NoDup_filter, ds_roots_NoDup, (di_nodup _ _ _ d_inv). Qed.
  Lemma rs_In r : In r rs <-> ds_root d r = Some r /\ r <> null.
  Proof. unfold rs. rewrite filter_In, ds_roots_In by apply (di_nodup _ _ _ d_inv). rewrite negb_true_iff, Z.eqb_neq. tauto. Qed.
  Lemma ns_NoDup : NoDup (map snd (filter (fun x => negb (fst x =? null)) (root_positions d))).
  Proof.
    destruct root_pos_ns as [->|[-> N]]; [apply rs_NoDup|]. apply NoDup_app_intro; [apply rs_NoDup|repeat constructor; intros []|].
    intros x Hx [<-|[]]. apply rs_In in Hx as [_ ?]. congruence.
  Qed.
  Lemma reindexer_find n j : map_find Z.compare n (finalize_reindexer d) = Some j <->
    (n = null /\ j = -1) \/ (n <> null /\ exists p, nth_error rs p = Some n /\ j = Z.of_nat p).
  Proof.
    unfold finalize_reindexer. fold null. rewrite re_fold.
    set (ns := map snd (filter (fun x => negb (fst x =? null)) (root_positions d))).
    assert (NS := ns_NoDup). fold ns in NS.
    destruct (rank_fold ns [] (ss_nil _) NS) as (S1 & _); [intros ? ? []|].
    rewrite (map_find_set Zcompare_total) by auto.
    destruct (Z.compare_spec n null) as [->|Hlt|Hgt].
    - split; [intros [= <-]; auto|intros [[_ ->]|[? _]]; [auto|congruence]].
    - rewrite ranks_nil by auto. split.
      + intros (p & E & ->). right. split; [lia|]. exists p. split; auto. unfold ns in E. destruct root_pos_ns as [R|[R N]]; rewrite R in E; auto.
        destruct (Nat.lt_ge_cases p (length rs)); [rewrite nth_error_app1 in E; auto|].
        rewrite nth_error_app2 in E by auto. destruct (p - length rs)%nat as [|[|]]; simpl in E; try discriminate. injection E; lia.
      + intros [[-> _]|(_ & p & E & ->)]; [lia|]. exists p. split; auto. unfold ns. destruct root_pos_ns as [->|[-> N]]; auto.
        rewrite nth_error_app1; auto. apply nth_error_Some. congruence.
    - rewrite ranks_nil by auto. split.
      + intros (p & E & ->). right. split; [lia|]. exists p. split; auto. unfold ns in E. destruct root_pos_ns as [R|[R N]]; rewrite R in E; auto.
        destruct (Nat.lt_ge_cases p (length rs)); [rewrite nth_error_app1 in E; auto|].
        rewrite nth_error_app2 in E by auto. destruct (p - length rs)%nat as [|[|]]; simpl in E; try discriminate. injection E; lia.
      + intros [[-> _]|(_ & p & E & ->)]; [lia|]. exists p. split; auto. unfold ns. destruct root_pos_ns as [->|[-> N]]; auto.
        rewrite nth_error_app1; auto. apply nth_error_Some. congruence.
  Qed.

  (** final ids *)
  Lemma final_find (m0 : emap) e : map_find edge_cmp e (finalize_map d m0) =
    match map_find edge_cmp e m0 with
    | Some (c, s) => Some (match map_find Z.compare (match ds_root d c with Some r => r | None => c end) (finalize_reindexer d) with Some k => k | None => 0 end, s)
    | None => None end.
  Proof.
    unfold finalize_map. induction m0 as [|[e' [c s]] m0 IH]; simpl; auto. destruct (edge_cmp e e'); auto.
  Qed.
  Let F e := face_of (finalize_map d m) e.
  Lemma F_half e f : F e = Some f -> half e.
  Proof.
    unfold F, face_of. rewrite final_find. destruct (map_find edge_cmp e m) as [[c s]|] eqn:E; [|discriminate]. intros _.
    apply (id_half e c). unfold face_of. rewrite E. auto.
  Qed.
  Lemma F_char e : half e -> exists x r, face_of m e = Some x /\ ds_root d x = Some r /\
    ((r = null /\ hit e /\ F e = Some (-1)) \/ (r <> null /\ ~ hit e /\ exists p, nth_error rs p = Some r /\ F e = Some (Z.of_nat p))).
  Proof.
    intros H. destruct (id_ex e H) as (x & E & R).
    assert (Hx : In x (ds_nodes d)). { apply (di_nodes _ _ _ d_inv), ops_added. auto. }
    apply ds_root_In in Hx as [r Er]. exists x, r. split; auto. split; auto.
    assert (FE : forall k, map_find Z.compare r (finalize_reindexer d) = Some k -> F e = Some k).
    { intros k Hk. unfold F, face_of in *. rewrite final_find. destruct (map_find edge_cmp e m) as [[c s]|]; [|discriminate].
      simpl in E. injection E as ->. rewrite Er, Hk. auto. }
    assert (NH : r = null <-> hit e).
    { rewrite <- (conn_null e x E). unfold null. destruct (ds_root d (-1)) as [q|] eqn:Eq.
      - apply (di_conn _ _ _ d_inv); auto.
      - split.
        + intros ->. exfalso. assert (Hf := di_fix _ _ _ d_inv _ _ Er). congruence.
        + intros C. exfalso. apply (conn_null e x E) in C as (r0 & Hr0 & _).
          assert (Hin : In (-1) (ds_nodes d)). { apply (di_nodes _ _ _ d_inv), ops_added. right. split; auto. intros HN. rewrite HN in Hr0. destruct Hr0. }
          apply ds_root_In in Hin as [? ?]. congruence. }
    destruct (Z.eq_dec r null) as [Hr|Hr].
    - left. split; auto. split; [tauto|]. apply FE. apply reindexer_find. auto.
    - right. split; auto. split; [tauto|].
      assert (Hin : In r rs) by (apply rs_In; split; auto; eapply (di_fix _ _ _ d_inv); eauto).
      apply In_nth_error in Hin as [p Hp]. exists p. split; auto. apply FE, reindexer_find. right. split; auto. exists p; auto.
  Qed.
  Lemma F_total e : half e -> exists f, F e = Some f /\ -1 <= f < Z.of_nat (length rs).
  Proof.
    intros H. destruct (F_char e H) as (x & r & _ & _ & [(_ & _ & E)|(_ & _ & p & Hp & E)]); exists (match F e with Some f => f | None => 0 end); rewrite E; split; auto; [lia|].
    assert (p < length rs)%nat by (apply nth_error_Some; congruence). lia.
  Qed.
  Lemma F_null e : half e -> (F e = Some (-1) <-> hit e).
  Proof.
    intros H. destruct (F_char e H) as (x & r & _ & _ & [(_ & ? & E)|(_ & ? & p & Hp & E)]); rewrite E; [tauto|].
    split; [intros [= ?]; lia|tauto].
  Qed.
  Lemma F_same e e' : half e -> half e' -> (F e = F e' <-> orb e e' \/ (hit e /\ hit e')).
  Proof.
    intros H H'. destruct (F_char e H) as (x & r & Ex & Er & C). destruct (F_char e' H') as (x' & r' & Ex' & Er' & C').
    rewrite <- (conn_orbit e e' x x' Ex Ex'), <- (di_conn _ _ _ d_inv x x' r r' Er Er').
    destruct C as [(-> & _ & ->)|(Hr & _ & p & Hp & ->)], C' as [(-> & _ & ->)|(Hr' & _ & p' & Hp' & ->)].
    - tauto.
    - split; [intros [= ?]; lia|congruence].
    - split; [intros [= ?]; lia|congruence].
    - split.
      + intros [= E]. assert (p = p') by lia. subst. congruence.
      + intros ->. f_equal. f_equal. eapply (proj1 (NoDup_nth_error rs) rs_NoDup); [apply nth_error_Some; congruence|congruence].
  Qed.
  Lemma F_surj f : 0 <= f < Z.of_nat (length rs) -> exists e, half e /\ F e = Some f.
  Proof.
    intros Hf. destruct (nth_error rs (Z.to_nat f)) as [r|] eqn:E; [|apply nth_error_None in E; lia].
    assert (Hr : In r rs) by (eapply nth_error_In; eauto). apply rs_In in Hr as [Er Hn].
    assert (Nr : r <> -1).
    { intros ->. unfold null in Hn. rewrite Er in Hn. congruence. }
    assert (Hin : In r (ds_nodes d)) by (apply ds_root_In; eauto).
    apply (di_nodes _ _ _ d_inv), ops_added in Hin as [Hin|[? _]]; [|congruence].
    destruct (id_surj r Hin) as [e Ee]. exists e. assert (He : half e) by (eapply id_half; eauto). split; auto.
    destruct (F_char e He) as (x & r' & Ex & Er' & C). assert (x = r) by congruence. subst x.
    assert (r' = r) by congruence. subst r'. destruct C as [(? & _)|(_ & _ & p & Hp & ->)]; [congruence|].
    f_equal. assert (p = Z.to_nat f); [|lia]. eapply (proj1 (NoDup_nth_error rs) rs_NoDup); [apply nth_error_Some; congruence|congruence].
  Qed.
  Lemma F_num : exists k, 0 <= k /\
    (forall e f, half e -> F e = Some f -> -1 <= f < k) /\ (forall f, 0 <= f < k -> exists e, half e /\ F e = Some f).
  Proof.
    exists (Z.of_nat (length rs)). split; [lia|]. split; [|apply F_surj].
    intros e f H E. destruct (F_total e H) as (f' & E' & R). congruence.
  Qed.
End Bake.
