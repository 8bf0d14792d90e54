From Verif Require Import Base Num SmallestEdge SmallestEdgeProofs Grid DisjointSet DisjointSetSpec DisjointSetProofs FinPerm FaceCollapser.
From Coq Require Import Relations Permutation.
Local Open Scope Z_scope.

Lemma edge_eq_dec (x y : edge) : {x = y} + {x <> y}.
Proof. decide equality; apply Z.eq_dec. Defined.
Lemma swap_swap e : swap_edge (swap_edge e) = e.
Proof. destruct e; auto. Qed.
Lemma edge_eqb_eq e f : edge_eqb e f = true <-> e = f.
Proof.
  destruct e as [a b], f as [c d]; unfold edge_eqb; simpl. rewrite andb_true_iff, !Z.eqb_eq. split; [intros []; congruence|intros [=]; auto].
Qed.

(** *** generic map facts *)
Section GM.
  Variable (K V : Type) (cmp : K -> K -> comparison).
  Hypothesis TC : TotalCmp cmp.
  Lemma find_key_In k (m : list (K * V)) : ssorted cmp (keys m) -> (In k (keys m) <-> exists v, map_find cmp k m = Some v).
  Proof.
    intros HS. destruct (map_find cmp k m) eqn:E.
    - split; eauto. intros _. apply (map_find_Some TC) in E; auto. apply (in_map fst) in E; auto.
    - apply (map_find_None TC) in E; auto. split; [tauto|intros [? ?]; discriminate].
  Qed.
  Lemma fold_set_spec (l : list (K * V)) : forall m, ssorted cmp (keys m) -> NoDup (map fst l) ->
    (forall k, In k (map fst l) -> ~ In k (keys m)) ->
    let r := fold_left (fun g '(k, v) => map_set cmp k v g) l m in
    ssorted cmp (keys r) /\ forall k v, map_find cmp k r = Some v <-> In (k, v) l \/ map_find cmp k m = Some v.
  Proof.
    induction l as [|[k0 v0] l IH]; intros m HS HN HD; simpl.
    - split; auto. intros; tauto.
    - simpl in HN, HD. inversion HN; subst.
      destruct (IH (map_set cmp k0 v0 m)) as [S1 S2]; auto.
      + apply (map_set_sorted TC); auto.
      + intros k Hk. rewrite map_set_keys, (set_insert_In TC). intros [->|Hin]; auto. apply (HD k); auto.
      + split; auto. intros k v. rewrite S2, (map_find_set TC) by auto. destruct (cmp k k0) eqn:E.
        * apply (tc_eq TC) in E; subst k. split.
          -- intros [H|[= ->]]; auto.
          -- intros [[[= ->]|H]|H]; auto. exfalso. apply (HD k0); auto. apply find_key_In; eauto.
        * split; [tauto|]. intros [[[= -> ->]|H]|H]; auto. rewrite (tc_refl TC) in E; discriminate.
        * split; [tauto|]. intros [[[= -> ->]|H]|H]; auto. rewrite (tc_refl TC) in E; discriminate.
  Qed.
End GM.

(** *** A: the half-edge map *)
Definition half_edges (edges : list edge) (e : edge) : Prop := In e edges \/ In (swap_edge e) edges.

Lemma enum_from_snd (A : Type) k (l : list A) : map snd (enum_from k l) = l.
Proof. revert k; induction l; intros k; simpl; f_equal; auto. Qed.
Lemma enum_from_In (A : Type) (l : list A) : forall k i a, In (i, a) (enum_from k l) <-> k <= i /\ nth_error l (Z.to_nat (i - k)) = Some a.
Proof.
  induction l as [|x l IH]; intros k i a; simpl.
  - split; [tauto|]. intros [_ H]. destruct (Z.to_nat (i - k)); discriminate.
  - rewrite IH. split.
    + intros [[= -> ->]|[H1 H2]]; [rewrite Z.sub_diag; simpl; split; auto; lia|]. split; [lia|].
      replace (Z.to_nat (i - k)) with (S (Z.to_nat (i - (k + 1)))) by lia. auto.
    + intros [H1 H2]. destruct (Z.eq_dec i k) as [->|Hne].
      * rewrite Z.sub_diag in H2; simpl in H2. left; congruence.
      * right. split; [lia|]. replace (Z.to_nat (i - k)) with (S (Z.to_nat (i - (k + 1)))) in H2 by lia. auto.
Qed.

Definition init_step (m : emap) (ce : Z * edge) : emap :=
  let '(cid, e) := ce in map_set edge_cmp (swap_edge e) (2 * cid + 1, false) (map_set edge_cmp e (2 * cid, true) m).
Lemma init_fold_keys l : forall m, ssorted edge_cmp (keys m) ->
  ssorted edge_cmp (keys (fold_left init_step l m)) /\
  forall e, In e (keys (fold_left init_step l m)) <-> half_edges (map snd l) e \/ In e (keys m).
Proof.
  induction l as [|[c e0] l IH]; intros m HS; simpl.
  - split; auto. intros e. unfold half_edges; simpl; tauto.
  - destruct (IH (init_step m (c, e0))) as [S1 S2].
    + unfold init_step. apply (map_set_sorted edge_total), (map_set_sorted edge_total); auto.
    + split; auto. intros e. rewrite S2. unfold init_step. rewrite !map_set_keys, !(set_insert_In edge_total).
      unfold half_edges; simpl. split.
      * intros [[?|?]|[->|[->|?]]]; auto. left; right; left. rewrite swap_swap; auto.
      * intros [[[->|?]|[E|?]]|?]; auto. right; left. rewrite E, swap_swap; auto.
Qed.
Lemma init_map_keys edges : ssorted edge_cmp (keys (init_map edges)) /\
  forall e, In e (keys (init_map edges)) <-> half_edges edges e.
Proof.
  destruct (init_fold_keys (enum_from 0 edges) [] (ss_nil _)) as [S1 S2].
  change (init_map edges) with (fold_left init_step (enum_from 0 edges) []). split; auto.
  intros e. rewrite S2, enum_from_snd. simpl. tauto.
Qed.

(** *** B: one-rings *)
Lemma collect_spec (m : emap) :
  ssorted Z.compare (keys (collect_edges m)) /\
  (forall a bs, map_find Z.compare a (collect_edges m) = Some bs -> ssorted Z.compare bs /\ forall b, In b bs <-> In (a, b) (keys m)) /\
  (forall a b, In (a, b) (keys m) -> exists bs, map_find Z.compare a (collect_edges m) = Some bs).
Proof.
  unfold collect_edges.
  assert (G : forall (l : emap) ret,
    ssorted Z.compare (keys ret) -> (forall a bs, map_find Z.compare a ret = Some bs -> ssorted Z.compare bs) ->
    let r := fold_left (fun ret '(e, _) =>
      let old := match map_find Z.compare (fst e) ret with Some s => s | None => [] end in
      map_set Z.compare (fst e) (set_insert Z.compare (snd e) old) ret) l ret in
    ssorted Z.compare (keys r) /\
    (forall a bs, map_find Z.compare a r = Some bs -> ssorted Z.compare bs) /\
    (forall a b, (exists bs, map_find Z.compare a r = Some bs /\ In b bs) <->
       In (a, b) (keys l) \/ exists bs, map_find Z.compare a ret = Some bs /\ In b bs)).
  { induction l as [|[[x y] pr] l IH]; intros ret HS HB; simpl.
    - split; auto. split; auto. intros; tauto.
    - set (old := match map_find Z.compare x ret with Some s => s | None => [] end).
      assert (HO : ssorted Z.compare old).
      { unfold old. destruct (map_find Z.compare x ret) eqn:E; eauto. constructor. }
      assert (HF : forall a, map_find Z.compare a (map_set Z.compare x (set_insert Z.compare y old) ret) =
         match a ?= x with Eq => Some (set_insert Z.compare y old) | _ => map_find Z.compare a ret end).
      { intros a. apply (map_find_set Zcompare_total); auto. }
      destruct (IH (map_set Z.compare x (set_insert Z.compare y old) ret)) as (S1 & S2 & S3).
      + apply (map_set_sorted Zcompare_total); auto.
      + intros a bs. rewrite HF. destruct (a ?= x); eauto. intros [= <-]. apply (set_insert_sorted Zcompare_total); auto.
      + split; auto. split; auto. intros a b. rewrite S3.
        assert (HE : (exists bs, map_find Z.compare a (map_set Z.compare x (set_insert Z.compare y old) ret) = Some bs /\ In b bs)
          <-> (a = x /\ b = y) \/ exists bs, map_find Z.compare a ret = Some bs /\ In b bs).
        { rewrite HF. destruct (Z.compare_spec a x) as [->|Hlt|Hgt].
          - split.
            + intros (bs & [= <-] & Hb). apply (set_insert_In Zcompare_total) in Hb as [->|Hb]; auto.
              right. unfold old in Hb. destruct (map_find Z.compare x ret); [eauto|destruct Hb].
            + intros [[_ ->]|(bs & E & Hb)]; eexists; split; try reflexivity; apply (set_insert_In Zcompare_total); auto.
              right. unfold old. rewrite E; auto.
          - split; [eauto|]. intros [[-> _]|?]; [lia|auto].
          - split; [eauto|]. intros [[-> _]|?]; [lia|auto]. }
        rewrite HE. simpl. split.
        * intros [?|[[-> ->]|?]]; auto.
        * intros [[[= -> ->]|?]|?]; auto. }
  destruct (G m []) as (S1 & S2 & S3); [constructor|discriminate|].
  split; auto. split.
  - intros a bs E. split; eauto. intros b. split.
    + intros Hb. destruct (proj1 (S3 a b)) as [?|(? & ? & ?)]; eauto. discriminate.
    + intros Hb. destruct (proj2 (S3 a b) (or_introl Hb)) as (bs' & E' & Hb'). apply (eq_trans (eq_sym E)) in E'. injection E' as <-; auto.
  - intros a b Hb. destruct (proj2 (S3 a b) (or_introl Hb)) as (bs' & E' & Hb'). eauto.
Qed.

(** *** C: cyclic pairs *)
Lemma combine_fst (A B : Type) (l : list A) (l' : list B) : length l = length l' -> map fst (combine l l') = l.
Proof. revert l'; induction l; intros [|b l']; simpl; intros; try discriminate; auto. f_equal; auto. Qed.
Lemma combine_snd (A B : Type) (l : list A) (l' : list B) : length l = length l' -> map snd (combine l l') = l'.
Proof. revert l'; induction l; intros [|b l']; simpl; intros; try discriminate; auto. f_equal; auto. Qed.
Lemma cyc_fst l : map fst (cyc_pairs l) = l.
Proof. destruct l as [|a t]; auto. apply combine_fst. rewrite app_length; simpl; lia. Qed.
Lemma cyc_snd l : Permutation (map snd (cyc_pairs l)) l.
Proof.
  destruct l as [|a t]; [constructor|]. unfold cyc_pairs. rewrite combine_snd by (rewrite app_length; simpl; lia).
  symmetry. change (a :: t) with ([a] ++ t). apply Permutation_app_comm.
Qed.

(** *** D: corners *)
Section Corners.
  Variable ord : Z -> list Z -> list Z.
  Hypothesis ord_perm : forall a bs, Permutation (ord a bs) bs.
  Variable m : emap.
  Hypothesis m_sorted : ssorted edge_cmp (keys m).
  Hypothesis m_swap : forall e, In e (keys m) -> In (swap_edge e) (keys m).
  Let cs := corner_list ord m.

  Lemma collect_In a bs : In (a, bs) (collect_edges m) <-> map_find Z.compare a (collect_edges m) = Some bs.
  Proof. symmetry. apply (map_find_Some Zcompare_total). apply collect_spec. Qed.

  Lemma ord_nodup a bs : In (a, bs) (collect_edges m) -> NoDup (ord a bs) /\ forall b, In b (ord a bs) <-> In (a, b) (keys m).
  Proof.
    intros H. apply collect_In in H. destruct (collect_spec m) as (_ & S2 & _). destruct (S2 _ _ H) as [S H1].
    apply (ssorted_NoDup Zcompare_total) in S. split.
    - eapply Permutation_NoDup; [symmetry; apply ord_perm|auto].
    - intros b. rewrite <- H1. split; apply Permutation_in; [apply ord_perm|symmetry; apply ord_perm].
  Qed.

  Lemma corner_In e ne : In (e, ne) cs <-> exists a bs it it1, In (a, bs) (collect_edges m) /\ In (it, it1) (cyc_pairs (ord a bs))
     /\ e = (it1, a) /\ ne = (a, it).
  Proof.
    unfold cs, corner_list. rewrite in_flat_map. split.
    - intros ([a bs] & H & Hin). apply in_map_iff in Hin as ([it it1] & [= <- <-] & Hin). exists a, bs, it, it1. auto.
    - intros (a & bs & it & it1 & H & Hin & -> & ->). exists (a, bs). split; auto. apply in_map_iff. exists (it, it1); auto.
  Qed.

  Lemma corner_shape e ne : In (e, ne) cs -> snd e = fst ne /\ In e (keys m) /\ In ne (keys m).
  Proof.
    intros H. apply corner_In in H as (a & bs & it & it1 & H & Hin & -> & ->). split; auto.
    destruct (ord_nodup a bs H) as [_ HO]. split.
    - change (it1, a) with (swap_edge (a, it1)). apply m_swap, HO. eapply Permutation_in; [apply cyc_snd|].
      apply (in_map snd) in Hin; auto.
    - apply HO. rewrite <- (cyc_fst (ord a bs)). apply (in_map fst) in Hin; auto.
  Qed.

  Lemma collect_NoDup : NoDup (collect_edges m).
  Proof.
    destruct (collect_spec m) as (S1 & _). apply (ssorted_NoDup Zcompare_total) in S1. apply NoDup_map_inv in S1; auto.
  Qed.
  Lemma collect_fun a bs bs' : In (a, bs) (collect_edges m) -> In (a, bs') (collect_edges m) -> bs = bs'.
  Proof. rewrite !collect_In. congruence. Qed.

  Lemma corner_keys_NoDup : NoDup (map fst cs).
  Proof.
    unfold cs, corner_list. rewrite map_flat_map. apply NoDup_flat_map.
    - apply collect_NoDup.
    - intros [a bs] H. destruct (ord_nodup a bs H) as [HN _].
      replace (map _ (map _ _)) with (map (fun b => (b, a)) (map snd (cyc_pairs (ord a bs))))
        by (rewrite !map_map; apply map_ext; intros []; auto). apply FinFun.Injective_map_NoDup; [intros x y [=]; auto|].
      eapply Permutation_NoDup; [symmetry; apply cyc_snd|auto].
    - intros [a bs] [a' bs'] e H H' Hin Hin'. rewrite map_map in Hin, Hin'.
      apply in_map_iff in Hin as ([? ?] & <- & _). apply in_map_iff in Hin' as ([? ?] & [= E1 E2] & _).
      subst a'. f_equal. eapply collect_fun; eauto.
  Qed.
  Lemma corner_vals_NoDup : NoDup (map snd cs).
  Proof.
    unfold cs, corner_list. rewrite map_flat_map. apply NoDup_flat_map.
    - apply collect_NoDup.
    - intros [a bs] H. destruct (ord_nodup a bs H) as [HN _].
      replace (map _ (map _ _)) with (map (fun b => (a, b)) (map fst (cyc_pairs (ord a bs))))
        by (rewrite !map_map; apply map_ext; intros []; auto). apply FinFun.Injective_map_NoDup; [intros x y [=]; auto|].
      rewrite cyc_fst; auto.
    - intros [a bs] [a' bs'] e H H' Hin Hin'. rewrite map_map in Hin, Hin'.
      apply in_map_iff in Hin as ([? ?] & <- & _). apply in_map_iff in Hin' as ([? ?] & [= E1 E2] & _).
      subst a'. f_equal. eapply collect_fun; eauto.
  Qed.
  Lemma corner_keys e : In e (map fst cs) <-> In e (keys m).
  Proof.
    split.
    - intros H. apply in_map_iff in H as ([e' ne] & <- & H). apply corner_shape in H; tauto.
    - intros H. destruct e as [b a]. apply m_swap in H. unfold swap_edge in H; simpl in H.
      destruct (collect_spec m) as (_ & _ & S3). destruct (S3 _ _ H) as [bs E]. apply collect_In in E.
      destruct (ord_nodup a bs E) as [_ HO]. apply HO in H.
      eapply Permutation_in in H; [|symmetry; apply cyc_snd]. apply in_map_iff in H as ([it it1] & E1 & H). simpl in E1; subst.
      apply in_map_iff. exists ((b, a), (a, it)). split; auto. apply corner_In. exists a, bs, it, b. auto.
  Qed.
  Lemma corner_vals e : In e (map snd cs) <-> In e (keys m).
  Proof.
    split.
    - intros H. apply in_map_iff in H as ([e' ne] & <- & H). apply corner_shape in H; tauto.
    - intros H. destruct e as [a b].
      destruct (collect_spec m) as (_ & _ & S3). destruct (S3 _ _ H) as [bs E]. apply collect_In in E.
      destruct (ord_nodup a bs E) as [_ HO]. apply HO in H. rewrite <- cyc_fst in H.
      apply in_map_iff in H as ([it it1] & E1 & H). simpl in E1; subst.
      apply in_map_iff. exists ((it1, a), (a, b)). split; auto. apply corner_In. exists a, bs, b, it1. auto.
  Qed.

  (** *** E: dual_edge_graph *)
  Lemma deg_find e ne : map_find edge_cmp e (deg_of cs) = Some ne <-> In (e, ne) cs.
  Proof.
    destruct (fold_set_spec _ _ _ edge_total cs [] (ss_nil _) corner_keys_NoDup) as [_ S2]; [intros ? ? []|].
    unfold deg_of. rewrite S2. simpl. split; [intros [?|?]; [auto|discriminate]|auto].
  Qed.
  Lemma deg_sorted : ssorted edge_cmp (keys (deg_of cs)).
  Proof. destruct (fold_set_spec _ _ _ edge_total cs [] (ss_nil _) corner_keys_NoDup) as [S1 _]; [intros ? ? []|]. exact S1. Qed.

  Theorem succ_perm :
    (forall e, In e (keys m) -> exists ne, inc (deg_of cs) e = Some ne /\ In ne (keys m) /\ snd e = fst ne) /\
    (forall e ne, inc (deg_of cs) e = Some ne -> In e (keys m)) /\
    (forall e e' ne, inc (deg_of cs) e = Some ne -> inc (deg_of cs) e' = Some ne -> e = e') /\
    (forall ne, In ne (keys m) -> exists e, inc (deg_of cs) e = Some ne).
  Proof.
    unfold inc. split; [|split; [|split]].
    - intros e H. apply corner_keys in H. apply in_map_iff in H as ([e' ne] & <- & H). exists ne.
      assert (HS := corner_shape _ _ H). rewrite deg_find. simpl. tauto.
    - intros e ne H. apply deg_find in H. apply corner_shape in H; tauto.
    - intros e e' ne H H'. apply deg_find in H. apply deg_find in H'.
      assert (HN := corner_vals_NoDup). clear - H H' HN. induction cs as [|[x y] l IH]; [destruct H|].
      simpl in HN. inversion HN; subst. destruct H as [[= -> ->]|H], H' as [[= ->]|H']; auto.
      + exfalso. apply H2. apply (in_map snd) in H'; auto.
      + subst. exfalso. apply H2. apply (in_map snd) in H; auto.
    - intros ne H. apply corner_vals in H. apply in_map_iff in H as ([e ne'] & <- & H). exists e. apply deg_find; auto.
  Qed.
End Corners.
