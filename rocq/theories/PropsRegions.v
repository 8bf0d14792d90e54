(** C40: region labels. *)
From Coq Require Import Relations.
From Verif Require Import Base Num SmallestEdge DisjointSet DisjointSetSpec DisjointSetProofs PropsCollapse CellCollapser AdaptiveGrid FaceCollapserIds Regions.
Local Open Scope Z_scope.

(** *** specification *)
Definition is_cut (r : rinput) (i : Z) (fs : cellb) : Prop := 0 <= i /\ nth_error (ri_cells r) (Z.to_nat i) = Some fs.
Definition is_ext (r : rinput) (c : Z) : Prop := In c (map fst (ri_cubes r)).
(** face f of the mesh is not part of the input surface *)
Definition open_face (r : rinput) (f : Z) (x : rface) : Prop := In (f, x) (ri_faces r) /\ rf_mesh x = false.
(** two cells touch through a face that is not an input-mesh face *)
Inductive touch (r : rinput) : Z -> Z -> Prop :=
| touch_cut i j fi fj f s s' x : is_cut r i fi -> is_cut r j fj -> In (f, s) fi -> In (f, s') fj -> open_face r f x -> touch r i j
| touch_ext i fi f s x o b : is_cut r i fi -> In (f, s) fi -> open_face r f x -> rf_ext x = Some (o, b) -> 0 <= o -> touch r i (ri_get r o)
| touch_exts a b : In (a, b) (ri_duals r) -> 0 <= a -> 0 <= b -> touch r (ri_get r a) (ri_get r b).
(** shape of the input: faces are a map with non-negative ids, cells refer to them, exterior cells are numbered after the cut cells,
    and the ownership grid returns exterior cells for the indices used *)
Record input_ok (r : rinput) : Prop := {
  io_sorted : ssorted Z.compare (map fst (ri_faces r));
  io_faces : forall f x, In (f, x) (ri_faces r) -> 0 <= f;
  io_cubes : forall c b, In (c, b) (ri_cubes r) -> ncells r <= c < max_cell_id r;
  io_dual : forall a b, In (a, b) (ri_duals r) -> 0 <= a -> 0 <= b -> is_ext r (ri_get r a) /\ is_ext r (ri_get r b);
  io_ext : forall f x o s, In (f, x) (ri_faces r) -> rf_mesh x = false -> rf_ext x = Some (o, s) -> 0 <= o -> is_ext r (ri_get r o) }.

Section R.
  Variable r : rinput.
  Hypothesis OK : input_ok r.
  Variable lnk : ds -> Z -> Z -> bool.
  Let ops := region_ops r.
  Let d := ds_run lnk ops.
  Lemma cell_enum_In i fs : In (i, fs) (cell_enum r) <-> is_cut r i fs.
  Proof.
    unfold cell_enum, is_cut, zrange. assert (G : forall (l : list cellb) s, In (i, fs) (combine (map (fun k => 0 + Z.of_nat k) (seq s (length l))) l) <-> Z.of_nat s <= i /\ nth_error l (Z.to_nat i - s) = Some fs).
    { induction l as [|a l IH]; intros s; cbn [length seq map combine In].
      - split; [intros []|]. intros [_ H]. destruct (Z.to_nat i - s)%nat; discriminate.
      - rewrite IH. split.
        + intros [E|[H1 H2]].
          * apply pair_equal_spec in E as [<- <-]. split; [lia|]. replace (Z.to_nat (0 + Z.of_nat s) - s)%nat with 0%nat by lia. auto.
          * split; [lia|]. replace (Z.to_nat i - s)%nat with (S (Z.to_nat i - S s)) by lia. auto.
        + intros [H1 H2]. destruct (Z.eq_dec i (Z.of_nat s)) as [->|N]; [left|right].
          * replace (Z.to_nat (Z.of_nat s) - s)%nat with 0%nat in H2 by lia. cbn in H2. apply pair_equal_spec. split; [lia|congruence].
          * split; [lia|]. replace (Z.to_nat i - s)%nat with (S (Z.to_nat i - S s)) in H2 by lia. auto. }
    rewrite G, Nat.sub_0_r. cbn. tauto.
  Qed.
  Lemma is_cut_range i fs : is_cut r i fs -> 0 <= i < ncells r.
  Proof. intros [H1 H2]. assert (Z.to_nat i < length (ri_cells r))%nat by (apply nth_error_Some; congruence). unfold ncells. lia. Qed.
  Lemma cut_ex i : 0 <= i < ncells r -> exists fs, is_cut r i fs.
  Proof. intros H. destruct (nth_error (ri_cells r) (Z.to_nat i)) as [fs|] eqn:E; [exists fs; split; [lia|auto]|]. apply nth_error_None in E. unfold ncells in H. lia. Qed.
  Definition face_node (f : Z) : Z := max_cell_id r + f.
  Definition node (x : Z) : Prop := (0 <= x < ncells r) \/ is_ext r x \/ exists f y, In (f, y) (ri_faces r) /\ x = face_node f.
  Lemma no_join_added l x : (forall o, In o l -> exists a b, o = OpJoin a b) -> ~ added l x.
  Proof. induction l as [|[y|a b] l IH]; intros H; cbn; auto. - destruct (H (OpAdd y)) as (? & ? & [=]); cbn; auto. - apply IH. intros o Ho. apply H. cbn; auto. Qed.
  Lemma added_map (A : Type) (g : A -> Z) l x : added (map (fun a => OpAdd (g a)) l) x <-> exists a, In a l /\ x = g a.
  Proof. induction l as [|a l IH]; cbn; [split; [intros []|intros (? & [] & _)]|]. rewrite IH. split; [intros [->|(b & Hb & ->)]; eauto|intros (b & [->|Hb] & ->); eauto]. Qed.
  Lemma adds_node x : added (add_ops r) x <-> node x.
  Proof.
    unfold add_ops, node. rewrite !added_app. assert (A1 : added (map OpAdd (zrange 0 (length (ri_cells r)))) x <-> 0 <= x < ncells r).
    { rewrite (added_map Z (fun z => z)). split; [intros (a & Ha & ->); apply zrange_In in Ha; unfold ncells; lia|intros H; exists x; split; auto; apply zrange_In; unfold ncells in H; lia]. }
    rewrite A1. clear A1. apply or_iff_compat_l. rewrite or_comm. assert (A : forall (P Q R S : Prop), (P <-> R) -> (Q <-> S) -> (P \/ Q <-> R \/ S)) by tauto. apply A.
    - assert (E : map (fun '(c, _) => OpAdd c) (ri_cubes r) = map (fun cb => OpAdd (fst cb)) (ri_cubes r)) by (apply map_ext; intros []; auto). rewrite E, added_map. unfold is_ext. rewrite in_map_iff. split; intros (a & H1 & H2); eauto.
    - assert (F := io_faces r OK). induction (ri_faces r) as [|[f y] l IH]; cbn; [split; [intros []|intros (? & ? & [] & _)]|]. assert (F0 : 0 <= f) by (eapply F; cbn; eauto). rewrite (proj2 (Z.leb_le 0 f)) by auto. cbn. rewrite IH by (intros; eapply F; cbn; eauto). unfold face_node. split.
      + intros [->|(g & z & Hz & ->)]; eauto.
      + intros (g & z & [E|Hz] & ->); [injection E as -> ->; auto|right; eauto].
  Qed.
  Lemma open_face_at f x : open_face r f x -> face_at r f = x /\ rf_mesh (face_at r f) = false /\ 0 <= f.
  Proof.
    intros [H1 H2]. assert (E : face_at r f = x). { unfold face_at. rewrite (proj2 (map_find_Some Zcompare_total f x (ri_faces r) (io_sorted r OK))); auto. } rewrite E. split; auto. split; auto. eapply io_faces; eauto.
  Qed.
  (** *** joins of the disjoint set *)
  Lemma joins_of a b : In (OpJoin a b) ops ->
    (exists x y, In (x, y) (ri_duals r) /\ 0 <= x /\ 0 <= y /\ a = ri_get r x /\ b = ri_get r y) \/
    (exists f x o s, open_face r f x /\ rf_ext x = Some (o, s) /\ 0 <= o /\ a = face_node f /\ b = ri_get r o) \/
    (exists fs f s, is_cut r a fs /\ In (f, s) fs /\ 0 <= f /\ rf_mesh (face_at r f) = false /\ b = face_node f).
  Proof.
    unfold ops, region_ops, add_ops. rewrite !in_app_iff. intros [[H|[H|H]]|[H|[H|H]]].
    - apply in_map_iff in H as (? & [=] & _).
    - apply in_flat_map in H as ((? & ?) & _ & H). destruct (0 <=? z); cbn in H; [destruct H as [[=]|[]]|destruct H].
    - apply in_map_iff in H as ((? & ?) & [=] & _).
    - left. apply in_flat_map in H as ((x & y) & H1 & H). destruct ((0 <=? x) && (0 <=? y)) eqn:E; cbn in H; [|destruct H]. destruct H as [[=]|[]]. apply andb_true_iff in E as [E1 E2]. exists x, y. repeat split; auto; lia.
    - right; left. apply in_flat_map in H as ((f & x) & H1 & H). destruct (rf_mesh x) eqn:E; cbn in H; [destruct H|]. destruct (rf_ext x) as [(o & s)|] eqn:E2; cbn in H; [|destruct H]. destruct (0 <=? o) eqn:E3; cbn in H; [|destruct H]. destruct H as [[=]|[]].
      exists f, x, o, s. unfold open_face, face_node. repeat split; auto; lia.
    - right; right. apply in_flat_map in H as ((c & fs) & H1 & H). apply in_flat_map in H as ((f & s) & H2 & H). destruct (0 <=? f) eqn:E; cbn in H; [|destruct H]. destruct (rf_mesh (face_at r f)) eqn:E2; cbn in H; [destruct H|]. destruct H as [[=]|[]]. subst.
      apply cell_enum_In in H1. exists fs, f, s. unfold face_node. repeat split; try (destruct H1; auto; fail); auto; lia.
  Qed.
  Lemma added_ops x : added ops x <-> node x.
  Proof.
    unfold ops, region_ops. rewrite !added_app, adds_node. split; [|auto]. intros [H|H]; auto. exfalso.
    assert (J : forall o, In o (dual_ops r ++ ext_ops r ++ cell_ops r) -> exists a b, o = OpJoin a b).
    { intros o. rewrite !in_app_iff. intros [Ho|[Ho|Ho]].
      - apply in_flat_map in Ho as ((u & v) & _ & Ho). destruct ((0 <=? u) && (0 <=? v)); cbn in Ho; [|destruct Ho]. destruct Ho as [<-|[]]; eauto.
      - apply in_flat_map in Ho as ((u & v) & _ & Ho). destruct (rf_mesh v); cbn in Ho; [destruct Ho|]. destruct (rf_ext v) as [(? & ?)|]; cbn in Ho; [|destruct Ho]. destruct (0 <=? z); cbn in Ho; [|destruct Ho]. destruct Ho as [<-|[]]; eauto.
      - apply in_flat_map in Ho as ((u & v) & _ & Ho). apply in_flat_map in Ho as ((? & ?) & _ & Ho). destruct (0 <=? z); cbn in Ho; [|destruct Ho]. destruct (rf_mesh _); cbn in Ho; [destruct Ho|]. destruct Ho as [<-|[]]; eauto. }
    apply (no_join_added _ x J). rewrite !added_app. exact H.
  Qed.
  Lemma joined_ops a b : In (OpJoin a b) ops -> node a -> node b -> joined ops a b.
  Proof.
    intros H Ha Hb. assert (K : In (OpJoin a b) (dual_ops r ++ ext_ops r ++ cell_ops r)).
    { unfold ops, region_ops in H. rewrite in_app_iff in H. destruct H as [H|H]; auto. exfalso. unfold add_ops in H. rewrite !in_app_iff in H. destruct H as [H|[H|H]].
      - apply in_map_iff in H as (? & [=] & _).
      - apply in_flat_map in H as ((? & ?) & _ & H). destruct (0 <=? z); cbn in H; [destruct H as [[=]|[]]|destruct H].
      - apply in_map_iff in H as ((? & ?) & [=] & _). }
    apply in_split in K as (p & q & K). exists (add_ops r ++ p), q. unfold ops, region_ops. rewrite K, <- app_assoc. split; auto. rewrite !added_app, !adds_node. auto.
  Qed.
  Lemma joined_In a b : joined ops a b -> In (OpJoin a b) ops /\ node a /\ node b.
  Proof.
    intros (p & q & E & Ha & Hb). split; [rewrite E; apply in_or_app; cbn; auto|]. assert (A : forall x, added p x -> node x); [|split; auto]. intros x Hx. apply added_ops. rewrite E, added_app. auto.
  Qed.
  (** the cells behind a node *)
  Definition behind (x c : Z) : Prop :=
    (x = c /\ (0 <= c < ncells r \/ is_ext r c)) \/
    exists f y, open_face r f y /\ x = face_node f /\
      ((exists fs s, is_cut r c fs /\ In (f, s) fs) \/ exists o s, rf_ext y = Some (o, s) /\ 0 <= o /\ c = ri_get r o).
  Lemma is_ext_range c : is_ext r c -> ncells r <= c < max_cell_id r.
  Proof. unfold is_ext. intros H. apply in_map_iff in H as ((c' & b) & <- & H). exact (io_cubes r OK _ _ H). Qed.
  Lemma cell_range c : 0 <= c < ncells r \/ is_ext r c -> 0 <= c < max_cell_id r.
  Proof. intros [H|H]; [|apply is_ext_range in H]; unfold max_cell_id, ncells in *; lia. Qed.
  Lemma face_unique f x y : In (f, x) (ri_faces r) -> In (f, y) (ri_faces r) -> x = y.
  Proof. intros H1 H2. apply (map_find_Some Zcompare_total f _ (ri_faces r) (io_sorted r OK)) in H1. apply (map_find_Some Zcompare_total f _ (ri_faces r) (io_sorted r OK)) in H2. congruence. Qed.
  Lemma behind_unique x c c' : behind x c -> behind x c' -> connected (touch r) c c'.
  Proof.
    intros [[-> Hc]|(f & y & Hf & Hx & B)] [[<- Hc']|(g & z & Hg & Hx' & B')].
    - apply rst_refl.
    - exfalso. apply cell_range in Hc. destruct Hg as [Hg _]. apply (io_faces r OK) in Hg. unfold face_node in Hx'. lia.
    - exfalso. apply cell_range in Hc'. destruct Hf as [Hf _]. apply (io_faces r OK) in Hf. unfold face_node in Hx. lia.
    - assert (f = g) as <- by (unfold face_node in *; lia). assert (y = z) as <- by (eapply face_unique; [apply Hf|apply Hg]).
      destruct B as [(fs & s & B1 & B2)|(o & s & B1 & B2 & B3)], B' as [(fs' & s' & B1' & B2')|(o' & s' & B1' & B2' & B3')].
      + apply rst_step. eapply touch_cut; eauto.
      + subst c'. apply rst_step. eapply touch_ext; eauto.
      + subst c. apply rst_sym, rst_step. eapply touch_ext; eauto.
      + assert (o = o') by congruence. subst. apply rst_refl.
  Qed.
  Lemma is_cut_node c fs : is_cut r c fs -> 0 <= c < ncells r \/ is_ext r c.
  Proof. intros H. left. eapply is_cut_range; eauto. Qed.
  Lemma joined_behind a b : joined ops a b -> exists ca cb, behind a ca /\ behind b cb /\ connected (touch r) ca cb.
  Proof.
    intros J. apply joined_In in J as (J & Na & Nb). apply joins_of in J as [(x & y & H1 & H2 & H3 & -> & ->)|[(f & x & o & s & H1 & H2 & H3 & -> & ->)|(fs & f & s & H1 & H2 & H3 & H4 & ->)]].
    - destruct (io_dual r OK x y H1 H2 H3) as [Ex Ey]. exists (ri_get r x), (ri_get r y). split; [left; auto|]. split; [left; auto|]. apply rst_step, touch_exts; auto.
    - assert (E : is_ext r (ri_get r o)) by (destruct H1 as [H1 H1']; eapply (io_ext r OK); eauto). exists (ri_get r o), (ri_get r o). split; [right; exists f, x; split; auto; split; auto; right; eauto|]. split; [left; auto|]. apply rst_refl.
    - exists a, a. split; [left; split; auto; eapply is_cut_node; eauto|]. split; [|apply rst_refl]. right.
      destruct Nb as [N|[N|(g & y & Hg & E)]].
      + exfalso. assert (0 <= face_node f < max_cell_id r) by (apply cell_range; auto). unfold face_node in *. lia.
      + exfalso. assert (0 <= face_node f < max_cell_id r) by (apply cell_range; auto). unfold face_node in *. lia.
      + assert (f = g) as <- by (unfold face_node in *; lia). exists f, y. assert (Ey : face_at r f = y). { unfold face_at. rewrite (proj2 (map_find_Some Zcompare_total f y (ri_faces r) (io_sorted r OK))); auto. } rewrite Ey in H4. split; [split; auto|]. split; auto. left; eauto.
  Qed.
  Lemma conn_behind a b : connected (joined ops) a b -> a = b \/ exists ca cb, behind a ca /\ behind b cb /\ connected (touch r) ca cb.
  Proof.
    induction 1 as [a b H|a|a b H IH|a b c H1 IH1 H2 IH2].
    - right. apply joined_behind; auto.
    - auto.
    - destruct IH as [->|(x & y & ? & ? & ?)]; auto. right. exists y, x. repeat split; auto. apply rst_sym; auto.
    - destruct IH1 as [->|(x & y & B1 & B2 & C1)]; auto. destruct IH2 as [<-|(y' & z & B3 & B4 & C2)]; [right; eauto|]. right. exists x, z. repeat split; auto. eapply rst_trans; [exact C1|]. eapply rst_trans; [eapply behind_unique; eauto|auto].
  Qed.
  Lemma cell_node c : 0 <= c < ncells r \/ is_ext r c -> node c.
  Proof. unfold node. tauto. Qed.
  Lemma open_node f x : open_face r f x -> node (face_node f).
  Proof. intros [H _]. right; right; eauto. Qed.
  Lemma cut_open c fs f s x : is_cut r c fs -> In (f, s) fs -> open_face r f x -> joined ops c (face_node f).
  Proof.
    intros H1 H2 H3. apply joined_ops; [|eapply cell_node, is_cut_node; eauto|eapply open_node; eauto].
    unfold ops, region_ops. rewrite !in_app_iff. do 3 right. apply in_flat_map. exists (c, fs). rewrite cell_enum_In. split; auto. apply in_flat_map. exists (f, s). split; auto. destruct (open_face_at _ _ H3) as (_ & E & F). rewrite E. rewrite (proj2 (Z.leb_le 0 f)) by auto. left. unfold face_node. f_equal. lia.
  Qed.
  Lemma touch_joined a b : touch r a b -> connected (joined ops) a b.
  Proof.
    intros [i j fi fj f s s' x H1 H2 H3 H4 H5|i fi f s x o b' H1 H2 H3 H4 H5|x y H1 H2 H3].
    - eapply rst_trans; [apply rst_step; eapply cut_open; eauto|]. apply rst_sym, rst_step. eapply cut_open; eauto.
    - eapply rst_trans; [apply rst_step; eapply cut_open; eauto|]. apply rst_step, joined_ops; [|eapply open_node; eauto|apply cell_node; right; destruct H3; eapply (io_ext r OK); eauto].
      unfold ops, region_ops. rewrite !in_app_iff. do 2 right; left. apply in_flat_map. exists (f, x). destruct H3 as [H3 H3']. split; auto. rewrite H3', H4, (proj2 (Z.leb_le 0 o)) by auto. left. auto.
    - destruct (io_dual r OK x y H1 H2 H3). apply rst_step, joined_ops; [|apply cell_node; auto|apply cell_node; auto].
      unfold ops, region_ops. rewrite !in_app_iff. right; left. apply in_flat_map. exists (x, y). split; auto. rewrite (proj2 (Z.leb_le 0 x)), (proj2 (Z.leb_le 0 y)) by auto. left. auto.
  Qed.
  Lemma conn_iff a b : (0 <= a < ncells r \/ is_ext r a) -> (0 <= b < ncells r \/ is_ext r b) -> (connected (joined ops) a b <-> connected (touch r) a b).
  Proof.
    intros Ha Hb. split; intros H.
    - apply conn_behind in H as [->|(ca & cb & B1 & B2 & C)]; [apply rst_refl|]. eapply rst_trans; [|eapply rst_trans; [exact C|]].
      + eapply behind_unique; [|exact B1]. left; auto.
      + eapply behind_unique; [exact B2|]. left; auto.
    - clear -H OK. induction H; [apply touch_joined; auto|apply rst_refl|apply rst_sym; auto|eapply rst_trans; eauto].
  Qed.
  Lemma roots_iff a b : (0 <= a < ncells r \/ is_ext r a) -> (0 <= b < ncells r \/ is_ext r b) -> (root_of d a = root_of d b <-> connected (touch r) a b).
  Proof.
    intros Ha Hb. rewrite <- conn_iff by auto. destruct (c23_same_root_iff_connected lnk ops) as (R1 & _ & R3 & _).
    assert (Aa : added ops a) by (apply added_ops, cell_node; auto). assert (Ab : added ops b) by (apply added_ops, cell_node; auto).
    rewrite <- (R3 a b Aa Ab). unfold root_of. apply R1 in Aa as (x & Ex). apply R1 in Ab as (y & Ey). unfold d. rewrite Ex, Ey. split; congruence.
  Qed.
  Lemma root_nonneg a : (0 <= a < ncells r \/ is_ext r a) -> 0 <= root_of d a.
  Proof.
    intros Ha. destruct (c23_same_root_iff_connected lnk ops) as (R1 & R2 & _). assert (Aa : added ops a) by (apply added_ops, cell_node; auto). apply R1 in Aa as (x & Ex). unfold root_of, d. rewrite Ex. apply R2 in Ex as [Ex _]. apply added_ops in Ex as [N|[N|(f & y & Hf & ->)]]; [lia|apply is_ext_range in N; unfold ncells in N; lia|].
    apply (io_faces r OK) in Hf. unfold face_node, max_cell_id, ncells. lia.
  Qed.
End R.

(** *** the renumbering of roots *)
Record re_inv (out : Z) (L : list Z) (re : list (Z * Z)) : Prop := {
  ri1 : ssorted Z.compare (keys re);
  ri2 : forall x, In x (keys re) <-> x = out \/ In x L;
  ri3 : forall k, 0 <= k < Z.of_nat (length re) <-> exists x, map_find Z.compare x re = Some k;
  ri4 : forall x y k, map_find Z.compare x re = Some k -> map_find Z.compare y re = Some k -> x = y;
  ri5 : map_find Z.compare out re = Some 0;
  ri6 : forall p x q k l, L = p ++ x :: q -> map_find Z.compare x re = Some k -> 0 < l < k -> exists y, In y p /\ map_find Z.compare y re = Some l }.
Lemma re_inv_run out L : re_inv out L (fold_left (reindex_step out) L (map_set Z.compare out 0 [])).
Proof.
  induction L as [|x L IH] using rev_ind.
  - cbn. constructor; cbn; auto.
    + repeat constructor.
    + intros x. intuition.
    + intros k. split.
      * intros H. exists out. rewrite Z.compare_refl. f_equal. lia.
      * intros (x & H). destruct (x ?= out); inversion H. lia.
    + intros x y k. destruct (x ?= out) eqn:E; try discriminate. destruct (y ?= out) eqn:E2; try discriminate. apply Z.compare_eq_iff in E, E2. congruence.
    + rewrite Z.compare_refl. auto.
    + intros [|? p] ? ? ? ? [=].
  - rewrite fold_left_app. cbn [fold_left]. set (re := fold_left _ L _) in *. destruct IH as [I1 I2 I3 I4 I5 I6]. unfold reindex_step.
    assert (SAME : In x (keys re) -> re_inv out (L ++ [x]) re).
    { intros K. constructor; auto.
      - intros y. rewrite I2, in_app_iff. cbn. split; [tauto|]. intros [H|[H|[<-|[]]]]; auto. apply I2; auto.
      - intros p y q k l E Hk Hl. destruct q as [|z q] using rev_ind.
        + apply app_inj_tail in E as [<- <-]. apply I2 in K as [->|K]; [rewrite I5 in Hk; injection Hk; lia|]. apply in_split in K as (p' & q' & E). destruct (I6 p' x q' k l E Hk Hl) as (y & Hy & Hy'). exists y. split; auto. rewrite E. apply in_or_app; auto.
        + clear IHq. change (y :: q ++ [z]) with ((y :: q) ++ [z]) in E. rewrite app_assoc in E. apply app_inj_tail in E as [E _]. eapply I6; eauto. }
    destruct (x =? out) eqn:E; [apply SAME, I2; left; lia|]. destruct (map_find Z.compare x re) as [k|] eqn:F.
    { apply SAME. destruct (in_dec Z.eq_dec x (keys re)) as [H|H]; auto. apply (map_find_None Zcompare_total) in H; auto. congruence. }
    assert (NK : ~ In x (keys re)) by (apply (map_find_None Zcompare_total); auto). set (n := Z.of_nat (length re)) in *.
    assert (FS : forall y, map_find Z.compare y (map_set Z.compare x n re) = if y =? x then Some n else map_find Z.compare y re).
    { intros y. rewrite (map_find_set Zcompare_total) by auto. destruct (y ?= x) eqn:C; [apply Z.compare_eq_iff in C as ->; rewrite Z.eqb_refl; auto| |].
      - change (y < x) in C. rewrite (proj2 (Z.eqb_neq y x)); [auto|clear -C; lia].
      - change (y > x) in C. rewrite (proj2 (Z.eqb_neq y x)); [auto|clear -C; lia]. }
    assert (RNG : forall y k, map_find Z.compare y re = Some k -> 0 <= k < n) by (intros y k H; apply I3; eauto).
    constructor.
    + apply (map_set_sorted Zcompare_total); auto.
    + intros y. rewrite map_set_keys, (set_insert_In Zcompare_total), I2, in_app_iff. cbn. intuition.
    + intros k. rewrite map_set_length_new by auto. fold n. split.
      * intros H. destruct (Z.eq_dec k n) as [->|N]; [exists x; rewrite FS, Z.eqb_refl; auto|]. assert (K : 0 <= k < n) by lia. apply I3 in K as (y & K). exists y. rewrite FS. destruct (y =? x) eqn:C; auto. apply Z.eqb_eq in C as ->. congruence.
      * intros (y & H). rewrite FS in H. destruct (y =? x); [injection H as <-; unfold n; lia|]. apply RNG in H. unfold n in *. lia.
    + intros y z k. rewrite !FS. destruct (y =? x) eqn:C1, (z =? x) eqn:C2; intros H1 H2.
      * lia.
      * injection H1 as <-. apply RNG in H2. lia.
      * injection H2 as <-. apply RNG in H1. lia.
      * eapply I4; eauto.
    + rewrite FS. replace (out =? x) with false by lia. auto.
    + intros p y q k l EL Hk Hl. destruct q as [|z q] using rev_ind.
      * apply app_inj_tail in EL as [<- <-]. rewrite FS, Z.eqb_refl in Hk. injection Hk as <-. assert (K : 0 <= l < n) by lia. apply I3 in K as (y & K). exists y. split.
        { assert (Ky : In y (keys re)). { destruct (in_dec Z.eq_dec y (keys re)) as [H|H]; auto. apply (map_find_None Zcompare_total) in H; auto. congruence. } apply I2 in Ky as [->|Ky]; auto. rewrite I5 in K. injection K. lia. }
        rewrite FS. destruct (y =? x) eqn:C; auto. apply Z.eqb_eq in C as ->. congruence.
      * clear IHq. change (y :: q ++ [z]) with ((y :: q) ++ [z]) in EL. rewrite app_assoc in EL. apply app_inj_tail in EL as [EL _].
        assert (Ny : y <> x). { intros ->. apply NK, I2. right. rewrite EL. apply in_or_app; cbn; auto. }
        rewrite FS in Hk. replace (y =? x) with false in Hk by lia. destruct (I6 p y q k l EL Hk Hl) as (w & Hw & Hw'). exists w. split; auto. rewrite FS. destruct (w =? x) eqn:C; auto. apply Z.eqb_eq in C as ->. congruence.
Qed.
(** *** observations *)
(** cell i of the mesh has region k *)
Definition cut_region lnk (r : rinput) (i k : Z) : Prop := 0 <= i /\ nth_error (cell_regions lnk r) (Z.to_nat i) = Some k.
(** exterior (grid) cell c has region k *)
Definition ext_region lnk (r : rinput) (c k : Z) : Prop := In (c, k) (exterior_regions lnk r).
Definition linked (r : rinput) : Z -> Z -> Prop := connected (touch r).
(** m is the leftmost grid face: smallest x plane (below the last grid plane), then smallest id *)
Definition leftmost (r : rinput) (m : Z) : Prop :=
  exists x v, In (m, x) (ri_faces r) /\ rf_x x = Some v /\ v < ri_nx r /\ forall f y w, In (f, y) (ri_faces r) -> rf_x y = Some w -> v < w \/ (v = w /\ m <= f).
(** cell i is the first cell of the mesh that has the leftmost face *)
Definition outside_cell (r : rinput) (i : Z) : Prop :=
  exists m fs s, leftmost r m /\ is_cut r i fs /\ In (m, s) fs /\ forall j fj s', is_cut r j fj -> In (m, s') fj -> i <= j.

Lemma zrange_split n i : 0 <= i < Z.of_nat n -> exists q, zrange 0 n = zrange 0 (Z.to_nat i) ++ i :: q.
Proof.
  intros H. exists (map (fun k => 0 + Z.of_nat k) (seq (S (Z.to_nat i)) (n - S (Z.to_nat i)))). unfold zrange.
  replace n with (Z.to_nat i + S (n - S (Z.to_nat i)))%nat at 1 by lia. rewrite seq_app, map_app. cbn [seq map Nat.add]. repeat f_equal. lia.
Qed.
Lemma zrange_nth n i : 0 <= i < Z.of_nat n -> nth_error (zrange 0 n) (Z.to_nat i) = Some i.
Proof. intros H. destruct (zrange_split n i H) as (q & ->). rewrite nth_error_app2; rewrite zrange_length; [rewrite Nat.sub_diag; auto|lia]. Qed.
Lemma fold_left_map (A B C : Type) (f : A -> B -> A) (g : C -> B) l : forall a, fold_left f (map g l) a = fold_left (fun a c => f a (g c)) l a.
Proof. induction l as [|c l IH]; intros a; cbn; auto. Qed.
Lemma ssorted_lt (l : list Z) : forall a t, l = a :: t -> ssorted Z.compare l -> forall b, In b t -> a < b.
Proof.
  intros a t -> S b Hb. inversion S as [|? ? F S']; subst. rewrite Forall_forall in F. exact (F b Hb).
Qed.
Section R2.
  Variable r : rinput.
  Hypothesis OK : input_ok r.
  Variable lnk : ds -> Z -> Z -> bool.
  Let d := ds_run lnk (region_ops r).
  Let out := outside_root r d.
  Let L := map (root_of d) (zrange 0 (length (ri_cells r))).
  Let re := reindexer r d.
  Lemma re_run : re_inv out L re.
  Proof. unfold re, reindexer, L. rewrite <- (fold_left_map _ _ _ (reindex_step out) (root_of d)). apply re_inv_run. Qed.
  Lemma cut_region_eq i k : cut_region lnk r i k <-> 0 <= i < ncells r /\ map_find Z.compare (root_of d i) re = Some k.
  Proof.
    unfold cut_region, cell_regions. rewrite nth_error_map. fold d. unfold region. fold re. split.
    - intros [H0 H]. assert (R : 0 <= i < ncells r).
      { destruct (nth_error (zrange 0 (length (ri_cells r))) (Z.to_nat i)) eqn:E; [|discriminate]. assert (E' : nth_error (zrange 0 (length (ri_cells r))) (Z.to_nat i) <> None) by congruence. apply nth_error_Some in E'. rewrite zrange_length in E'. unfold ncells. lia. }
      split; auto. rewrite zrange_nth in H by (unfold ncells in R; lia). cbn in H.
      assert (K : In (root_of d i) (keys re)). { apply (ri2 _ _ _ re_run). right. unfold L. apply in_map, zrange_In. unfold ncells in R. lia. }
      destruct (map_find Z.compare (root_of d i) re) eqn:F; [exact H|]. apply (map_find_None Zcompare_total) in F; [contradiction|apply (ri1 _ _ _ re_run)].
    - intros [R H]. split; [lia|]. rewrite zrange_nth by (unfold ncells in R; lia). cbn. rewrite H. auto.
  Qed.
  Lemma ext_region_eq c k : ext_region lnk r c k <-> is_ext r c /\ k = region r d c.
  Proof.
    unfold ext_region, exterior_regions, is_ext. rewrite !in_map_iff. fold d. split.
    - intros ((c' & b) & E & H). apply pair_equal_spec in E as [<- <-]. split; auto. exists (c', b); auto.
    - intros [((c' & b) & <- & H) ->]. exists (c', b). auto.
  Qed.
  Lemma find_first (P : Z * cellb -> bool) : forall i fs, find P (cell_enum r) = Some (i, fs) ->
    is_cut r i fs /\ P (i, fs) = true /\ forall j fj, is_cut r j fj -> P (j, fj) = true -> i <= j.
  Proof.
    intros i fs H. destruct (find_some _ _ H) as [H1 H2]. apply cell_enum_In in H1. split; auto. split; auto. intros j fj Hj Pj. apply cell_enum_In in Hj. unfold cell_enum, zrange in *.
    revert H Hj. generalize 0%nat. induction (ri_cells r) as [|c l IH]; intros s; cbn [length seq map combine find]; [discriminate|]. destruct (P (0 + Z.of_nat s, c)) eqn:E.
    - intros K Hj. assert (Ei : i = Z.of_nat s) by (assert (K2 : (0 + Z.of_nat s, c) = (i, fs)) by congruence; apply pair_equal_spec in K2 as [K2 _]; lia). destruct Hj as [Hj|Hj]; [apply pair_equal_spec in Hj as [Hj _]; lia|]. apply in_combine_l in Hj. apply in_map_iff in Hj as (k & <- & Hk). apply in_seq in Hk. lia.
    - intros K [Hj|Hj]; [rewrite <- Hj in Pj; congruence|]. eapply IH; eauto.
  Qed.
  Lemma min_face_spec m : leftmost r m -> min_face r = m.
  Proof.
    intros (x & v & H1 & H2 & H3 & H4). unfold min_face. assert (S := io_sorted r OK). revert H1 H4 S. generalize (ri_faces r) as l. intros l.
    assert (G : forall l mi mx, ssorted Z.compare (map fst l) -> In (m, x) l -> (forall f y w, In (f, y) l -> rf_x y = Some w -> v < w \/ (v = w /\ m <= f)) -> v < mx ->
      fst (fold_left (fun '(mi, mx) '(i, f) => match rf_x f with Some x => if x <? mx then (i, x) else (mi, mx) | None => (mi, mx) end) l (mi, mx)) = m).
    { clear l. induction l as [|[f y] l IH]; intros mi mx S Hin Hall Hlt; [destruct Hin|]. cbn [fold_left map fst] in *.
      assert (SL : forall b, In b (map fst l) -> f < b) by (eapply ssorted_lt; eauto). assert (S' : ssorted Z.compare (map fst l)) by (inversion S; subst; auto; constructor).
      destruct Hin as [E|Hin].
      - injection E as -> ->. rewrite H2. rewrite (proj2 (Z.ltb_lt v mx)) by auto.
        assert (K : forall l', (forall f y w, In (f, y) l' -> rf_x y = Some w -> v <= w) -> fold_left (fun '(mi, mx) '(i, f) => match rf_x f with Some x => if x <? mx then (i, x) else (mi, mx) | None => (mi, mx) end) l' (m, v) = (m, v)).
        { induction l' as [|[g z] l' IHl']; intros Hl; cbn [fold_left]; auto. destruct (rf_x z) as [w|] eqn:E; [|apply IHl'; intros; eapply Hl; cbn; eauto]. assert (v <= w) by (eapply Hl; cbn; eauto). rewrite (proj2 (Z.ltb_ge w v)) by auto. apply IHl'; intros; eapply Hl; cbn; eauto. }
        rewrite K; auto. intros g z w Hg Hw. destruct (Hall g z w) as [|[]]; cbn; auto; lia.
      - assert (f < m) by (apply SL; apply in_map_iff; exists (m, x); auto). assert (Hall' : forall f0 y0 w, In (f0, y0) l -> rf_x y0 = Some w -> v < w \/ (v = w /\ m <= f0)) by (intros; eapply Hall; cbn; eauto).
        destruct (rf_x y) as [w|] eqn:E; [|apply IH; auto]. destruct (Hall f y w) as [Hw|[Hw Hf]]; cbn; auto; [|lia]. destruct (w <? mx); apply IH; auto. }
    intros H1 H4 S. apply G; auto.
  Qed.
  Lemma out_spec i : outside_cell r i -> out = root_of d i.
  Proof.
    intros (m & fs & s & LM & H1 & H2 & H3). unfold out, outside_root. rewrite (min_face_spec m LM). assert (M0 : 0 <= m) by (destruct LM as (x & v & H & _); apply (io_faces r OK) in H; auto).
    set (P := fun '(_, fs0) => _). assert (PE : forall j fj, P (j, fj) = true <-> exists s', In (m, s') fj).
    { intros j fj. unfold P. rewrite existsb_exists. split.
      - intros ((f & s') & Hf & E). apply andb_true_iff in E as [_ E]. apply Z.eqb_eq in E as ->. eauto.
      - intros (s' & Hf). exists (m, s'). split; auto. rewrite Z.eqb_refl. rewrite (proj2 (Z.leb_le 0 m)); auto. }
    destruct (find P (cell_enum r)) as [(j & fj)|] eqn:F.
    - apply find_first in F as (F1 & F2 & F3). apply PE in F2 as (s' & F2). assert (i <= j) by (eapply H3; eauto). assert (j <= i) by (eapply F3; [eauto|apply PE; eauto]). f_equal. lia.
    - exfalso. apply cell_enum_In in H1. apply (find_none _ _ F) in H1. assert (P (i, fs) = true) by (apply PE; eauto). congruence.
  Qed.
  Lemma out_none : (forall i, ~ outside_cell r i) -> (exists m, leftmost r m) -> out = -1.
  Proof.
    intros N (m & LM). unfold out, outside_root. rewrite (min_face_spec m LM). set (P := fun '(_, fs0) => _). destruct (find P (cell_enum r)) as [(j & fj)|] eqn:F; auto. exfalso. apply find_first in F as (F1 & F2 & F3). unfold P in F2. apply existsb_exists in F2 as ((f & s) & Hf & E). apply andb_true_iff in E as [E0 E]. apply Z.eqb_eq in E as ->.
    apply (N j). exists m, fj, s. split; auto. split; auto. split; auto. intros k fk s' Hk Hs. eapply F3; eauto. unfold P. apply existsb_exists. exists (m, s'). rewrite E0, Z.eqb_refl. auto.
  Qed.
  Lemma region_cut i k : 0 <= i < ncells r -> region r d i = k -> cut_region lnk r i k.
  Proof.
    intros R H. apply cut_region_eq. split; auto. unfold region in H. fold re in H. destruct (map_find Z.compare (root_of d i) re) eqn:F; [congruence|]. exfalso. apply (map_find_None Zcompare_total) in F; [|apply (ri1 _ _ _ re_run)]. apply F. apply (ri2 _ _ _ re_run). right. unfold L. apply in_map, zrange_In. unfold ncells in R. lia.
  Qed.
  Lemma region_find x k : map_find Z.compare (root_of d x) re = Some k -> region r d x = k.
  Proof. unfold region. fold re. intros ->. auto. Qed.
End R2.

(** C40 *)
(** every cell gets exactly one non-negative label *)
Theorem c40_labelled : forall lnk r, input_ok r ->
  length (cell_regions lnk r) = length (ri_cells r) /\ map fst (exterior_regions lnk r) = map fst (ri_cubes r) /\
  (forall i fs, is_cut r i fs -> exists k, cut_region lnk r i k /\ 0 <= k) /\
  (forall c k, ext_region lnk r c k -> 0 <= k /\ forall k', ext_region lnk r c k' -> k' = k).
Proof.
  intros lnk r OK. split; [unfold cell_regions; rewrite map_length; apply zrange_length|]. split; [unfold exterior_regions; rewrite map_map; apply map_ext; intros []; auto|]. assert (RR := re_run r lnk). split.
  - intros i fs H. assert (R := is_cut_range _ _ _ H). eexists. split; [apply region_cut; [exact R|reflexivity]|]. unfold region. destruct (map_find _ _ _) eqn:F; [|lia]. apply (ri3 _ _ _ RR). eauto.
  - intros c k H. apply ext_region_eq in H as [H ->]. split; [|intros k' H'; apply ext_region_eq in H'; tauto]. unfold region. destruct (map_find _ _ _) eqn:F; [|lia]. apply (ri3 _ _ _ RR). eauto.
Qed.
(** two cells of the cut mesh have the same region exactly when a chain of touching cells (cut or exterior) links them *)
Theorem c40_same_region : forall lnk r i j k l, input_ok r -> cut_region lnk r i k -> cut_region lnk r j l -> (k = l <-> linked r i j).
Proof.
  intros lnk r i j k l OK Hi Hj. apply cut_region_eq in Hi as [Ri Fi]. apply cut_region_eq in Hj as [Rj Fj]. assert (RR := re_run r lnk). unfold linked. rewrite <- (roots_iff r OK lnk) by auto. split.
  - intros <-. eapply (ri4 _ _ _ RR); eauto.
  - intros E. rewrite E in Fi. congruence.
Qed.
(** an exterior cell has the label of the cut cells it is linked with; an exterior cell linked to no cut cell has label 0 *)
Theorem c40_exterior : forall lnk r c l, input_ok r -> ext_region lnk r c l ->
  (forall i k, cut_region lnk r i k -> linked r i c -> k = l) /\
  ((forall i fs, is_cut r i fs -> ~ linked r i c) -> l = 0) /\
  (forall i k, cut_region lnk r i k -> k = l -> 0 < l -> linked r i c).
Proof.
  intros lnk r c l OK Hc. apply ext_region_eq in Hc as [Ec ->]. assert (RR := re_run r lnk). unfold linked.
  split; [|split].
  - intros i k Hi H. apply cut_region_eq in Hi as [Ri Fi]. apply (roots_iff r OK lnk) in H; auto. rewrite H in Fi. symmetry. apply region_find; auto.
  - intros N. unfold region. destruct (map_find _ _ _) as [k|] eqn:F; auto. assert (K : In (root_of (ds_run lnk (region_ops r)) c) (keys (reindexer r (ds_run lnk (region_ops r))))).
    { destruct (in_dec Z.eq_dec (root_of (ds_run lnk (region_ops r)) c) (keys (reindexer r (ds_run lnk (region_ops r))))) as [H|H]; auto. apply (map_find_None Zcompare_total) in H; [congruence|apply (ri1 _ _ _ RR)]. }
    apply (ri2 _ _ _ RR) in K as [K|K].
    + rewrite K, (ri5 _ _ _ RR) in F. congruence.
    + exfalso. apply in_map_iff in K as (i & Ei & Hi). apply zrange_In in Hi. assert (Ri : 0 <= i < ncells r) by (unfold ncells; lia). destruct (cut_ex r i Ri) as (fs & Hfs). apply (N i fs Hfs). apply (roots_iff r OK lnk); auto.
  - intros i k Hi E Pos. apply cut_region_eq in Hi as [Ri Fi]. apply (roots_iff r OK lnk); auto. subst k. revert Fi Pos. unfold region at 1 2. destruct (map_find Z.compare (root_of (ds_run lnk (region_ops r)) c) _) as [k|] eqn:F; [|lia]. intros Fi Pos. eapply (ri4 _ _ _ RR); eauto.
Qed.
(** the labels of the cut cells together with 0 form an initial segment, in order of first appearance *)
Theorem c40_contiguous : forall lnk r i k l, input_ok r -> cut_region lnk r i k -> 0 < l < k -> exists j, j < i /\ cut_region lnk r j l.
Proof.
  intros lnk r i k l OK Hi Hl. apply cut_region_eq in Hi as [Ri Fi]. assert (RR := re_run r lnk). destruct (zrange_split (length (ri_cells r)) i) as (q & E); [unfold ncells in Ri; lia|].
  destruct (ri6 _ _ _ RR (map (root_of (ds_run lnk (region_ops r))) (zrange 0 (Z.to_nat i))) (root_of (ds_run lnk (region_ops r)) i) (map (root_of (ds_run lnk (region_ops r))) q) k l) as (y & Hy & Fy); auto.
  { rewrite E, map_app. auto. }
  apply in_map_iff in Hy as (j & <- & Hj). apply zrange_In in Hj. exists j. split; [lia|]. apply cut_region_eq. split; auto. lia.
Qed.
(** label 0 marks exactly the cells linked to the first cell having the leftmost grid face *)
Theorem c40_zero : forall lnk r o, input_ok r -> outside_cell r o ->
  (forall i k, cut_region lnk r i k -> (k = 0 <-> linked r o i)) /\
  (forall c l, ext_region lnk r c l -> linked r o c -> l = 0) /\
  (forall i k, cut_region lnk r i k -> 0 < k -> exists j, j <= i /\ cut_region lnk r j 1).
Proof.
  intros lnk r o OK HO. assert (RR := re_run r lnk). assert (EO := out_spec r OK lnk o HO). destruct HO as (m & fs & s & _ & HO & _). assert (RO := is_cut_range _ _ _ HO).
  assert (Z0 : cut_region lnk r o 0). { apply cut_region_eq. split; auto. rewrite <- EO. apply (ri5 _ _ _ RR). }
  split; [|split].
  - intros i k Hi. rewrite <- (c40_same_region lnk r o i 0 k OK Z0 Hi). split; congruence.
  - intros c l Hc H. destruct (c40_exterior lnk r c l OK Hc) as (H1 & _). symmetry. eapply H1; eauto.
  - intros i k Hi Hk. destruct (Z.eq_dec k 1) as [->|N]; [exists i; split; [lia|auto]|]. destruct (c40_contiguous lnk r i k 1 OK Hi) as (j & Hj & H); [lia|]. exists j. split; [lia|auto].
Qed.
(** without such a cell no cut cell has label 0 *)
Theorem c40_no_outside : forall lnk r i k, input_ok r -> (exists m, leftmost r m) -> (forall o, ~ outside_cell r o) -> cut_region lnk r i k -> 1 <= k.
Proof.
  intros lnk r i k OK LM N Hi. apply cut_region_eq in Hi as [Ri Fi]. assert (RR := re_run r lnk). assert (E := out_none r OK lnk N LM). assert (0 <= k < Z.of_nat (length (reindexer r (ds_run lnk (region_ops r))))) by (apply (ri3 _ _ _ RR); eauto).
  destruct (Z.eq_dec k 0) as [->|]; [|lia]. exfalso. assert (F := ri4 _ _ _ RR _ _ _ Fi (ri5 _ _ _ RR)). rewrite E in F. assert (0 <= root_of (ds_run lnk (region_ops r)) i) by (apply root_nonneg; auto). lia.
Qed.
(** Example: three cut cells; cells 0 and 1 share the open face 1, cells 1 and 2 share the mesh face 2; the exterior cells 3, 4 touch each other, and 3
    touches cell 0 through the leftmost face 0. *)
Definition ex_r : rinput := mkRI [[(0, true); (1, true)]; [(1, false); (2, true)]; [(2, false); (3, true)]]
  [(0, mkRF false (Some (7, true)) (Some 0)); (1, mkRF false None (Some 1)); (2, mkRF true None None); (3, mkRF false (Some (-2, true)) (Some 3))]
  [(3, (0, 0, 0, 1)); (4, (0, 0, 0, 1))] [(7, 8); (-1, 8)] (fun i => i - 4) 4.
Example c40_input_ok : input_ok ex_r.
Proof.
  constructor; cbn.
  - repeat (constructor; [repeat constructor|]). constructor.
  - intros f x H. repeat (destruct H as [[=]|H]; [lia|]). destruct H.
  - intros c b H. unfold ncells, max_cell_id, ncells. cbn. repeat (destruct H as [[=]|H]; [lia|]). destruct H.
  - intros a b H Ha Hb. unfold is_ext. cbn. repeat (destruct H as [[=]|H]; [lia|]). destruct H.
  - intros f x o s H. unfold is_ext. cbn. repeat (destruct H as [[= <- <-]|H]; [cbn; intros; try discriminate; match goal with E : Some _ = Some _ |- _ => injection E as <- <- end; lia|]). destruct H.
Qed.
Example c40_outside_cell : outside_cell ex_r 0.
Proof.
  exists 0, [(0, true); (1, true)], true. split; [|split; [split; [lia|reflexivity]|split; [cbn; auto|intros j fj s' [H _] _; exact H]]].
  exists (mkRF false (Some (7, true)) (Some 0)), 0. cbn. split; [auto|]. split; [auto|]. split; [lia|]. intros f y w H. repeat (destruct H as [[= <- <-]|H]; [cbn; intros [=]; lia|]). destruct H.
Qed.
Example c40_regions : forall b, let lnk := fun _ _ _ => b in cell_regions lnk ex_r = [0; 0; 1] /\ exterior_regions lnk ex_r = [(3, 0); (4, 0)].
Proof. intros [|]; vm_compute; auto. Qed.
(** the outside of the domain need not be region 0: here the leftmost face lies on the input surface and its first user is the inner cell 0 *)
Definition ex_r2 : rinput := mkRI [[(0, true); (1, true)]; [(0, false); (2, true)]]
  [(0, mkRF true None (Some 0)); (1, mkRF true None None); (2, mkRF false (Some (7, true)) (Some 1))] [(2, (0, 0, 0, 1))] [] (fun i => i - 5) 4.
Example c40_outside_not_zero : forall b, let lnk := fun _ _ _ => b in cell_regions lnk ex_r2 = [0; 1] /\ exterior_regions lnk ex_r2 = [(2, 1)].
Proof. intros [|]; vm_compute; auto. Qed.
Theorem c40_outside_zero_refuted : ~ (forall lnk r c l, input_ok r -> ext_region lnk r c l -> l = 0).
Proof.
  intros H. assert (E : 1 = 0); [|discriminate]. apply (H (fun _ _ _ => true) ex_r2 2 1); [|vm_compute; auto].
  constructor; cbn.
  - repeat (constructor; [repeat constructor|]). constructor.
  - intros f x K. repeat (destruct K as [[=]|K]; [lia|]). destruct K.
  - intros c b K. unfold ncells, max_cell_id, ncells. cbn. repeat (destruct K as [[=]|K]; [lia|]). destruct K.
  - intros a b [].
  - intros f x o s K. unfold is_ext. cbn. repeat (destruct K as [[= <- <-]|K]; [cbn; intros; try discriminate; match goal with E : Some _ = Some _ |- _ => injection E as <- <- end; lia|]). destruct K.
Qed.
