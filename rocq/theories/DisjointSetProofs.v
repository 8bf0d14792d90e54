From Verif Require Import Base DisjointSet DisjointSetSpec.
From Coq Require Import Relations.
Local Open Scope Z_scope.

Record ds_inv (d : ds) (N : Z -> Prop) (R : Z -> Z -> Prop) : Prop := {
  di_nodup : NoDup (ds_nodes d);
  di_nodes : forall x, In x (ds_nodes d) <-> N x;
  di_fix : forall x r, ds_root d x = Some r -> ds_root d r = Some r;
  di_conn : forall x y rx ry, ds_root d x = Some rx -> ds_root d y = Some ry -> (rx = ry <-> connected R x y);
  di_rel : forall x y, R x y -> N x /\ N y }.

Lemma ds_root_In d x : (exists r, ds_root d x = Some r) <-> In x (ds_nodes d).
Proof.
  induction d as [|[n r] d IH]; simpl.
  - split; [intros [? ?]; discriminate|intros []].
  - destruct (Z.eqb_spec n x); [split; eauto|]. rewrite IH. split; [auto|intros [?|?]; [congruence|auto]].
Qed.
Lemma ds_root_app d d' x : ds_root (d ++ d') x = match ds_root d x with Some r => Some r | None => ds_root d' x end.
Proof. induction d as [|[n r] d IH]; simpl; auto. destruct (n =? x); auto. Qed.
Lemma ds_root_relabel d r r' x : ds_root (relabel d r r') x =
  match ds_root d x with Some q => Some (if q =? r then r' else q) | None => None end.
Proof. induction d as [|[n q] d IH]; simpl; auto. destruct (n =? x); auto. Qed.
Lemma relabel_nodes d r r' : ds_nodes (relabel d r r') = ds_nodes d.
Proof. unfold ds_nodes, relabel. rewrite map_map. apply map_ext. intros []; auto. Qed.

Lemma connected_mono (R R' : Z -> Z -> Prop) x y : (forall a b, R a b -> connected R' a b) -> connected R x y -> connected R' x y.
Proof.
  intros H. induction 1; [auto|apply rst_refl|apply rst_sym; auto|eapply rst_trans; eauto].
Qed.

Lemma connected_nodes (R : Z -> Z -> Prop) (N : Z -> Prop) x y : (forall a b, R a b -> N a /\ N b) -> connected R x y -> x = y \/ (N x /\ N y).
Proof.
  intros H. induction 1 as [x y HR|x|x y _ IH|x y z _ IH1 _ IH2]; auto.
  - destruct IH as [->|[]]; auto.
  - destruct IH1 as [->|[]]; auto. destruct IH2 as [<-|[]]; auto.
Qed.

Lemma add_inv d N R x : ds_inv d N R -> ds_inv (add_node d x) (fun y => N y \/ y = x) R.
Proof.
  intros [H1 H2 H3 H4 H5]. unfold add_node, has_node. destruct (ds_root d x) as [r|] eqn:E.
  - assert (Nx : N x) by (apply H2, ds_root_In; eauto). constructor; auto.
    + intros y. rewrite H2. split; [auto|intros [?| ->]; auto].
    + intros a b HR. destruct (H5 a b HR); auto.
  - assert (Nx : ~ In x (ds_nodes d)) by (rewrite <- ds_root_In; intros [? ?]; congruence).
    assert (NN : ~ N x) by (rewrite <- H2; auto).
    constructor.
    + unfold ds_nodes. rewrite map_app. simpl. apply NoDup_rev in H1. rewrite <- (rev_involutive (map fst d ++ [x])).
      apply NoDup_rev. rewrite rev_app_distr. simpl. constructor; auto. rewrite <- in_rev; auto.
    + intros y. unfold ds_nodes. rewrite map_app, in_app_iff. simpl.
      change (map fst d) with (ds_nodes d). rewrite H2. intuition.
    + intros y r. rewrite !ds_root_app. simpl. destruct (ds_root d y) as [q|] eqn:Ey.
      * intros [= <-]. rewrite (H3 y q) by auto. auto.
      * destruct (Z.eqb_spec x y); [|discriminate]. intros [= <-]. subst. rewrite E, Z.eqb_refl. auto.
    + intros a b ra rb. rewrite !ds_root_app. simpl.
      destruct (ds_root d a) as [qa|] eqn:Ea, (ds_root d b) as [qb|] eqn:Eb.
      * intros [= <-] [= <-]. apply H4; auto.
      * destruct (Z.eqb_spec x b); [|discriminate]. intros [= <-] [= <-]. subst b. split.
        -- intros ->. exfalso. apply Nx. apply ds_root_In. exists x. apply (H3 a); auto.
        -- intros C. destruct (connected_nodes _ _ _ _ H5 C) as [->|[]]; [congruence|tauto].
      * destruct (Z.eqb_spec x a); [|discriminate]. intros [= <-] [= <-]. subst a. split.
        -- intros <-. exfalso. apply Nx. apply ds_root_In. exists x. apply (H3 b); auto.
        -- intros C. destruct (connected_nodes _ _ _ _ H5 C) as [->|[]]; [congruence|tauto].
      * destruct (Z.eqb_spec x a); [|discriminate]. destruct (Z.eqb_spec x b); [|discriminate].
        intros [= <-] [= <-]. subst. split; auto. intros _; apply rst_refl.
    + intros a b HR. destruct (H5 a b HR); auto.
Qed.

Lemma connected_add (R : Z -> Z -> Prop) a b x y :
  connected (fun u v => R u v \/ (u = a /\ v = b)) x y <->
  connected R x y \/ (connected R x a /\ connected R b y) \/ (connected R x b /\ connected R a y).
Proof.
  assert (S := fun u v => rst_sym Z R u v). assert (T := fun u v w => rst_trans Z R u v w).
  split.
  - induction 1 as [x y [HR|[-> ->]]|x|x y _ IH|x y z _ IH1 _ IH2].
    + left; apply rst_step; auto.
    + right; left; split; apply rst_refl.
    + left; apply rst_refl.
    + unfold connected in *. destruct IH as [?|[[? ?]|[? ?]]]; [left; auto|right; right; split; auto|right; left; split; auto].
    + unfold connected in *.
      destruct IH1 as [C1|[[C1 C1']|[C1 C1']]], IH2 as [C2|[[C2 C2']|[C2 C2']]];
        try (left; eauto; fail); try (right; left; eauto; fail); try (right; right; eauto; fail).
  - assert (M : forall u v, connected R u v -> connected (fun u v => R u v \/ (u = a /\ v = b)) u v).
    { intros u v. apply connected_mono. intros; apply rst_step; auto. }
    assert (E : connected (fun u v => R u v \/ (u = a /\ v = b)) a b) by (apply rst_step; auto).
    intros [C|[[C C']|[C C']]]; auto.
    + eapply rst_trans; [apply M; eauto|]. eapply rst_trans; [exact E|apply M; auto].
    + eapply rst_trans; [apply M; eauto|]. eapply rst_trans; [apply rst_sym; exact E|apply M; auto].
Qed.

Lemma relabel_inv d N R a b r r' : ds_inv d N R -> ds_root d a = Some r -> ds_root d b = Some r' -> r <> r' ->
  ds_inv (relabel d r r') N (fun u v => R u v \/ (u = a /\ v = b)).
Proof.
  intros [H1 H2 H3 H4 H5] Ea Eb Hne.
  assert (Na : N a) by (apply H2, ds_root_In; eauto). assert (Nb : N b) by (apply H2, ds_root_In; eauto).
  constructor.
  - rewrite relabel_nodes; auto.
  - rewrite relabel_nodes; auto.
  - intros x q. rewrite !ds_root_relabel. destruct (ds_root d x) as [q0|] eqn:Ex; [|discriminate].
    intros [= <-]. destruct (Z.eqb_spec q0 r).
    + rewrite (H3 b r') by auto. destruct (Z.eqb_spec r' r); congruence.
    + rewrite (H3 x q0) by auto. destruct (Z.eqb_spec q0 r); congruence.
  - intros x y rx ry. rewrite !ds_root_relabel. destruct (ds_root d x) as [qx|] eqn:Ex; [|discriminate].
    destruct (ds_root d y) as [qy|] eqn:Ey; [|discriminate]. intros [= <-] [= <-].
    rewrite connected_add.
    rewrite <- (H4 x y qx qy), <- (H4 x a qx r), <- (H4 b y r' qy), <- (H4 x b qx r'), <- (H4 a y r qy) by auto.
    destruct (Z.eqb_spec qx r), (Z.eqb_spec qy r); subst; intuition congruence.
  - intros x y [HR|[-> ->]]; auto.
Qed.

Lemma connected_pair_sym (R : Z -> Z -> Prop) a b x y :
  connected (fun u v => R u v \/ (u = a /\ v = b)) x y <-> connected (fun u v => R u v \/ (u = b /\ v = a)) x y.
Proof. rewrite !connected_add. tauto. Qed.

Lemma join_inv lnk d N R a b : ds_inv d N R -> N a -> N b ->
  ds_inv (ds_join lnk d a b) N (fun u v => R u v \/ (u = a /\ v = b)).
Proof.
  intros HI Na Nb. assert (HI' := HI). destruct HI' as [H1 H2 H3 H4 H5].
  destruct (proj2 (ds_root_In d a) (proj2 (H2 a) Na)) as [ra Ea].
  destruct (proj2 (ds_root_In d b) (proj2 (H2 b) Nb)) as [rb Eb].
  unfold ds_join. rewrite Ea, Eb. destruct (Z.eqb_spec ra rb).
  - subst. constructor; auto.
    + intros x y rx ry Ex Ey. rewrite (H4 x y rx ry Ex Ey). rewrite connected_add.
      assert (C : connected R a b) by (apply (H4 a b rb rb); auto).
      split; [auto|]. intros [?|[[? ?]|[? ?]]]; auto; unfold connected in *.
      * eapply rst_trans; [eauto|]. eapply rst_trans; eauto.
      * eapply rst_trans; [eauto|]. eapply rst_trans; [apply rst_sym; exact C|]; eauto.
    + intros x y [HR|[-> ->]]; auto.
  - destruct (lnk d ra rb).
    + apply relabel_inv; auto.
    + destruct (relabel_inv d N R b a rb ra HI Eb Ea ltac:(congruence)) as [I1 I2 I3 I4 I5].
      constructor; auto.
      * intros x y rx ry Ex Ey. rewrite (I4 x y rx ry Ex Ey). apply connected_pair_sym.
      * intros x y [HR|[-> ->]]; auto.
Qed.

Lemma ds_inv_ext d (N N' : Z -> Prop) (R R' : Z -> Z -> Prop) : (forall x, N x <-> N' x) -> (forall x y, R x y <-> R' x y) ->
  ds_inv d N R -> ds_inv d N' R'.
Proof.
  intros HN HR [H1 H2 H3 H4 H5]. constructor; auto.
  - intros x; rewrite H2; auto.
  - intros x y rx ry Ex Ey. rewrite (H4 x y rx ry Ex Ey). split; apply connected_mono; intros; apply rst_step; apply HR; auto.
  - intros x y H. rewrite <- !HN. apply H5, HR; auto.
Qed.

Lemma inv_empty : ds_inv [] (fun _ => False) (fun _ _ => False).
Proof. constructor; simpl; try discriminate; try tauto. constructor. Qed.

Lemma join_missing lnk d N R a b : ds_inv d N R -> ~ (N a /\ N b) -> ds_join lnk d a b = d.
Proof.
  intros HI H. unfold ds_join. destruct (ds_root d a) eqn:Ea; auto. destruct (ds_root d b) eqn:Eb; auto. exfalso. apply H.
  split; apply (di_nodes _ _ _ HI), ds_root_In; eauto.
Qed.

Lemma added_app p q x : added (p ++ q) x <-> added p x \/ added q x.
Proof. induction p as [|[y|a b] p IH]; simpl; rewrite ?IH; tauto. Qed.

Lemma added_dec ops x : {added ops x} + {~ added ops x}.
Proof.
  induction ops as [|[y|a b] ops IH]; simpl; auto. destruct (Z.eq_dec x y); [left; auto|]. destruct IH; [left; auto|right; tauto].
Qed.

Theorem ds_run_inv lnk ops : ds_inv (ds_run lnk ops) (added ops) (joined ops).
Proof.
  unfold ds_run. induction ops as [|o ops IH] using rev_ind.
  - apply (ds_inv_ext [] (fun _ => False) _ (fun _ _ => False)); [simpl; tauto| |apply inv_empty].
    intros x y. split; [tauto|]. intros ([|] & q & E & _); discriminate.
  - rewrite fold_left_app. simpl. set (d := fold_left (ds_step lnk) ops []) in *. clearbody d. destruct o as [x|a b]; simpl.
    + eapply ds_inv_ext; [| |apply add_inv; exact IH].
      * intros y. rewrite added_app. simpl. tauto.
      * intros u v. split.
        -- intros (p & q & -> & A & B). exists p, (q ++ [OpAdd x]). rewrite <- app_assoc; auto.
        -- intros (p & q & E & A & B). destruct (@exists_last _ (OpJoin u v :: q)) as (q' & l & Eq); [discriminate|].
           rewrite Eq, app_assoc in E. apply app_inj_tail in E as [-> <-].
           destruct q' as [|o q']; simpl in Eq; [injection Eq; intros; subst; discriminate|].
           injection Eq as <- _. exists p, q'; auto.
    + assert (J : forall u v, joined (ops ++ [OpJoin a b]) u v <-> joined ops u v \/ (u = a /\ v = b /\ added ops a /\ added ops b)).
      { intros u v. split.
        - intros (p & q & E & A & B). destruct (@exists_last _ (OpJoin u v :: q)) as (q' & l & Eq); [discriminate|].
          rewrite Eq, app_assoc in E. apply app_inj_tail in E as [-> <-].
          destruct q' as [|o q']; simpl in Eq.
          + injection Eq as -> -> _. rewrite app_nil_r in *. auto.
          + injection Eq as <- _. left. exists p, q'; auto.
        - intros [(p & q & -> & A & B)|(-> & -> & A & B)].
          + exists p, (q ++ [OpJoin a b]). rewrite <- app_assoc; auto.
          + exists ops, []. auto. }
      assert (AD : forall x, added ops x <-> added (ops ++ [OpJoin a b]) x) by (intros; rewrite added_app; simpl; tauto).
      destruct (added_dec ops a) as [Aa|Aa]; [destruct (added_dec ops b) as [Ab|Ab]|].
      * eapply ds_inv_ext; [exact AD| |apply join_inv; eauto]. intros u v. rewrite J. tauto.
      * rewrite (join_missing lnk d _ _ a b IH) by tauto. eapply ds_inv_ext; [exact AD| |exact IH].
        intros u v. rewrite J. tauto.
      * rewrite (join_missing lnk d _ _ a b IH) by tauto. eapply ds_inv_ext; [exact AD| |exact IH].
        intros u v. rewrite J. tauto.
Qed.

Lemma ds_roots_In d r : NoDup (ds_nodes d) -> (In r (ds_roots d) <-> ds_root d r = Some r).
Proof.
  unfold ds_roots, ds_nodes. rewrite in_map_iff. induction d as [|[n q] d IH]; simpl; intros HN.
  - split; [intros (? & _ & [])|discriminate].
  - inversion HN; subst. destruct (Z.eqb_spec n q); simpl.
    + subst. destruct (Z.eqb_spec q r); [subst; split; [auto|intros _; exists (r, r); auto]|].
      rewrite <- IH by auto. split; [intros (x & <- & [<-|Hx]); [simpl in *; congruence|eauto]|intros (x & <- & Hx); eauto].
    + rewrite IH by auto. destruct (Z.eqb_spec n r); [subst|tauto]. split; [|congruence].
      intros E. exfalso. apply H1. apply ds_root_In. eauto.
Qed.
Lemma ds_roots_NoDup d : NoDup (ds_nodes d) -> NoDup (ds_roots d).
Proof.
  unfold ds_roots, ds_nodes. induction d as [|[n q] d IH]; simpl; intros HN; [constructor|]. inversion HN; subst.
  destruct (n =? q); simpl; auto. constructor; auto. intros Hin. apply H1. apply in_map_iff in Hin as (x & <- & Hx).
  apply filter_In in Hx as [Hx _]. apply in_map; auto.
Qed.
