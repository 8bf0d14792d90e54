From Verif Require Import Base Num SmallestEdge SmallestEdgeProofs DisjointSet DisjointSetSpec DisjointSetProofs FinPerm
  FaceCollapser FaceCollapserSpec FaceCollapserProofs FaceCollapserIds FaceCollapserLoops AngleSort AngleSortSpec AngleSortProofs.
From Coq Require Import Permutation Sorted.
Local Open Scope Z_scope.

Lemma comp_same_dir a b : nonzero a -> nonzero b -> comp a b = false -> comp b a = false -> same_dir a b.
Proof.
  intros Ha Hb H1 H2. destruct (Z.eq_dec (quadrant a) (quadrant b)) as [E|E].
  - apply Bool.not_true_iff_false in H1, H2. rewrite comp_cross in H1, H2 by auto. apply Qcnot_lt_le in H1, H2.
    destruct (quadrant_pos a Ha) as (p & q & Q). assert (Pa := Q a Ha eq_refl). assert (Pb := Q b Hb (eq_sym E)).
    set (sa := (p * fst a + q * snd a)%Qc) in *. set (sb := (p * fst b + q * snd b)%Qc) in *.
    assert (C : cross a b = 0%Qc).
    { apply Qcle_antisym; auto. replace (cross a b) with (- cross b a)%Qc by (unfold cross; ring). qc_lra. }
    exists (sb / sa)%Qc. assert (N : sa <> 0%Qc) by (intros Z; rewrite Z in Pa; revert Pa; apply Qcle_not_lt, Qcle_refl). split.
    + assert (G : (sa * (sb / sa) = sb)%Qc) by (unfold Qcdiv; field; auto). rewrite <- G in Pb. apply mul_pos_inv in Pb; auto.
    + destruct a as [x y], b as [u v]. cbn [fst snd] in *. unfold cross in C; cbn [fst snd] in C.
      assert (EX : (sa * u = sb * x)%Qc).
      { unfold sa, sb. replace (x * v - y * u)%Qc with (x * v - y * u)%Qc in C by auto.
        replace ((p * x + q * y) * u)%Qc with ((p * u + q * v) * x - q * (x * v - y * u))%Qc by ring. rewrite C. ring. }
      assert (EY : (sa * v = sb * y)%Qc).
      { unfold sa, sb. replace ((p * x + q * y) * v)%Qc with ((p * u + q * v) * y + p * (x * v - y * u))%Qc by ring. rewrite C. ring. }
      f_equal.
      * transitivity ((sa * u) / sa)%Qc; [unfold Qcdiv; field; auto|]. rewrite EX. unfold Qcdiv. ring.
      * transitivity ((sa * v) / sa)%Qc; [unfold Qcdiv; field; auto|]. rewrite EY. unfold Qcdiv. ring.
  - unfold comp in *. rewrite (proj2 (Z.eqb_neq _ _)) in H1 by auto. rewrite (proj2 (Z.eqb_neq _ _)) in H2 by auto. apply Z.ltb_ge in H1, H2. lia.
Qed.

Lemma cyc_split (l : list Z) x y : In (x, y) (cyc_pairs l) ->
  (exists l1 l2, l = l1 ++ x :: y :: l2) \/ (exists l1 t, l = l1 ++ [x] /\ l = y :: t).
Proof.
  destruct l as [|a t]; [intros []|]. unfold cyc_pairs.
  assert (G : forall (t : list Z) b pre, In (x, y) (combine (b :: t) (t ++ [a])) ->
    (exists l1 l2, pre ++ b :: t = l1 ++ x :: y :: l2) \/ (y = a /\ exists l1, pre ++ b :: t = l1 ++ [x])).
  { induction t0 as [|c t0 IH]; intros b pre H.
    - destruct H as [[= <- <-]|[]]. right. split; auto. exists pre; auto.
    - destruct H as [[= <- <-]|H]; [left; exists pre, t0; auto|].
      destruct (IH c (pre ++ [b]) H) as [(l1 & l2 & E)|(-> & l1 & E)]; rewrite <- app_assoc in E; [left; eauto|right; eauto]. }
  intros H. destruct (G t a [] H) as [?|(-> & l1 & E)]; auto. right. simpl in E. exists l1, t. auto.
Qed.
Lemma SS_app (A : Type) (R : A -> A -> Prop) l1 l2 : StronglySorted R (l1 ++ l2) -> forall x y, In x l1 -> In y l2 -> R x y.
Proof.
  induction l1 as [|a l1 IH]; simpl; intros H x y; [tauto|]. apply StronglySorted_inv in H as [H1 H2].
  intros [<-|Hx] Hy; [|eauto]. rewrite Forall_forall in H2. apply H2, in_app_iff; auto.
Qed.

Section Geom.
  Variable lnk : ds -> Z -> Z -> bool.
  Variable V : Z -> vec2.
  Variable ord : Z -> list Z -> list Z.
  Hypothesis OP : forall a bs, Permutation (ord a bs) bs.
  Hypothesis ord_sorts : forall a bs, (forall b, In b bs -> nonzero (diff V a b)) ->
    sorts_by (fun i j => comp (diff V a i) (diff V a j)) bs (ord a bs).
  Variable edges rm : list edge.
  Hypothesis simple : simple_edges edges.
  Hypothesis distinct : forall a b, half_edge edges (a, b) -> V a <> V b.
  Hypothesis nodir : forall a b c, half_edge edges (a, b) -> half_edge edges (a, c) -> b <> c -> ~ same_dir (diff V a b) (diff V a c).
  Lemma diff_nonzero a b : V a <> V b -> nonzero (diff V a b).
  Proof.
    intros H E. apply H. unfold diff in E.
    assert (E1 := f_equal fst E). assert (E2 := f_equal snd E). cbn [fst snd] in E1, E2.
    destruct (V a) as [x y], (V b) as [u v]. cbn [fst snd] in *. assert (x = u) by qc_lra. assert (y = v) by qc_lra.
    subst; auto.
  Qed.
  Lemma next_clockwise b a c :
    inc (fc_deg (bake_simple lnk ord edges rm)) (b, a) = Some (a, c) ->
    half_edge edges (a, c) /\ forall z, half_edge edges (a, z) -> ~ ccw_between (diff V a c) (diff V a z) (diff V a b).
  Proof.
    intros H. unfold inc in H. apply (deg_find ord OP) in H. apply corner_In in H as (a' & bs & it & it1 & Hin & Hc & E1 & E2). injection E1 as -> <-. injection E2 as ->.
    set (m := init_map edges) in *.
    destruct (ord_nodup ord OP m a bs Hin) as [ND IN].
    assert (HH : forall z, In z (ord a bs) <-> half_edge edges (a, z)). { intros z. rewrite IN. apply half_iff. }
    assert (SS : StronglySorted (fun x y => comp (diff V a y) (diff V a x) = false) (ord a bs)).
    { apply ord_sorts. intros w Hw. apply diff_nonzero, distinct, HH. apply (Permutation_in _ (Permutation_sym (OP a bs))); auto. }
    assert (Hit : In it (ord a bs)) by (rewrite <- (cyc_fst (ord a bs)); apply (in_map fst) in Hc; auto).
    split; [apply HH; auto|]. intros z Hz. assert (Hz' := Hz). apply HH in Hz.
    assert (NZ : forall w, In w (ord a bs) -> nonzero (diff V a w)) by (intros w Hw; apply diff_nonzero, distinct, HH; auto).
    assert (NB : forall u w, In u (ord a bs) -> In w (ord a bs) -> comp (diff V a u) (diff V a w) = false -> ~ ccw_before (diff V a u) (diff V a w)).
    { intros u w Hu Hw HF HB. apply (comp_ccw _ _ (NZ u Hu) (NZ w Hw)) in HB. congruence. }
    assert (Hit1 : In it1 (ord a bs)) by (apply (Permutation_in _ (cyc_snd (ord a bs))); apply (in_map snd) in Hc; auto).
    destruct (cyc_split _ _ _ Hc) as [(l1 & l2 & E)|(l1 & t & E & E')].
    - (* adjacent *)
      assert (Hne : it <> it1). { intros ->. rewrite E in ND. apply NoDup_remove_2 in ND. apply ND, in_app_iff; simpl; auto. }
      assert (XY : ccw_before (diff V a it) (diff V a it1)).
      { apply (comp_ccw _ _ (NZ it Hit) (NZ it1 Hit1)). destruct (comp (diff V a it) (diff V a it1)) eqn:E1; auto. exfalso.
        apply (nodir a it it1); try (apply HH; auto); auto. apply comp_same_dir; auto.
        rewrite E in SS. change (l1 ++ it :: it1 :: l2) with (l1 ++ [it] ++ it1 :: l2) in SS. rewrite app_assoc in SS.
        apply (SS_app _ _ _ _ SS); [apply in_app_iff; simpl; auto|simpl; auto]. }
      intros [[H1 H2]|[H1 _]]; [|auto].
      change (l1 ++ it :: it1 :: l2) with (l1 ++ [it] ++ it1 :: l2) in E. rewrite app_assoc in E.
      assert (Hz2 := Hz). rewrite E in Hz2. apply in_app_iff in Hz2 as [Hz2|Hz2].
      + apply in_app_iff in Hz2 as [Hz2|[->|[]]].
        * revert H1. apply NB; auto. rewrite <- app_assoc in E. rewrite E in SS. apply (SS_app _ _ _ _ SS); simpl; auto.
        * revert H1. apply NB; auto. apply comp_irrefl.
      + destruct Hz2 as [->|Hz2].
        * revert H2. apply NB; auto. apply comp_irrefl.
        * revert H2. apply NB; auto. rewrite E in SS. change (it1 :: l2) with ([it1] ++ l2) in SS. rewrite app_assoc in SS.
          apply (SS_app _ _ _ _ SS); auto. apply in_app_iff; simpl; auto.
    - assert (N1 : ~ ccw_before (diff V a it) (diff V a z)).
      { apply NB; auto. assert (Hz2 := Hz). rewrite E in Hz2. apply in_app_iff in Hz2 as [Hz2|[->|[]]]; [|apply comp_irrefl].
        rewrite E in SS. apply (SS_app _ _ _ _ SS); simpl; auto. }
      assert (N2 : ~ ccw_before (diff V a z) (diff V a it1)).
      { apply NB; auto. assert (Hz2 := Hz). rewrite E' in Hz2. destruct Hz2 as [->|Hz2]; [apply comp_irrefl|].
        rewrite E' in SS. apply (SS_app _ _ [it1] t SS); simpl; auto. }
      intros [[H1 _]|[_ [H1|H1]]]; auto.
  Qed.
End Geom.

(** *** a concrete sort, to show the hypotheses on [ord] can be met *)
Fixpoint ins (lt : Z -> Z -> bool) (x : Z) (l : list Z) : list Z :=
  match l with [] => [x] | y :: t => if lt x y then x :: l else y :: ins lt x t end.
Definition isort (lt : Z -> Z -> bool) (l : list Z) : list Z := fold_right (ins lt) [] l.
Lemma ins_perm lt x l : Permutation (ins lt x l) (x :: l).
Proof. induction l as [|y l IH]; simpl; auto. destruct (lt x y); auto. rewrite IH. constructor. Qed.
Lemma isort_perm lt l : Permutation (isort lt l) l.
Proof. induction l as [|x l IH]; simpl; auto. rewrite ins_perm, IH. auto. Qed.
Lemma isort_sorts lt l (P : Z -> Prop) : (forall x, In x l -> P x) ->
  (forall x y, P x -> P y -> lt x y = true -> lt y x = false) ->
  (forall x y z, P x -> P y -> P z -> lt x y = false -> lt y z = false -> lt x z = false) ->
  sorts_by lt l (isort lt l).
Proof.
  intros HP AS NT. split; [apply isort_perm|]. induction l as [|x l IH]; simpl; [constructor|].
  assert (IH' := IH (fun y Hy => HP y (or_intror Hy))). clear IH. assert (Px : P x) by (apply HP; simpl; auto).
  assert (PL : forall y, In y (isort lt l) -> P y). { intros y Hy. apply HP. right. apply (Permutation_in _ (isort_perm lt l)); auto. }
  induction IH' as [|y t S IHt F]; simpl; [repeat constructor|]. rewrite Forall_forall in F.
  assert (Py : P y) by (apply PL; simpl; auto).
  destruct (lt x y) eqn:E.
  - constructor; [constructor; auto; rewrite Forall_forall; auto|]. constructor; [apply AS; auto|]. rewrite Forall_forall. intros z Hz.
    assert (P z) by (apply PL; simpl; auto). apply (NT z y x); auto.
  - constructor; [apply IHt; intros; apply PL; simpl; auto|]. rewrite Forall_forall. intros z Hz.
    apply (Permutation_in _ (ins_perm lt x t)) in Hz as [<-|Hz]; auto.
Qed.
Definition angle_ord (V : Z -> vec2) (a : Z) (bs : list Z) : list Z := isort (fun i j => comp (diff V a i) (diff V a j)) bs.
Lemma angle_ord_ok V : (forall a bs, Permutation (angle_ord V a bs) bs) /\
  forall a bs, (forall b, In b bs -> nonzero (diff V a b)) -> sorts_by (fun i j => comp (diff V a i) (diff V a j)) bs (angle_ord V a bs).
Proof.
  split; [intros; apply isort_perm|]. intros a bs H. apply isort_sorts with (P := fun b => nonzero (diff V a b)); auto.
  - intros x y Hx Hy E. destruct (comp (diff V a y) (diff V a x)) eqn:E'; auto.
    assert (C := comp_trans _ _ _ Hx Hy Hx E E'). rewrite comp_irrefl in C. discriminate.
  - intros x y z. apply comp_negtrans.
Qed.

(** *** set_edges_for_removal *)
Definition position_edges (loop : list Z) : list edge :=
  map (fun i => (Z.of_nat i, Z.of_nat ((i + 1) mod length loop))) (seq 0 (length loop)).
(** face_collapser.cpp:59-68 followed by bake(V, false) *)
Definition bake_loop (lnk : ds -> Z -> Z -> bool) (ord : Z -> list Z -> list Z) (edges : list edge) (loop : list Z) : fcol :=
  let m := init_map edges in
  finalize (unify lnk ord m (init_ops edges) (removal_ops_loop m loop)).
Lemma add_again d x : In x (ds_nodes d) -> add_node d x = d.
Proof. intros H. unfold add_node, has_node. apply ds_root_In in H as [r ->]. auto. Qed.
Lemma removal_run lnk m es : forall d, In (-1) (ds_nodes d) ->
  fold_left (ds_step lnk) (flat_map (removal_ops_edge m) es) d =
  fold_left (ds_step lnk) (flat_map (fun e => match face_of m e with Some f => [OpJoin f (-1)] | None => [] end) es) d.
Proof.
  induction es as [|e es IH]; intros d H; auto. cbn [flat_map]. rewrite !fold_left_app. unfold removal_ops_edge at 2.
  cbn [fold_left ds_step]. rewrite add_again by auto. rewrite IH; auto.
  destruct (face_of m e); cbn [fold_left ds_step]; auto. rewrite join_nodes; auto.
Qed.
Lemma bake_loop_eq lnk ord edges loop : loop <> [] -> bake_loop lnk ord edges loop = bake_simple lnk ord edges (position_edges loop).
Proof.
  intros H. unfold bake_loop, bake_simple, unify. cbv zeta. f_equal. f_equal. unfold ds_run. rewrite !fold_left_app. f_equal.
  set (d := fold_left (ds_step lnk) (init_ops edges) []). set (m := init_map edges). unfold removal_ops_loop. cbn [fold_left ds_step].
  assert (IN : In (-1) (ds_nodes (add_node d (-1)))). { rewrite add_nodes. destruct (in_dec _ _ _); auto. apply in_app_iff; simpl; auto. }
  assert (PE : exists e es, position_edges loop = e :: es) by (destruct loop; [congruence|unfold position_edges; simpl; eauto]).
  transitivity (fold_left (ds_step lnk) (flat_map (fun e => match face_of m e with Some f => [OpJoin f (-1)] | None => [] end) (position_edges loop)) (add_node d (-1))).
  - unfold position_edges. f_equal. generalize (seq 0 (length loop)). induction l as [|i l IH]; auto. cbn [flat_map map]. f_equal. auto.
  - rewrite <- removal_run by auto. destruct PE as (e & es & ->). cbn [flat_map]. rewrite !fold_left_app. f_equal. unfold removal_ops_edge.
    cbn [fold_left ds_step]. rewrite add_again; auto.
Qed.
