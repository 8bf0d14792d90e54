From Verif Require Import Base Num SmallestEdge AdaptiveGrid AngleSort AngleSortSpec AngleSortProofs FaceCollapser FaceCollapserGeom
  CellCollapser CellCollapserSpec CellCollapserProofs Volume Wedge WedgeSpec.
From Coq Require Import Relations Permutation Sorted Lqa.
Set Implicit Arguments.
Local Open Scope Qc_scope.
Local Notation crs := AngleSortSpec.cross.

(** *** plane geometry *)
Definition swept2 (x z y : vec2) : Prop :=
  (same_dir x y /\ ~ same_dir x z) \/
  (~ same_dir x y /\ ((0 < crs x y /\ 0 < crs x z /\ 0 < crs z y) \/ (crs x y <= 0 /\ (0 < crs x z \/ 0 < crs z y)))).
Definition neg2 (a : vec2) : vec2 := (- fst a, - snd a).
Lemma crs_neg_l a b : crs (neg2 a) b = - crs a b.
Proof. unfold crs, neg2; simpl. ring. Qed.
Lemma crs_neg_r a b : crs a (neg2 b) = - crs a b.
Proof. unfold crs, neg2; simpl. ring. Qed.
Lemma fh_neg a : nonzero a -> fhb (neg2 a) = negb (fhb a).
Proof.
  intros NZ. destruct (fhb a) eqn:E; simpl.
  - apply fhb_iff in E. apply not_true_iff_false. rewrite fhb_iff. unfold first_half, neg2 in *; simpl. intros H.
    destruct E as [E|[E1 E2]], H as [H|[H1 H2]]; try qc_lra.
  - apply fhb_iff. apply not_true_iff_false in E. rewrite fhb_iff in E. unfold first_half, neg2 in *; simpl.
    destruct (qlt_cases (fst a)) as [H|[H|H]]; [exfalso; auto| |left; qc_lra]. right. split; [rewrite H; ring|].
    destruct (qlt_cases (snd a)) as [H'|[H'|H']]; [exfalso; auto| |qc_lra]. exfalso. apply NZ. destruct a; simpl in *; subst; auto.
Qed.
(** within one half turn the cross product orders *)
Lemma half_trans a b c : fhb a = fhb b -> fhb b = fhb c -> nonzero a -> nonzero b -> nonzero c ->
  (0 <= crs a b -> 0 < crs b c -> 0 < crs a c) /\ (0 < crs a b -> 0 <= crs b c -> 0 < crs a c).
Proof.
  assert (G : forall a b c, fhb a = true -> fhb b = true -> fhb c = true ->
    (0 <= crs a b -> 0 < crs b c -> 0 < crs a c) /\ (0 < crs a b -> 0 <= crs b c -> 0 < crs a c)).
  { clear. intros a b c Ha Hb Hc. apply fhb_iff in Ha, Hb, Hc. unfold first_half in *.
    assert (ID : fst b * crs a c = fst a * crs b c + fst c * crs a b) by (unfold crs; ring).
    assert (C1 : crs a b = fst a * snd b - snd a * fst b) by reflexivity.
    assert (C2 : crs b c = fst b * snd c - snd b * fst c) by reflexivity.
    destruct a as [x y], b as [u v], c as [p q]; cbn [fst snd] in *.
    destruct Hb as [Hb|[Hb1 Hb2]].
    - split; intros H1 H2; (destruct Ha as [Ha|[Ha1 Ha2]]; [|exfalso; subst x; rewrite C1 in H1; clear - Ha2 Hb H1; qc_nra]).
      + assert (HP : u * crs (x, y) (p, q) < 0).
        { rewrite ID. assert (A1 := mul_np _ _ Ha H2). assert (A2 : p * crs (x, y) (u, v) <= 0).
          { destruct Hc as [Hc|[-> _]]; [|replace (0 * crs (x, y) (u, v)) with 0 by ring; apply Qcle_refl]. clear - Hc H1. set (k := crs _ _) in *. clearbody k. qc_nra. }
          qc_lra. }
        clear - HP Hb. set (k := crs _ _) in *. clearbody k. qc_nra.
      + assert (HP : u * crs (x, y) (p, q) < 0).
        { rewrite ID. destruct Hc as [Hc|[Hc1 Hc2]].
          - assert (A2 := mul_np _ _ Hc H1). assert (A1 : x * crs (u, v) (p, q) <= 0).
            { clear - Ha H2. set (k := crs _ _) in *. clearbody k. qc_nra. } qc_lra.
          - assert (A1 : 0 < crs (u, v) (p, q)). { rewrite C2, Hc1. clear - Hb Hc2. qc_nra. }
            subst p. assert (A2 := mul_np _ _ Ha A1). qc_lra. }
        clear - HP Hb. set (k := crs _ _) in *. clearbody k. qc_nra.
    - subst u. split; intros H1 H2.
      + exfalso. rewrite C2 in H2. destruct Hc as [Hc|[-> Hc]]; [|clear - H2; revert H2; ring_simplify (0 * q - v * 0); intros H; revert H; apply Qcle_not_lt, Qcle_refl].
        clear - H2 Hc Hb2. qc_nra.
      + rewrite C2 in H2. destruct Hc as [Hc|[-> Hc]]; [exfalso; clear - H2 Hc Hb2; qc_nra|].
        rewrite C1 in H1. destruct Ha as [Ha|[-> Ha]]; [|exfalso; clear - H1; revert H1; ring_simplify (0 * v - y * 0); intros H; revert H; apply Qcle_not_lt, Qcle_refl].
        unfold crs; cbn [fst snd]. clear - Ha Hc. qc_nra. }
  intros E1 E2 Na Nb Nc. destruct (fhb a) eqn:Ea; [apply G; congruence|].
  specialize (G (neg2 a) (neg2 b) (neg2 c)). rewrite !fh_neg, Ea, <- E1, <- E2 in G by auto.
  rewrite !crs_neg_l, !crs_neg_r, !Qcopp_involutive in G. apply G; auto; rewrite <- E1; auto.
Qed.

Lemma crs_flip a b : crs b a = - crs a b.
Proof. unfold crs. ring. Qed.
Lemma same_dir_crs x y : same_dir x y -> crs x y = 0.
Proof. intros (t & _ & ->). unfold crs; simpl. ring. Qed.
Lemma neg2_nonzero a : nonzero a -> nonzero (neg2 a).
Proof.
  intros H E. apply H. destruct a as [x y]. unfold neg2 in E. assert (E1 := f_equal fst E). assert (E2 := f_equal snd E). cbn [fst snd] in *.
  f_equal; qc_lra.
Qed.
Lemma ccw_total x y : nonzero x -> nonzero y -> ~ same_dir x y -> ccw_before x y \/ ccw_before y x.
Proof.
  intros Hx Hy ND. destruct (comp x y) eqn:E1; [left; apply comp_ccw; auto|]. destruct (comp y x) eqn:E2; [right; apply comp_ccw; auto|].
  exfalso. apply ND, comp_same_dir; auto.
Qed.
Lemma same_dir_half x y : same_dir x y -> fhb x = fhb y.
Proof.
  intros (t & Ht & ->). destruct x as [a b]. apply eq_true_iff_eq. rewrite !fhb_iff. unfold first_half; cbn [fst snd]. split.
  - intros [H|[-> H]]; [left|right; split; [ring|]]; clear - H Ht; qc_nra.
  - intros [H|[H H']].
    + left. clear - H Ht. qc_nra.
    + right. split; [|clear - H' Ht; qc_nra]. destruct (qlt_cases a) as [A|[A|A]]; auto; exfalso; clear - H A Ht; qc_nra.
Qed.
Ltac ht a b c := let H := fresh in assert (H := half_trans a b c); rewrite ?fh_neg, ?crs_neg_l, ?crs_neg_r in H by auto.
Lemma swept_between x z y : nonzero x -> nonzero z -> nonzero y -> swept2 x z y -> ccw_between x z y.
Proof.
  intros Hx Hz Hy [[S1 S2]|[NS H]].
  - right. split.
    + rewrite ccw_bool, (same_dir_half S1), (same_dir_crs S1). destruct (fhb y); intros H; revert H; apply Qcle_not_lt, Qcle_refl.
    + destruct (ccw_total Hx Hz S2) as [H|H]; [auto|right]. revert H. rewrite !ccw_bool, (same_dir_half S1).
      destruct S1 as (t & Ht & ->). destruct (fhb z), (fhb _); auto.
      * unfold crs; cbn [fst snd]. intros H. replace (fst z * (t * snd x) - snd z * (t * fst x)) with (t * (fst z * snd x - snd z * fst x)) by ring. apply mul_pos; auto.
      * unfold crs; cbn [fst snd]. intros H. replace (fst z * (t * snd x) - snd z * (t * fst x)) with (t * (fst z * snd x - snd z * fst x)) by ring. apply mul_pos; auto.
  - unfold ccw_between. rewrite !ccw_bool.
    assert (Nx := neg2_nonzero Hx). assert (Ny := neg2_nonzero Hy). assert (Nz := neg2_nonzero Hz).
    assert (T2 := @half_trans x (neg2 y) z). assert (T3 := @half_trans z (neg2 x) y).
    rewrite !fh_neg, !crs_neg_l, !crs_neg_r in T2, T3 by auto.
    assert (T4 := @half_trans y (neg2 z) x). rewrite !fh_neg, !crs_neg_l, !crs_neg_r in T4 by auto.
    rewrite (crs_flip x y), (crs_flip z y), (crs_flip x z) in T4. rewrite (crs_flip z y) in T2. rewrite (crs_flip x z) in T3.
    set (p := crs x y) in *. set (q := crs x z) in *. set (r := crs z y) in *. clearbody p q r.
    destruct (fhb x), (fhb z), (fhb y); cbn [negb] in *;
      repeat match goal with T : ?a = ?a -> _ |- _ => specialize (T eq_refl) end;
      repeat match goal with T : nonzero _ -> _ |- _ => specialize (T ltac:(assumption)) end.
    all: rewrite ?Qcopp_involutive in *.
    all: destruct (Qclt_le_dec 0 p) as [P|P]; [assert (P' := Qclt_not_le _ _ P)|assert (P' := Qcle_not_lt _ _ P); assert (0 <= - p) by qc_lra].
    all: destruct H as [(H1 & H2 & H3)|(H1 & [H2|H2])]; try (exfalso; tauto); try tauto.
    all: try (assert (K := Qclt_le_weak _ _ H2)).
    all: repeat match goal with T : _ /\ _ |- _ => destruct T end.
    all: try tauto.
    all: try (exfalso; assert (0 < - p) by (auto using Qclt_le_weak); qc_lra).
Qed.
Lemma parallel_cases x y : nonzero x -> nonzero y -> crs x y = 0 -> same_dir x y \/ exists t, 0 < t /\ y = (- t * fst x, - t * snd x).
Proof.
  intros Hx Hy E. destruct x as [a b], y as [u v]. unfold crs in E; cbn [fst snd] in *.
  set (n := a * a + b * b). set (d := a * u + b * v).
  assert (NP : 0 < n). { assert (N : a <> 0 \/ b <> 0). { destruct (qlt_cases a) as [A|[A|A]]; [left; intros ->; revert A; apply Qcle_not_lt, Qcle_refl| |left; intros ->; revert A; apply Qcle_not_lt, Qcle_refl].
      right. intros ->. apply Hx. subst; auto. }
    unfold n. destruct N as [N|N]; destruct (qlt_cases a) as [A|[A|A]], (qlt_cases b) as [B|[B|B]]; try congruence; clear - A B; subst; qc_nra. }
  assert (NN : n <> 0) by (intros Z; rewrite Z in NP; revert NP; apply Qcle_not_lt, Qcle_refl).
  assert (U : u = (d / n) * a).
  { assert (EQ : d * a = n * u) by (unfold d, n; replace ((a * u + b * v) * a) with ((a * a + b * b) * u + b * (a * v - b * u)) by ring; rewrite E; ring).
    replace (d / n * a) with (d * a / n) by (field; auto). rewrite EQ. field; auto. }
  assert (W : v = (d / n) * b).
  { assert (EQ : d * b = n * v) by (unfold d, n; replace ((a * u + b * v) * b) with ((a * a + b * b) * v - a * (a * v - b * u)) by ring; rewrite E; ring).
    replace (d / n * b) with (d * b / n) by (field; auto). rewrite EQ. field; auto. }
  destruct (qlt_cases (d / n)) as [K|[K|K]].
  - right. exists (- (d / n)). split; [qc_lra|]. rewrite Qcopp_involutive, <- U, <- W. auto.
  - exfalso. apply Hy. rewrite U, W, K. f_equal; ring.
  - left. exists (d / n). split; auto. cbn [fst snd]. rewrite <- U, <- W. auto.
Qed.
Lemma same_dir_sym x y : same_dir x y -> same_dir y x.
Proof.
  intros (t & Ht & ->). assert (t <> 0) by (intros ->; revert Ht; apply Qcle_not_lt, Qcle_refl). exists (/ t). split.
  - destruct (qlt_cases (/ t)) as [K|[K|K]]; auto; exfalso; assert (E : t * / t = 1) by (field; auto).
    + assert (L := mul_pn _ _ Ht K). rewrite E in L. revert L. apply Qcle_not_lt. discriminate.
    + rewrite K in E. replace (t * 0) with 0 in E by ring. discriminate.
  - destruct x as [a b]; cbn [fst snd]. f_equal; field; auto.
Qed.
Lemma swept_total x y z : nonzero x -> nonzero y -> nonzero z -> ~ same_dir x y -> ~ same_dir x z -> ~ same_dir y z ->
  swept2 x z y \/ swept2 x y z.
Proof.
  intros Hx Hy Hz N1 N2 N3. unfold swept2. rewrite (crs_flip y z).
  destruct (qlt_cases (crs y z)) as [C|[C|C]].
  - assert (0 < - crs y z) by qc_lra. destruct (Qclt_le_dec 0 (crs x y)) as [P|P], (Qclt_le_dec 0 (crs x z)) as [Q|Q]; tauto.
  - destruct (parallel_cases Hy Hz C) as [S|(t & Ht & E)]; [tauto|].
    assert (E' : crs x z = - t * crs x y) by (rewrite E; unfold crs; cbn [fst snd]; ring).
    destruct (qlt_cases (crs x y)) as [P|[P|P]].
    + assert (0 < crs x z) by (rewrite E'; clear - P Ht; set (k := crs _ _) in *; clearbody k; qc_nra).
      left. right. split; auto. right. split; [apply Qclt_le_weak; auto|auto].
    + exfalso. assert (Q : crs x z = 0) by (rewrite E', P; ring).
      destruct (parallel_cases Hx Hy P) as [S|(u & Hu & E2)]; [tauto|]. apply N2. exists (t * u). split; [apply mul_pos; auto|].
      rewrite E, E2. cbn [fst snd]. f_equal; ring.
    + assert (crs x z <= 0) by (rewrite E'; clear - P Ht; set (k := crs _ _) in *; clearbody k; qc_nra).
      right. right. split; auto.
  - destruct (Qclt_le_dec 0 (crs x y)) as [P|P], (Qclt_le_dec 0 (crs x z)) as [Q|Q]; tauto.
Qed.

(** a list sorted counter-clockwise: the cyclic successor is the next one swept *)
Section Sorted.
  Variable P : Z -> vec2.
  Variable l : list Z.
  Hypothesis ND : NoDup l.
  Hypothesis NZ : forall f, In f l -> nonzero (P f).
  Hypothesis DD : forall f g, In f l -> In g l -> f <> g -> ~ same_dir (P f) (P g).
  Hypothesis SS : StronglySorted (fun f g => ~ ccw_before (P g) (P f)) l.
  Lemma nb_self f : In f l -> ~ ccw_before (P f) (P f).
  Proof. intros H B. apply comp_ccw in B; auto. rewrite comp_irrefl in B. discriminate. Qed.
  Lemma next_not_between f g z : cyc_next l f g -> In z l -> ~ ccw_between (P f) (P z) (P g).
  Proof.
    intros H Hz. apply cyc_next_iff in H. assert (H' := cyc_In _ _ _ H). destruct H' as [Hf Hg].
    destruct (cyc_split _ _ _ H) as [(l1 & l2 & E)|(l1 & t & E & E')].
    - assert (Hne : f <> g). { intros ->. rewrite E in ND. apply NoDup_remove_2 in ND. apply ND, in_app_iff; simpl; auto. }
      assert (XY : ccw_before (P f) (P g)).
      { destruct (ccw_total (NZ Hf) (NZ Hg) (DD Hf Hg Hne)) as [B|B]; auto. exfalso. revert B.
        rewrite E in SS. change (l1 ++ f :: g :: l2) with (l1 ++ [f] ++ g :: l2) in SS. rewrite app_assoc in SS.
        apply (SS_app _ _ _ _ SS); [apply in_app_iff; simpl; auto|simpl; auto]. }
      intros [[H1 H2]|[H1 _]]; [|auto].
      change (l1 ++ f :: g :: l2) with (l1 ++ [f] ++ g :: l2) in E. rewrite app_assoc in E.
      assert (Hz2 := Hz). rewrite E in Hz2. apply in_app_iff in Hz2 as [Hz2|Hz2].
      + apply in_app_iff in Hz2 as [Hz2|[->|[]]].
        * revert H1. rewrite <- app_assoc in E. rewrite E in SS. apply (SS_app _ _ _ _ SS); simpl; auto.
        * revert H1. apply nb_self; auto.
      + destruct Hz2 as [->|Hz2].
        * revert H2. apply nb_self; auto.
        * revert H2. rewrite E in SS. change (g :: l2) with ([g] ++ l2) in SS. rewrite app_assoc in SS.
          apply (SS_app _ _ _ _ SS); auto. apply in_app_iff; simpl; auto.
    - assert (N1 : ~ ccw_before (P f) (P z)).
      { assert (Hz2 := Hz). rewrite E in Hz2. apply in_app_iff in Hz2 as [Hz2|[->|[]]]; [|apply nb_self; auto].
        rewrite E in SS. apply (SS_app _ _ _ _ SS); simpl; auto. }
      assert (N2 : ~ ccw_before (P z) (P g)).
      { assert (Hz2 := Hz). rewrite E' in Hz2. destruct Hz2 as [->|Hz2]; [apply nb_self; auto|].
        rewrite E' in SS. apply StronglySorted_inv in SS as [_ FA]. rewrite Forall_forall in FA. apply FA; auto. }
      intros [[H1 H2]|[_ [H1|H1]]]; auto.
  Qed.
  Lemma next_swept f g : cyc_next l f g <-> In f l /\ In g l /\ forall z, In z l -> ~ swept2 (P f) (P z) (P g).
  Proof.
    split.
    - intros H. assert (H' := H). apply cyc_next_iff in H'. apply cyc_In in H' as [Hf Hg]. split; auto. split; auto.
      intros z Hz S. apply (next_not_between H Hz), swept_between; auto.
    - intros (Hf & Hg & NS). assert (F : forall g', cyc_next l f g' -> In g' l /\ forall z, In z l -> ~ swept2 (P f) (P z) (P g')).
      { intros g' H. assert (H' := H). apply cyc_next_iff in H'. apply cyc_In in H' as [_ Hg']. split; auto. intros z Hz S. apply (next_not_between H Hz), swept_between; auto. }
      assert (EX : exists g', cyc_next l f g').
      { apply In_nth_error in Hf as [i E]. assert (L : (i < length l)%nat) by (apply nth_error_Some; congruence).
        destruct (nth_error l ((i + 1) mod length l)) as [g'|] eqn:E'; [exists g', i; auto|]. apply nth_error_None in E'.
        assert (M := Nat.mod_upper_bound (i + 1) (length l)). lia. }
      destruct EX as [g' HN]. destruct (F g' HN) as [Hg' NS']. destruct (Z.eq_dec g' g) as [<-|NE]; auto. exfalso.
      assert (RF : forall h, same_dir (P h) (P h)) by (intros h; exists 1; split; [reflexivity|destruct (P h); simpl; f_equal; ring]).
      destruct (Z.eq_dec f g) as [<-|N1]; [apply (NS g' Hg'); left; split; auto|].
      destruct (Z.eq_dec f g') as [<-|N2]; [apply (NS' g Hg); left; split; auto|].
      destruct (swept_total (NZ Hf) (NZ Hg) (NZ Hg')) as [S|S]; auto; [apply (NS g' Hg'); auto|apply (NS' g Hg); auto].
  Qed.
End Sorted.

(** *** from the plane back to space *)
Lemma dot_pos (d : q3) : d <> (0, 0, 0) -> 0 < dot d d.
Proof.
  destruct d as [[x y] z]. intros H. unfold dot.
  destruct (qlt_cases x) as [X|[X|X]], (qlt_cases y) as [Y|[Y|Y]], (qlt_cases z) as [W|[W|W]];
    try (exfalso; apply H; subst; reflexivity); clear H; subst; qc_nra.
Qed.
Lemma max_axis_pos v : v <> (0, 0, 0) -> comp3 v (max_axis v) <> 0.
Proof.
  destruct v as [[x y] z]. intros H. unfold max_axis, comp3, sq.
  assert (G : forall a b : Qc, a * a <= b * b -> b = 0 -> a = 0).
  { intros a b L ->. destruct (qlt_cases a) as [A|[A|A]]; auto; exfalso; clear - L A; qc_nra. }
  destruct (qltb (x * x) (y * y)) eqn:E1; [apply qltb_lt in E1|apply qltb_ge in E1].
  - destruct (qltb (y * y) (z * z)) eqn:E2; [apply qltb_lt in E2|apply qltb_ge in E2]; simpl; intros Z.
    + subst z. clear - E1 E2. qc_nra.
    + subst y. clear - E1. qc_nra.
  - destruct (qltb (x * x) (z * z)) eqn:E2; [apply qltb_lt in E2|apply qltb_ge in E2]; simpl; intros Z.
    + subst z. clear - E2. qc_nra.
    + apply H. rewrite (G y x), (G z x), Z; auto.
Qed.
Lemma max_axis_range v : (0 <= max_axis v < 3)%Z.
Proof. destruct v as [[x y] z]. unfold max_axis. destruct (qltb _ _), (qltb _ _); lia. Qed.
(** with the edge direction d = vb - va and a kept axis on which d does not vanish, the projection preserves turns up to |d_k| *)
Section Proj.
  Variable vba : q3.
  Variable k : Z.
  Hypothesis K3 : (0 <= k < 3)%Z.
  Hypothesis KN : comp3 vba k <> 0.
  Let flip := qltb (comp3 vba k) 0.
  Let d := vneg vba.
  Let pr := project k flip.
  Definition rot (n : q3) : q3 := (comp3 n k, comp3 n ((k + 1) mod 3), comp3 n ((k + 2) mod 3)).
  Lemma k_cases : k = 0%Z \/ k = 1%Z \/ k = 2%Z.
  Proof. lia. Qed.
  Lemma rot_dot n m : dot (rot n) (rot m) = dot n m.
  Proof. unfold rot. destruct n as [[x y] z], m as [[u v] w], k_cases as [ -> |[ -> | -> ]]; unfold dot; cbn; ring. Qed.
  Lemma rot_turn n m o : turn (rot n) (rot m) (rot o) = turn n m o.
  Proof. unfold rot, turn. destruct n as [[x y] z], m as [[u v] w], o as [[p q] r], k_cases as [ -> |[ -> | -> ]]; unfold dot; cbn; ring. Qed.
  Lemma rot_scale t n : rot (vscale t n) = vscale t (rot n).
  Proof. unfold rot. destruct n as [[x y] z], k_cases as [ -> |[ -> | -> ]]; reflexivity. Qed.
  Lemma rot_inj n m : rot n = rot m -> n = m.
  Proof.
    unfold rot. destruct n as [[x y] z], m as [[u v] w], k_cases as [ -> |[ -> | -> ]]; intros E;
      assert (E1 := f_equal (fun p : q3 => fst (fst p)) E); assert (E2 := f_equal (fun p : q3 => snd (fst p)) E); assert (E3 := f_equal snd E);
      cbn in E1, E2, E3; congruence.
  Qed.
  Lemma pr_rot n : pr n = let '(x, y, z) := rot n in if flip then (y, z) else (z, y).
  Proof. reflexivity. Qed.
  Lemma pr_scale t n : pr (vscale t n) = (t * fst (pr n), t * snd (pr n)).
  Proof. rewrite !pr_rot, rot_scale. destruct (rot n) as [[x y] z], flip; reflexivity. Qed.
  Lemma rot_d : rot d = vneg (rot vba).
  Proof. unfold d, rot. destruct vba as [[x y] z], k_cases as [ -> |[ -> | -> ]]; reflexivity. Qed.
  Lemma rot_fst : fst (fst (rot vba)) = comp3 vba k.
  Proof. reflexivity. Qed.
  Lemma pr_inj n m : dot n d = 0 -> dot m d = 0 -> pr n = pr m -> n = m.
  Proof.
    rewrite <- (rot_dot n), <- (rot_dot m), rot_d, !pr_rot. intros H1 H2 E. apply rot_inj. assert (F := rot_fst).
    destruct (rot n) as [[x y] z], (rot m) as [[u v] w], (rot vba) as [[a b] c]. cbn in F. rewrite <- F in KN. unfold vneg, dot in H1, H2.
    assert (y = v /\ z = w) as [-> ->]. { destruct flip; assert (E1 := f_equal fst E); assert (E2 := f_equal snd E); cbn in E1, E2; auto. }
    f_equal. f_equal. assert (Z : (x - u) * a = 0). { clear - H1 H2. qc_lra. }
    apply Qcmult_integral in Z as [Z|Z]; [qc_lra|contradiction].
  Qed.
  (** |d_k| * (d . (n x m)) ... the 2D cross product of the projections has the sign of the turn about d *)
  Lemma pr_turn n m : dot n d = 0 -> dot m d = 0 -> exists c, 0 < c /\ turn d n m = c * crs (pr n) (pr m).
  Proof.
    rewrite <- (rot_dot n), <- (rot_dot m), <- (rot_turn d), rot_d, !pr_rot. intros H1 H2. assert (F := rot_fst).
    destruct (rot n) as [[x y] z], (rot m) as [[u v] w], (rot vba) as [[a b] c]. cbn [fst] in F. unfold flip. rewrite <- F in KN |- *. clear F.
    assert (KM : - a <> 0) by (intros Z; apply KN; qc_lra). unfold vneg, dot in H1, H2. unfold turn, dot, vneg, Volume.cross, crs.
    assert (X : x * a = - (y * b + z * c)) by (clear - H1; qc_lra). assert (U : u * a = - (v * b + w * c)) by (clear - H2; qc_lra).
    set (s := a * a + b * b + c * c). assert (SP : 0 < s).
    { unfold s. destruct (qlt_cases a) as [A|[A|A]]; [|contradiction|]; clear - A; destruct (qlt_cases b) as [B|[B|B]], (qlt_cases c) as [C|[C|C]]; qc_nra. }
    assert (ID : a * (- a * (y * w - z * v) + - b * (z * u - x * w) + - c * (x * v - y * u)) = - s * (y * w - z * v)).
    { unfold s. replace (a * (- a * (y * w - z * v) + - b * (z * u - x * w) + - c * (x * v - y * u)))
        with (- a * a * (y * w - z * v) - b * (z * (u * a) - (x * a) * w) - c * ((x * a) * v - y * (u * a))) by ring.
      rewrite X, U. ring. }
    destruct (qltb a 0) eqn:E; [apply qltb_lt in E|apply qltb_ge in E]; cbn [fst snd].
    - exists (s / - a). split.
      + assert (P : 0 < - a) by qc_lra. destruct (qlt_cases (s / - a)) as [K|[K|K]]; auto; exfalso; assert (Q : - a * (s / - a) = s) by (field; auto).
        * assert (L := mul_pn _ _ P K). rewrite Q in L. clear - L SP. qc_lra.
        * rewrite K in Q. clear - Q SP. replace (- a * 0) with 0 in Q by ring. rewrite Q in SP. revert SP. apply Qcle_not_lt, Qcle_refl.
      + set (T := - a * (y * w - z * v) + - b * (z * u - x * w) + - c * (x * v - y * u)) in *.
        replace T with (a * T / a) by (field; auto). rewrite ID. field. auto.
    - assert (P : 0 < a). { destruct (qlt_cases a) as [A|[A|A]]; auto; [clear - A E; exfalso; qc_lra|contradiction]. }
      exists (s / a). split.
      + destruct (qlt_cases (s / a)) as [K|[K|K]]; auto; exfalso; assert (Q : a * (s / a) = s) by (field; auto).
        * assert (L := mul_pn _ _ P K). rewrite Q in L. clear - L SP. qc_lra.
        * rewrite K in Q. clear - Q SP. replace (a * 0) with 0 in Q by ring. rewrite Q in SP. revert SP. apply Qcle_not_lt, Qcle_refl.
      + set (T := - a * (y * w - z * v) + - b * (z * u - x * w) + - c * (x * v - y * u)) in *.
        replace T with (a * T / a) by (field; auto). rewrite ID. field. auto.
  Qed.
End Proj.

Lemma qinv_pos (t : Qc) : 0 < t -> t <> 0 /\ 0 < / t.
Proof.
  intros Ht. assert (t <> 0) by (intros ->; revert Ht; apply Qcle_not_lt, Qcle_refl). split; auto.
  destruct (qlt_cases (/ t)) as [K|[K|K]]; auto; exfalso; assert (E : t * / t = 1) by (field; auto).
  - assert (L := mul_pn _ _ Ht K). rewrite E in L. revert L. apply Qcle_not_lt. discriminate.
  - rewrite K in E. replace (t * 0) with 0 in E by ring. discriminate.
Qed.
Lemma vscale_vscale a b v : vscale a (vscale b v) = vscale (a * b) v.
Proof. destruct v as [[x y] z]. unfold vscale. rewrite !Qcmult_assoc. auto. Qed.
Lemma vscale_1 v : vscale 1 v = v.
Proof. destruct v as [[x y] z]. unfold vscale. rewrite !Qcmult_1_l. auto. Qed.
Lemma vscale_inv t v : t <> 0 -> vscale (/ t) (vscale t v) = v.
Proof. intros. rewrite vscale_vscale. replace (/ t * t) with 1 by (field; auto). apply vscale_1. Qed.
Lemma ray_scale t u x y : 0 < t -> 0 < u -> (same_ray (vscale t x) (vscale u y) <-> same_ray x y).
Proof.
  intros Ht Hu. destruct (qinv_pos Ht) as [T0 T1], (qinv_pos Hu) as [U0 U1]. split; intros (w & Hw & E).
  - exists (/ u * (w * t)). split; [repeat apply mul_pos; auto|]. apply (f_equal (vscale (/ u))) in E. rewrite vscale_inv, !vscale_vscale in E by auto.
    rewrite E. f_equal. ring.
  - exists (u * w * / t). split; [repeat apply mul_pos; auto|]. rewrite E, !vscale_vscale. f_equal. field; auto.
Qed.
Lemma cross_d_d (d n : q3) : dot n d = 0 -> Volume.cross d (Volume.cross n d) = vscale (dot d d) n.
Proof.
  destruct d as [[a b] c], n as [[x y] z]. unfold dot. intros H. unfold Volume.cross, vscale.
  assert (G : forall w p : Qc, w = p -> w = p + w * 0) by (intros w p ->; ring).
  f_equal; [f_equal|].
  - replace (b * (x * b - y * a) - c * (z * a - x * c)) with ((a * a + b * b + c * c) * x - a * (x * a + y * b + z * c)) by ring. rewrite H. ring.
  - replace (c * (y * c - z * b) - a * (x * b - y * a)) with ((a * a + b * b + c * c) * y - b * (x * a + y * b + z * c)) by ring. rewrite H. ring.
  - replace (a * (z * a - x * c) - b * (y * c - z * b)) with ((a * a + b * b + c * c) * z - c * (x * a + y * b + z * c)) by ring. rewrite H. ring.
Qed.
Lemma cross_scale_l t x y : Volume.cross (vscale t x) y = vscale t (Volume.cross x y).
Proof. destruct x as [[a b] c], y as [[u v] w]. unfold Volume.cross, vscale. f_equal; [f_equal|]; ring. Qed.
Lemma cross_scale_r t x y : Volume.cross x (vscale t y) = vscale t (Volume.cross x y).
Proof. destruct x as [[a b] c], y as [[u v] w]. unfold Volume.cross, vscale. f_equal; [f_equal|]; ring. Qed.
Lemma ray_into d n m : dot n d = 0 -> dot m d = 0 -> d <> (0, 0, 0) ->
  (same_ray (Volume.cross n d) (Volume.cross m d) <-> same_ray n m).
Proof.
  intros H1 H2 ND. assert (DP := dot_pos ND). split; intros (t & Ht & E).
  - apply (f_equal (Volume.cross d)) in E. rewrite cross_scale_r, !cross_d_d in E by auto.
    rewrite <- (ray_scale n m DP DP). exists t; auto.
  - exists t. split; auto. rewrite E. apply cross_scale_l.
Qed.
Lemma turn_into d n m : turn d (Volume.cross n d) (Volume.cross m d) = dot d d * turn d n m.
Proof. destruct d as [[a b] c], n as [[x y] z], m as [[u v] w]. unfold turn, dot, Volume.cross. ring. Qed.
Lemma turn_scale d t u x y : turn d (vscale t x) (vscale u y) = t * u * turn d x y.
Proof. destruct d as [[a b] c], x as [[x y'] z], y as [[p q] r]. unfold turn, dot, Volume.cross, vscale. ring. Qed.
Lemma ray_pr vba k n m : (0 <= k < 3)%Z -> comp3 vba k <> 0 -> let d := vneg vba in let pr := project k (qltb (comp3 vba k) 0) in
  dot n d = 0 -> dot m d = 0 -> (same_ray n m <-> same_dir (pr n) (pr m)).
Proof.
  intros K3 KN d pr H1 H2. split; intros (t & Ht & E); exists t; split; auto.
  - rewrite E. unfold pr. rewrite pr_scale by auto. auto.
  - apply (@pr_inj vba k K3 KN); auto.
    + fold d. clearbody d. unfold dot, vscale in *. destruct n as [[x y] z], d as [[a b] c]. 
      replace (t * x * a + t * y * b + t * z * c) with (t * (x * a + y * b + z * c)) by ring. rewrite H1. ring.
    + rewrite pr_scale by auto. exact E.
Qed.
Lemma nlt_le (x y : Qc) : x <= y <-> ~ y < x.
Proof. split; [apply Qcle_not_lt|apply Qcnot_lt_le]. Qed.
Lemma pos_mult_iff c x y : 0 < c -> x = c * y -> (0 < x <-> 0 < y).
Proof. intros Hc ->. split; [apply mul_pos_inv; auto|apply mul_pos; auto]. Qed.
Lemma frame_crs r a b : crs (frame r a) (frame r b) = (fst r * fst r + snd r * snd r) * crs a b.
Proof. unfold frame, crs; cbn [fst snd]. ring. Qed.
Lemma norm_pos (r : vec2) : nonzero r -> 0 < fst r * fst r + snd r * snd r.
Proof.
  destruct r as [x y]. intros H. cbn [fst snd]. destruct (qlt_cases x) as [X|[X|X]], (qlt_cases y) as [Y|[Y|Y]];
    try (exfalso; apply H; subst; reflexivity); clear H; subst; qc_nra.
Qed.
Lemma frame_inj r a b : nonzero r -> frame r a = frame r b -> a = b.
Proof.
  intros NR E. assert (NP := norm_pos NR). destruct (qinv_pos NP) as [N0 _]. destruct r as [p q], a as [x y], b as [u v]. unfold frame in E; cbn [fst snd] in *.
  assert (E1 := f_equal fst E). assert (E2 := f_equal snd E). cbn [fst snd] in *. clear E. set (n := p * p + q * q) in *.
  assert (X : (x - u) * n = 0). { unfold n. replace ((x - u) * (p * p + q * q)) with (q * ((x * q - y * p) - (u * q - v * p)) + p * ((x * p + y * q) - (u * p + v * q))) by ring. rewrite E1, E2. ring. }
  assert (Y : (y - v) * n = 0). { unfold n. replace ((y - v) * (p * p + q * q)) with (q * ((x * p + y * q) - (u * p + v * q)) - p * ((x * q - y * p) - (u * q - v * p))) by ring. rewrite E1, E2. ring. }
  apply Qcmult_integral in X as [X|X]; [|contradiction]. apply Qcmult_integral in Y as [Y|Y]; [|contradiction].
  f_equal; qc_lra.
Qed.
Lemma frame_dir r a b : nonzero r -> (same_dir (frame r a) (frame r b) <-> same_dir a b).
Proof.
  intros NR. split; intros (t & Ht & E); exists t; split; auto.
  - apply (frame_inj NR). rewrite E. unfold frame; cbn [fst snd]. f_equal; ring.
  - rewrite E. unfold frame; cbn [fst snd]. f_equal; ring.
Qed.
Lemma frame_nonzero r a : nonzero r -> nonzero a -> nonzero (frame r a).
Proof.
  intros NR NA E. apply NA. apply (frame_inj NR). rewrite E. unfold frame; cbn [fst snd]. f_equal; ring.
Qed.
Lemma swept_frame r x z y : nonzero r -> (swept2 (frame r x) (frame r z) (frame r y) <-> swept2 x z y).
Proof.
  intros NR. assert (NP := norm_pos NR). unfold swept2. rewrite !frame_dir by auto. rewrite !nlt_le.
  rewrite !(fun a b => pos_mult_iff NP (frame_crs r a b)). tauto.
Qed.
Lemma SS_map_nth (A : Type) (F : Z -> A) (dA : A) (R : A -> A -> Prop) l is :
  (forall i, In i is -> (i < length l)%nat) ->
  StronglySorted (fun i j => R (nth i (map F l) dA) (nth j (map F l) dA)) is ->
  StronglySorted (fun x y => R (F x) (F y)) (map (fun i => nth i l 0%Z) is).
Proof.
  intros IN H. induction is as [|i is IH]; cbn [map]; [constructor|]. apply StronglySorted_inv in H as [H1 H2]. constructor.
  - apply IH; auto. intros; apply IN; simpl; auto.
  - rewrite Forall_forall in *. intros y Hy. apply in_map_iff in Hy as (j & <- & Hj). specialize (H2 j Hj).
    rewrite !(nth_indep _ dA (F 0%Z)), !map_nth in H2 by (rewrite map_length; apply IN; simpl; auto). auto.
Qed.
Lemma map_nth_seq (l : list Z) : map (fun i => nth i l 0%Z) (seq 0 (length l)) = l.
Proof.
  induction l as [|a l IH]; cbn [length seq map]; auto. f_equal. rewrite <- seq_shift, map_map. exact IH.
Qed.
Section Around.
  Variable shuffle : list Z -> list Z.
  Variable eig : list q3 -> option Z.
  Variable nrm : q3 -> q3.
  Variable cyc : list vec2 -> list nat.
  Hypothesis SP : forall l, Permutation (shuffle l) l.
  Hypothesis NM : normalizes nrm.
  Hypothesis SC : sorts_cyclically cyc.
  Variable V N : Z -> q3.
  Variable m : hfmap.
  Lemma around_perm e fs : Permutation (around_order shuffle eig nrm cyc V N m e fs) fs.
  Proof.
    unfold around_order. set (A := map _ (shuffle fs)). destruct (SC A) as [PA _].
    transitivity (shuffle fs); auto. assert (E := map_nth_seq (shuffle fs)). assert (L : length A = length (shuffle fs)) by apply map_length. rewrite L in PA.
    eapply Permutation_trans; [apply Permutation_map, PA|]. rewrite E. apply Permutation_refl.
  Qed.
  Variable e : edge.
  Variable fs : list Z.
  Hypothesis ND : NoDup fs.
  Let vba := edge_vba V e.
  Let d := vneg vba.
  Let n0 (f : Z) : q3 := if face_sign m e f then N f else vneg (N f).
  Let I (f : Z) : q3 := Volume.cross (n0 f) d.
  Hypothesis NP : forall f, In f fs -> dot (N f) d = 0 /\ N f <> (0, 0, 0).
  Hypothesis DR : forall f g, In f fs -> In g fs -> f <> g -> ~ same_ray (I f) (I g).
  Let k := edge_axis eig vba (map N (filter (face_sign m e) (shuffle fs))).
  Hypothesis K3 : (0 <= k < 3)%Z.
  Hypothesis KN : comp3 vba k <> 0.
  Let pr := project k (qltb (comp3 vba k) 0).
  Let P (f : Z) : vec2 := pr (oriented_normal nrm N m e f).
  Lemma d_nonzero : d <> (0, 0, 0).
  Proof.
    unfold d. intros E. apply KN. destruct vba as [[x y] z]. unfold vneg in E. assert (E1 := f_equal (fun p : q3 => fst (fst p)) E). assert (E2 := f_equal (fun p : q3 => snd (fst p)) E).
    assert (E3 := f_equal snd E). cbn in E1, E2, E3. unfold comp3. destruct (k =? 0)%Z, (k =? 1)%Z; qc_lra.
  Qed.
  Lemma n0_perp f : In f fs -> dot (n0 f) d = 0.
  Proof.
    intros Hf. destruct (NP _ Hf) as [H _]. unfold n0. destruct (face_sign m e f); auto. destruct (N f) as [[x y] z], d as [[a b] c]. unfold vneg, dot in *. qc_lra.
  Qed.
  Lemma norm_n0 f : In f fs -> exists t, 0 < t /\ oriented_normal nrm N m e f = vscale t (n0 f).
  Proof.
    intros Hf. destruct (NP _ Hf) as [_ H]. destruct (NM H) as (t & Ht & E). exists t. split; auto. unfold oriented_normal, n0. destruct (face_sign m e f); auto.
    rewrite E. destruct (N f) as [[x y] z]. unfold vneg, vscale. f_equal; [f_equal|]; ring.
  Qed.
  Lemma scale_perp t n : dot n d = 0 -> dot (vscale t n) d = 0.
  Proof.
    destruct n as [[x y] z], d as [[a b] c]. unfold dot, vscale. intros H. replace (t * x * a + t * y * b + t * z * c) with (t * (x * a + y * b + z * c)) by ring. rewrite H. ring.
  Qed.
  Lemma P_dir f g : In f fs -> In g fs -> (same_ray (I f) (I g) <-> same_dir (P f) (P g)).
  Proof.
    intros Hf Hg. unfold P. destruct (norm_n0 _ Hf) as (t & Ht & ->), (norm_n0 _ Hg) as (u & Hu & ->).
    unfold pr. rewrite <- (@ray_pr vba k (vscale t (n0 f)) (vscale u (n0 g)) K3 KN) by (apply scale_perp, n0_perp; auto).
    rewrite ray_scale by auto. apply ray_into; auto using n0_perp, d_nonzero.
  Qed.
  Lemma P_turn f g : In f fs -> In g fs -> (0 < turn d (I f) (I g) <-> 0 < crs (P f) (P g)).
  Proof.
    intros Hf Hg. unfold P, I. rewrite turn_into, (@pos_mult_iff (dot d d) _ (turn d (n0 f) (n0 g)) (dot_pos d_nonzero) eq_refl).
    destruct (norm_n0 _ Hf) as (t & Ht & ->), (norm_n0 _ Hg) as (u & Hu & ->).
    destruct (@pr_turn vba k K3 KN (vscale t (n0 f)) (vscale u (n0 g))) as (c & Hc & E); try (apply scale_perp, n0_perp; auto).
    fold d in E. rewrite turn_scale in E. transitivity (0 < t * u * turn d (n0 f) (n0 g)); [|exact (pos_mult_iff Hc E)]. symmetry. apply pos_mult_iff with (c := t * u); auto. apply mul_pos; auto.
  Qed.
  Lemma P_swept f z g : In f fs -> In z fs -> In g fs -> (swept d (I f) (I z) (I g) <-> swept2 (P f) (P z) (P g)).
  Proof.
    intros Hf Hz Hg. unfold swept, swept2. rewrite !nlt_le, !P_dir, !P_turn by auto. tauto.
  Qed.
  Lemma P_nonzero f : In f fs -> nonzero (P f).
  Proof.
    intros Hf E. unfold P in E. destruct (norm_n0 _ Hf) as (t & Ht & E'). rewrite E' in E. destruct (qinv_pos Ht) as [T0 _].
    assert (Z : vscale t (n0 f) = (0, 0, 0)).
    { apply (@pr_inj vba k K3 KN); [apply scale_perp, n0_perp; auto| |].
      - fold d. destruct d as [[a b] c]. unfold dot. ring.
      - fold pr. rewrite E. unfold pr, project. assert (C0 : forall j, comp3 (0, 0, 0) j = 0) by (intros j; unfold comp3; destruct (j =? 0)%Z, (j =? 1)%Z; auto). rewrite !C0. destruct (qltb _ _); auto. }
    assert (Z0 : n0 f = (0, 0, 0)). { rewrite <- (vscale_inv (n0 f) T0), Z. unfold vscale. f_equal; [f_equal|]; ring. }
    apply (proj2 (NP _ Hf)). unfold n0 in Z0. destruct (face_sign m e f); auto. destruct (N f) as [[x y] z]. unfold vneg in Z0.
    assert (E1 := f_equal (fun p : q3 => fst (fst p)) Z0). assert (E2 := f_equal (fun p : q3 => snd (fst p)) Z0). assert (E3 := f_equal snd Z0). cbn in E1, E2, E3.
    f_equal; [f_equal|]; qc_lra.
  Qed.
  Lemma around_next_iff f g : cyc_next (around_order shuffle eig nrm cyc V N m e fs) f g <->
    In f fs /\ In g fs /\ forall z, In z fs -> ~ swept d (I f) (I z) (I g).
  Proof.
    set (l := around_order shuffle eig nrm cyc V N m e fs). assert (PL : Permutation l fs) by apply around_perm.
    assert (IN : forall z, In z l <-> In z fs) by (intros z; split; apply Permutation_in; auto; symmetry; auto).
    assert (NDl : NoDup l) by (eapply Permutation_NoDup; [symmetry; exact PL|auto]).
    assert (INs : forall z, In z (shuffle fs) -> In z fs) by (intros z; apply Permutation_in, SP).
    set (A := map P (shuffle fs)).
    assert (EL : l = map (fun i => nth i (shuffle fs) 0%Z) (cyc A)) by reflexivity.
    destruct (SC A) as [PA SA]. destruct SA as (r & NR & SS).
    { apply Forall_forall. intros a Ha. apply in_map_iff in Ha as (f' & <- & Hf'). apply P_nonzero; auto. }
    assert (SSl : StronglySorted (fun x y => ~ ccw_before (frame r (P y)) (frame r (P x))) l).
    { rewrite EL. apply (SS_map_nth P (0, 0) (fun x y => ~ ccw_before (frame r y) (frame r x))); auto.
      intros i Hi. apply (Permutation_in _ PA), in_seq in Hi. unfold A in Hi. rewrite map_length in Hi. lia. }
    rewrite (@next_swept (fun f => frame r (P f)) l NDl); auto.
    - rewrite !IN. split; intros (H1 & H2 & H3); (split; [auto|split; [auto|]]); intros z Hz.
      + rewrite P_swept by auto. rewrite <- (swept_frame _ _ _ NR). apply H3, IN; auto.
      + rewrite (swept_frame _ _ _ NR). rewrite <- P_swept by (auto; apply IN; auto). apply H3, IN; auto.
    - intros f' Hf'. apply frame_nonzero; auto. apply P_nonzero, IN; auto.
    - intros f' g' Hf' Hg' NE S. apply (proj1 (frame_dir _ _ NR)) in S. apply IN in Hf', Hg'. apply (proj2 (P_dir _ _ Hf' Hg')) in S. revert S. apply DR; auto.
  Qed.
End Around.
