(** C155: turning edges into curves (tools::edge_to_plcurves). *)
From Verif Require Import Base Num SmallestEdge SmallestEdgeProofs DisjointSet FaceCollapser FaceCollapserSpec FaceCollapserProofs FaceCollapserIds FaceCollapserLoops FaceCollapserGeom EdgeCurves PropsPcg.
From Coq Require Import Permutation.
Set Implicit Arguments.
Local Open Scope Z_scope.

(** ** face_edges: every half-edge is listed once, under its face *)
Lemma face_edges_gen (m : emap) : ssorted edge_cmp (keys m) ->
  let r := fold_left (fun ret '(e, (f, _)) =>
      let old := match map_find Z.compare f ret with Some s => s | None => [] end in
      map_set Z.compare f (set_insert edge_cmp e old) ret) m [] in
  ssorted Z.compare (keys r) /\
  (forall f S, map_find Z.compare f r = Some S -> ssorted edge_cmp S) /\
  (forall f e, (exists S, map_find Z.compare f r = Some S /\ In e S) <-> exists s, In (e, (f, s)) m) /\
  (forall f S, map_find Z.compare f r = Some S -> S <> []).
Proof.
  intros _. assert (G : forall (m : emap) r0, ssorted Z.compare (keys r0) -> (forall f S, map_find Z.compare f r0 = Some S -> ssorted edge_cmp S /\ S <> []) ->
    let r := fold_left (fun ret '(e, (f, _)) => let old := match map_find Z.compare f ret with Some s => s | None => [] end in map_set Z.compare f (set_insert edge_cmp e old) ret) m r0 in
    ssorted Z.compare (keys r) /\ (forall f S, map_find Z.compare f r = Some S -> ssorted edge_cmp S /\ S <> []) /\
    (forall f e, (exists S, map_find Z.compare f r = Some S /\ In e S) <-> (exists s, In (e, (f, s)) m) \/ exists S, map_find Z.compare f r0 = Some S /\ In e S)).
  { clear m. induction m as [|[e [f s]] m IH]; intros r0 S0 R0; cbn [fold_left].
    - split; auto. split; auto. intros f e. split; [auto|]. intros [(s & [])|H]; auto.
    - set (old := match map_find Z.compare f r0 with Some s => s | None => [] end). assert (OS : ssorted edge_cmp old) by (unfold old; destruct (map_find Z.compare f r0) eqn:Q; [apply (R0 _ _ Q)|constructor]).
      assert (FS : forall k, map_find Z.compare k (map_set Z.compare f (set_insert edge_cmp e old) r0) = match k ?= f with Eq => Some (set_insert edge_cmp e old) | _ => map_find Z.compare k r0 end) by (intros k; apply (map_find_set Zcompare_total); auto).
      destruct (IH (map_set Z.compare f (set_insert edge_cmp e old) r0)) as (A1 & A2 & A3).
      + apply (map_set_sorted Zcompare_total); auto.
      + intros k S. rewrite FS. destruct (k ?= f); [|apply R0|apply R0]. intros H. injection H as <-. split; [apply (set_insert_sorted edge_total); auto|]. intros N. assert (I : In e (set_insert edge_cmp e old)) by (apply (set_insert_In edge_total); auto). rewrite N in I. destruct I.
      + split; auto. split; auto. intros k x. rewrite A3, FS. assert (E : (exists S, match k ?= f with Eq => Some (set_insert edge_cmp e old) | _ => map_find Z.compare k r0 end = Some S /\ In x S) <-> (k = f /\ x = e) \/ exists S, map_find Z.compare k r0 = Some S /\ In x S).
        { destruct (Z.compare_spec k f) as [->|L|L].
          - split.
            + intros (S & H & I). injection H as <-. apply (set_insert_In edge_total) in I as [->|I]; auto. right. unfold old in I. destruct (map_find Z.compare f r0); [eauto|destruct I].
            + intros [[_ ->]|(S & H & I)]; eexists; (split; [reflexivity|]); apply (set_insert_In edge_total); auto. right. unfold old. rewrite H. auto.
          - split; auto. intros [[-> _]|H]; [lia|auto].
          - split; auto. intros [[-> _]|H]; [lia|auto]. }
        rewrite E. cbn [In]. split.
        * intros [(s' & I)|[[-> ->]|H]]; eauto.
        * intros [(s' & [I|I])|H]; [injection I as <- <- _; auto|eauto|auto]. }
  destruct (G m []) as (A1 & A2 & A3); [constructor|discriminate|]. cbn zeta. split; auto. split; [intros f S H; apply (A2 _ _ H)|]. split; [|intros f S H; apply (A2 _ _ H)].
  intros f e. rewrite A3. split; [intros [H|(S & H & _)]; [auto|discriminate]|auto].
Qed.
Lemma face_edges_spec (x : fcol) : ssorted edge_cmp (keys (fc_map x)) ->
  ssorted Z.compare (keys (face_edges x)) /\
  (forall f S, map_find Z.compare f (face_edges x) = Some S -> ssorted edge_cmp S) /\
  (forall f e, (exists S, map_find Z.compare f (face_edges x) = Some S /\ In e S) <-> exists s, In (e, (f, s)) (fc_map x)) /\
  (forall f S, map_find Z.compare f (face_edges x) = Some S -> S <> []).
Proof. intros H. exact (@face_edges_gen _ H). Qed.
Lemma bake_keys lnk ord edges rm : keys (fc_map (bake_simple lnk ord edges rm)) = keys (init_map edges).
Proof. unfold bake_simple, finalize, unify. cbn [fc_map fc_ds]. unfold finalize_map, keys. rewrite map_map. apply map_ext. intros [e [c s]]. auto. Qed.
Lemma face_of_In (m : emap) e f : ssorted edge_cmp (keys m) -> (face_of m e = Some f <-> exists s, In (e, (f, s)) m).
Proof.
  intros S. unfold face_of. split.
  - destruct (map_find edge_cmp e m) as [[g s]|] eqn:Q; [|discriminate]. cbn. intros H. injection H as ->. apply (map_find_Some edge_total) in Q; eauto.
  - intros (s & I). apply (map_find_Some edge_total) in I; auto. rewrite I. auto.
Qed.
Theorem c155_face_edges : forall lnk ord edges rm, let x := bake_simple lnk ord edges rm in
  NoDup (map fst (face_edges x)) /\
  forall f e, (exists S, In (f, S) (face_edges x) /\ In e S) <-> face_of (fc_map x) e = Some f.
Proof.
  intros lnk ord edges rm x. assert (SK : ssorted edge_cmp (keys (fc_map x))) by (unfold x; rewrite bake_keys; apply init_map_keys). destruct (@face_edges_gen _ SK) as (A1 & A2 & A3 & A4). split; [apply (ssorted_NoDup Zcompare_total); auto|].
  intros f e. rewrite (@face_of_In (fc_map x) e f SK), <- A3. split; intros (S & H & I); exists S; split; auto; apply (map_find_Some Zcompare_total); auto.
Qed.
(** 1e-10 *)
Definition cut : Qc := Q2Qc (1 # 10000000000).
Lemma cut_tiny : tiny = cut. Proof. reflexivity. Qed.
(** ** which curves are returned *)
Theorem c155_result : forall lnk ord unique curves_of V E closed_only c b,
  In (c, b) (edge_to_plcurves lnk ord unique curves_of V E closed_only) <->
  exists f S, In (f, S) (face_edges (bake_simple lnk ord E [])) /\ In (c, b) (curves_of (unique S) closed_only) /\
    (b = true -> (- cut <= curve_volume V c * brep_volume V (unique S))%Qc).
Proof. rewrite <- cut_tiny.
  intros lnk ord unique curves_of V E closed_only c b. unfold edge_to_plcurves. rewrite in_flat_map. split.
  - intros ((f & S) & I & J). cbn [snd] in J. apply filter_In in J as [J D]. exists f, S. split; auto. split; auto. intros ->. unfold dropped in D. cbn [fst snd] in D. apply Bool.negb_true_iff, qltb_ge in D. auto.
  - intros (f & S & I & J & D). exists (f, S). split; auto. cbn [snd]. apply filter_In. split; auto. unfold dropped. cbn [fst snd]. destruct b; auto. apply Bool.negb_true_iff, qltb_ge. auto.
Qed.
(** ** volumes *)
Lemma fold_sum (V : Z -> pt2) (E : list edge) : forall s : Qc, (fold_left (fun s e => s + cross2 (V (fst e)) (V (snd e))) E s = s + fold_left (fun s e => s + cross2 (V (fst e)) (V (snd e))) E 0)%Qc.
Proof. induction E as [|e E IH]; intros s; cbn [fold_left]; [ring|]. rewrite IH, (IH (0 + _)%Qc). ring. Qed.
Lemma brep_cons V e E : (brep_volume V (e :: E) = cross2 (V (fst e)) (V (snd e)) * qhalf + brep_volume V E)%Qc.
Proof. unfold brep_volume. cbn [fold_left]. rewrite fold_sum. ring. Qed.
Lemma brep_perm V E E' : Permutation E E' -> brep_volume V E = brep_volume V E'.
Proof. induction 1; auto; rewrite ?brep_cons; [congruence|ring|congruence]. Qed.
Lemma brep_swap V E : (brep_volume V (map swap_edge E) = - brep_volume V E)%Qc.
Proof. induction E as [|e E IH]; [unfold brep_volume; cbn; ring|]. cbn [map]. rewrite !brep_cons, IH. unfold swap_edge, cross2. cbn [fst snd]. ring. Qed.
(** a closed curve that runs along its face's edges is always kept; one that runs against them is dropped exactly when the squared area exceeds 1e-10 *)
Theorem c155_direction : forall V S c, 
  (Permutation (cyc_pairs c) S -> dropped V (brep_volume V S) (c, true) = false) /\
  (Permutation (cyc_pairs c) (map swap_edge S) -> (dropped V (brep_volume V S) (c, true) = true <-> cut < brep_volume V S * brep_volume V S)%Qc).
Proof. rewrite <- cut_tiny.
  intros V S c. unfold dropped, curve_volume. cbn [fst snd]. split; intros P; rewrite (brep_perm V P), ?brep_swap.
  - apply qltb_ge. apply Qcle_trans with 0%Qc; [discriminate|]. unfold Qcle. q_push. nra.
  - rewrite qltb_lt. replace (- brep_volume V S * brep_volume V S)%Qc with (- (brep_volume V S * brep_volume V S))%Qc by ring. generalize (brep_volume V S * brep_volume V S)%Qc tiny. clear. intros u t. split; intros H; qc_lra.
Qed.
(** ** a simple closed curve: its faces are the curve and the curve reversed *)
Lemma cyc_nth (c : list Z) i : (i < length c)%nat -> nth_error (cyc_pairs c) i = Some (nth i c 0, nth ((i + 1) mod length c) c 0).
Proof.
  destruct c as [|a t]; [cbn; lia|]. intros H. unfold cyc_pairs. assert (G : forall (u v : list Z) i, length u = length v -> (i < length u)%nat -> nth_error (combine u v) i = Some (nth i u 0, nth i v 0)).
  { clear. induction u as [|x u IH]; intros [|y v] [|i] E L; cbn in *; try lia; auto. apply IH; lia. }
  rewrite G by (rewrite ?app_length; cbn in *; lia). f_equal. f_equal. cbn [length] in *. destruct (Nat.eq_dec i (length t)) as [->|N].
  - rewrite app_nth2, Nat.sub_diag by lia. replace (length t + 1)%nat with (S (length t)) by lia. rewrite Nat.mod_same by lia. auto.
  - rewrite app_nth1 by lia. rewrite Nat.mod_small by lia. replace (i + 1)%nat with (S i) by lia. auto.
Qed.
Lemma cyc_In c a b : In (a, b) (cyc_pairs c) <-> exists i, (i < length c)%nat /\ a = nth i c 0 /\ b = nth ((i + 1) mod length c) c 0.
Proof.
  split.
  - intros I. apply In_nth_error in I as (i & H). assert (L : (i < length (cyc_pairs c))%nat) by (apply nth_error_Some; congruence). rewrite <- (map_length fst), cyc_fst in L. rewrite (cyc_nth c L) in H. injection H as <- <-. eauto.
  - intros (i & L & -> & ->). eapply nth_error_In. apply cyc_nth; auto.
Qed.

Lemma nth_inj (c : list Z) i j : NoDup c -> (i < length c)%nat -> (j < length c)%nat -> nth i c 0 = nth j c 0 -> i = j.
Proof. intros N. apply (proj1 (NoDup_nth c 0) N). Qed.
Lemma succ_mod n i : (i < n)%nat -> ((i + 1) mod n = if Nat.eqb (i + 1) n then 0 else i + 1)%nat.
Proof. intros L. destruct (Nat.eqb_spec (i + 1) n) as [->|N]; [apply Nat.mod_same; lia|apply Nat.mod_small; lia]. Qed.
Lemma succ_lt n i : (i < n)%nat -> ((i + 1) mod n < n)%nat.
Proof. intros L. apply Nat.mod_upper_bound. lia. Qed.
Section Polygon.
  Variable c : list Z.
  Hypothesis c_nodup : NoDup c.
  Hypothesis c_len : (3 <= length c)%nat.
  Lemma cyc_fun a b b' : In (a, b) (cyc_pairs c) -> In (a, b') (cyc_pairs c) -> b = b'.
  Proof. rewrite !cyc_In. intros (i & L & -> & ->) (j & L' & E & ->). apply nth_inj in E; auto. subst. auto. Qed.
  Lemma cyc_inj a a' b : In (a, b) (cyc_pairs c) -> In (a', b) (cyc_pairs c) -> a = a'.
  Proof.
    rewrite !cyc_In. intros (i & L & -> & ->) (j & L' & -> & E). apply nth_inj in E; auto using succ_lt. rewrite !succ_mod in E by auto. assert (i = j); [|subst; auto].
    destruct (Nat.eqb_spec (i + 1) (length c)), (Nat.eqb_spec (j + 1) (length c)); lia.
  Qed.
  Lemma cyc_two a b : In (a, b) (cyc_pairs c) -> a <> b /\ ~ In (b, a) (cyc_pairs c).
  Proof.
    intros I. split.
    - intros <-. apply cyc_In in I as (i & L & -> & E). apply nth_inj in E; auto using succ_lt. rewrite succ_mod in E by auto. destruct (Nat.eqb_spec (i + 1) (length c)); lia.
    - intros J. apply cyc_In in I as (i & L & -> & ->). apply cyc_In in J as (j & L' & E1 & E2). apply nth_inj in E1, E2; auto using succ_lt. rewrite !succ_mod in E1, E2 by auto.
      destruct (Nat.eqb_spec (i + 1) (length c)), (Nat.eqb_spec (j + 1) (length c)); lia.
  Qed.
  Lemma cyc_nodup : NoDup (cyc_pairs c).
  Proof. apply (NoDup_map_inv fst). rewrite cyc_fst. auto. Qed.
  Lemma cyc_simple : simple_edges (cyc_pairs c).
  Proof. split; [apply cyc_nodup|intros a b; apply cyc_two]. Qed.
  Lemma cyc_next a b : In (a, b) (cyc_pairs c) -> exists d, In (b, d) (cyc_pairs c) /\ a <> d.
  Proof.
    intros I. assert (J := I). apply cyc_In in I as (i & L & -> & ->). exists (nth (((i + 1) mod length c + 1) mod length c) c 0). split; [apply cyc_In; exists ((i + 1) mod length c)%nat; auto using succ_lt|].
    intros E. apply nth_inj in E; auto using succ_lt. rewrite (succ_mod (succ_lt L)), !succ_mod in E by auto. destruct (Nat.eqb_spec (i + 1) (length c)).
    - destruct (Nat.eqb_spec (0 + 1) (length c)); lia.
    - destruct (Nat.eqb_spec (i + 1 + 1) (length c)); lia.
  Qed.
  Lemma cyc_prev a b : In (a, b) (cyc_pairs c) -> exists p, In (p, a) (cyc_pairs c) /\ p <> b.
  Proof.
    intros I. assert (J : In a (map snd (cyc_pairs c))). { eapply Permutation_in; [symmetry; apply cyc_snd|]. apply (in_map fst) in I. rewrite cyc_fst in I. auto. }
    apply in_map_iff in J as ((p & a') & E & J). cbn in E. subst a'. exists p. split; auto. intros ->. destruct (@cyc_two _ _ I). auto.
  Qed.
  Variable lnk : ds -> Z -> Z -> bool.
  Variable ord : Z -> list Z -> list Z.
  Hypothesis ord_perm : forall a bs, Permutation (ord a bs) bs.
  Let x := bake_simple lnk ord (cyc_pairs c) [].
  Let nxt := inc (fc_deg x).
  (** with two neighbours there is only one way to go on *)
  Lemma two_neighbours a b d : half_edge (cyc_pairs c) (a, b) -> half_edge (cyc_pairs c) (b, d) -> a <> d -> (forall y, half_edge (cyc_pairs c) (b, y) -> y = a \/ y = d) -> nxt (a, b) = Some (b, d).
  Proof.
    intros HA HD NE ONLY. destruct (init_map_keys (cyc_pairs c)) as [SM KM]. set (m := init_map (cyc_pairs c)) in *.
    assert (SW : forall e, In e (keys m) -> In (swap_edge e) (keys m)) by (intros e; rewrite !KM; unfold half_edges; rewrite swap_swap; tauto).
    assert (HK : forall u v, half_edge (cyc_pairs c) (u, v) <-> In (u, v) (keys m)) by (intros u v; rewrite KM; unfold half_edge, half_edges, swap_edge; cbn [fst snd]; tauto).
    destruct (succ_perm ord ord_perm m SW) as (P1 & _). destruct (P1 (a, b) (proj1 (HK _ _) HA)) as ((b' & y) & E & Iy & Eb). cbn [fst snd] in Eb. subst b'. change (nxt (a, b)) with (inc (deg_of (corner_list ord m)) (a, b)). rewrite E. do 2 f_equal.
    unfold inc in E. apply (deg_find ord ord_perm m) in E. apply (corner_In ord m) in E as (a' & bs & it & it1 & CI & PI & E1 & E2). injection E1 as <- <-. injection E2 as <-.
    destruct (ord_nodup ord ord_perm m _ _ CI) as [ND OI]. destruct (ONLY y (proj2 (HK _ _) Iy)) as [->|]; auto. exfalso. apply cyc_split in PI as [(l1 & l2 & Q)|(l1 & t & Q1 & Q2)].
    - rewrite Q in ND. apply NoDup_remove_2 in ND. apply ND. apply in_app_iff. right. cbn. auto.
    - assert (ID : In d (ord b bs)) by (apply OI, HK; auto). rewrite Q2 in Q1. destruct l1 as [|u l1]; cbn [app] in Q1.
      + injection Q1 as ->. rewrite Q2 in ID. destruct ID as [ID|[]]. auto.
      + injection Q1 as -> ->. rewrite Q2 in ND. inversion_clear ND as [|? ? NI _]. apply NI. apply in_app_iff. cbn. auto.
  Qed.
  Lemma nxt_fwd a b d : In (a, b) (cyc_pairs c) -> In (b, d) (cyc_pairs c) -> nxt (a, b) = Some (b, d).
  Proof.
    intros I J. assert (NE : a <> d) by (intros ->; destruct (@cyc_two _ _ I); auto). apply two_neighbours; auto; [left; auto|left; auto|]. intros y [H|H]; cbn [fst snd] in H; [right; eapply cyc_fun; eauto|left; eapply cyc_inj; eauto].
  Qed.
  Lemma nxt_bwd a b p : In (a, b) (cyc_pairs c) -> In (p, a) (cyc_pairs c) -> nxt (b, a) = Some (a, p).
  Proof.
    intros I J. assert (NE : b <> p) by (intros ->; destruct (@cyc_two _ _ I); auto). apply two_neighbours; auto; [right; auto|right; auto|]. intros y [H|H]; cbn [fst snd] in H; [left; eapply cyc_fun; eauto|right; eapply cyc_inj; eauto].
  Qed.
  Lemma reach_fwd e e' : reach nxt e e' -> In e (cyc_pairs c) -> In e' (cyc_pairs c).
  Proof.
    induction 1 as [|e e1 e2 E _ IH]; auto. intros I. apply IH. destruct e as [a b]. destruct (@cyc_next _ _ I) as (d & J & _). rewrite (@nxt_fwd _ _ _ I J) in E. injection E as <-. auto.
  Qed.
  Lemma reach_all_fwd i j : (i <= j)%nat -> (j < length c)%nat -> reach nxt (nth i c 0, nth ((i + 1) mod length c) c 0) (nth j c 0, nth ((j + 1) mod length c) c 0).
  Proof.
    intros L. induction L as [|j L IH]; intros LJ; [constructor|]. assert (R := IH ltac:(lia)). clear IH. assert (E : ((j + 1) mod length c = S j)%nat) by (rewrite succ_mod by lia; destruct (Nat.eqb_spec (j + 1) (length c)); lia). rewrite E in R.
    assert (ST : nxt (nth j c 0, nth (S j) c 0) = Some (nth (S j) c 0, nth ((S j + 1) mod length c) c 0)).
    { apply nxt_fwd; apply cyc_In; [exists j|exists (S j)]; rewrite ?E; repeat split; auto; lia. }
    clear - R ST. remember (nth j c 0, nth (S j) c 0) as e. induction R as [|e e1 e2 N R IH]; [eapply reach_step; [exact ST|constructor]|eapply reach_step; [exact N|auto]].
  Qed.
  Lemma reach_all_bwd i j : (i <= j)%nat -> (j < length c)%nat -> reach nxt (nth ((j + 1) mod length c) c 0, nth j c 0) (nth ((i + 1) mod length c) c 0, nth i c 0).
  Proof.
    intros L. induction L as [|j L IH]; intros LJ; [constructor|]. eapply reach_step; [|apply IH; lia]. assert (E : ((j + 1) mod length c = S j)%nat) by (rewrite succ_mod by lia; destruct (Nat.eqb_spec (j + 1) (length c)); lia). rewrite E.
    apply nxt_bwd; apply cyc_In; [exists (S j)|exists j]; rewrite ?E; repeat split; auto; lia.
  Qed.
  Theorem polygon_faces : exists f1 f2 S1 S2, f1 <> f2 /\ Permutation (face_edges x) [(f1, S1); (f2, S2)] /\ Permutation S1 (cyc_pairs c) /\ Permutation S2 (map swap_edge (cyc_pairs c)).
  Proof.
    assert (K0 := cyc_simple). destruct (@ids_ok lnk ord ord_perm (cyc_pairs c) [] K0) as (k & Hk & I1 & I2 & I3 & I4 & I5). fold x in I1, I2, I3, I4, I5. fold nxt in I4, I5. set (face := face_of (fc_map x)) in *.
    assert (NM : forall e, half_edge (cyc_pairs c) e -> face e <> Some (-1)) by (intros e He E; apply (I4 e He) in E as (r & [] & _)).
    set (e1 := (nth 0 c 0, nth ((0 + 1) mod length c) c 0)). set (e2 := (nth ((length c - 1 + 1) mod length c) c 0, nth (length c - 1) c 0)).
    assert (H1 : In e1 (cyc_pairs c)) by (apply cyc_In; exists 0%nat; repeat split; auto; lia). assert (H2 : In (swap_edge e2) (cyc_pairs c)) by (apply cyc_In; exists (length c - 1)%nat; repeat split; auto; lia).
    assert (HE1 : half_edge (cyc_pairs c) e1) by (left; auto). assert (HE2 : half_edge (cyc_pairs c) e2) by (right; exact H2).
    assert (F1 : forall e, face e = face e1 <-> In e (cyc_pairs c)).
    { intros e. split.
      - intros E. destruct (I1 e1 HE1) as (f & Ef & _). assert (HE : half_edge (cyc_pairs c) e) by (apply (I2 e f); congruence). apply reach_fwd with e1; auto. apply I5; auto.
      - destruct e as [a b]. intros I. symmetry. apply I5; auto; [left; auto|]. apply cyc_In in I as (i & L & -> & ->). apply reach_all_fwd; lia. }
    assert (F2 : forall e, face e = face e2 <-> In (swap_edge e) (cyc_pairs c)).
    { intros e. split.
      - intros E. destruct (I1 e2 HE2) as (f & Ef & _). assert (HE : half_edge (cyc_pairs c) e) by (apply (I2 e f); congruence). destruct HE as [HE|HE]; [|exact HE]. exfalso.
        assert (R : reach nxt e e2) by (apply I5; auto; [left; auto|apply NM; left; auto]). apply reach_fwd in R; auto. destruct e2 as [u v]. cbn [swap_edge fst snd] in H2. destruct (@cyc_two _ _ R). auto.
      - destruct e as [a b]. intros I. symmetry. apply I5; auto; [right; auto|]. change (In (b, a) (cyc_pairs c)) in I. apply cyc_In in I as (i & L & -> & ->). apply reach_all_bwd; lia. }
    destruct (I1 e1 HE1) as (f1 & E1 & _). destruct (I1 e2 HE2) as (f2 & E2 & _). assert (SK : ssorted edge_cmp (keys (fc_map x))) by (unfold x; rewrite bake_keys; apply init_map_keys).
    destruct (@face_edges_spec x SK) as (A1 & A2 & A3 & A4).
    assert (FE : forall f e, (exists S, map_find Z.compare f (face_edges x) = Some S /\ In e S) <-> face e = Some f) by (intros f e; rewrite A3; symmetry; apply (@face_of_In _ e f SK)).
    destruct (proj2 (FE f1 e1) E1) as (S1 & M1 & _). destruct (proj2 (FE f2 e2) E2) as (S2 & M2 & _).
    assert (IN1 : forall e, In e S1 <-> In e (cyc_pairs c)). { intros e. rewrite <- F1, E1, <- FE. split; [intros I; eauto|]. intros (S & M & I). assert (S = S1) by congruence. subst. auto. }
    assert (IN2 : forall e, In e S2 <-> In (swap_edge e) (cyc_pairs c)). { intros e. rewrite <- F2, E2, <- FE. split; [intros I; eauto|]. intros (S & M & I). assert (S = S2) by congruence. subst. auto. }
    assert (NF : f1 <> f2). { intros <-. assert (Q : face e2 = face e1) by congruence. apply F1 in Q. destruct e2 as [u v]. cbn [swap_edge fst snd] in H2. destruct (@cyc_two _ _ Q). auto. }
    exists f1, f2, S1, S2. split; auto. split; [|split].
    - apply NoDup_Permutation.
      + apply (NoDup_map_inv fst). apply (ssorted_NoDup Zcompare_total) in A1. exact A1.
      + repeat constructor; cbn; [intros [Q|[]]|tauto]. injection Q as Q _. congruence.
      + intros [f S]. split.
        * intros I. apply (map_find_Some Zcompare_total) in I; auto. assert (NE := A4 _ _ I). destruct S as [|e S]; [congruence|]. assert (FE' := proj1 (FE f e) (ex_intro _ _ (conj I (or_introl eq_refl)))). assert (HE := I2 _ _ FE'). destruct HE as [HE|HE].
          -- apply F1 in HE. assert (f = f1) by congruence. subst f. left. congruence.
          -- assert (HE' := proj2 (F2 e) HE). assert (f = f2) by congruence. subst f. right. left. congruence.
        * intros [Q|[Q|[]]]; injection Q as <- <-; apply (map_find_Some Zcompare_total); auto.
    - apply NoDup_Permutation; auto using cyc_nodup. apply (ssorted_NoDup edge_total). eauto.
    - apply NoDup_Permutation.
      + apply (ssorted_NoDup edge_total). eauto.
      + apply FinFun.Injective_map_NoDup; [|apply cyc_nodup]. intros [? ?] [? ?] Q. injection Q as -> ->. auto.
      + intros e. rewrite IN2, in_map_iff. split; [intros I; exists (swap_edge e); split; auto using swap_swap|]. intros (e' & <- & I). rewrite swap_swap. auto.
  Qed.
End Polygon.
(** FaceCollapser on a simple closed curve: two faces, the curve and the curve reversed *)
Theorem c155_polygon : forall c lnk ord, NoDup c -> (3 <= length c)%nat -> (forall a bs, Permutation (ord a bs) bs) ->
  exists f1 f2 S1 S2, f1 <> f2 /\ Permutation (face_edges (bake_simple lnk ord (cyc_pairs c) [])) [(f1, S1); (f2, S2)] /\ Permutation S1 (cyc_pairs c) /\ Permutation S2 (map swap_edge (cyc_pairs c)).
Proof. intros c lnk ord N L O. exact (polygon_faces N L lnk ord O). Qed.
(** What is asked of the two external functions: a list of edges that are all different and has no edge twice in opposite directions is kept by [unique] (in some order), and
    the edges of one closed curve are traced as one closed curve - along the given directions, or against them. *)
Definition same_loop (E F : list edge) := Permutation E F \/ Permutation E (map swap_edge F).
Definition traces (c : list Z) (unique : list edge -> list edge) (curves_of : list edge -> bool -> list (list Z * bool)) (b : bool) :=
  (forall E, same_loop E (cyc_pairs c) -> Permutation (unique E) E) /\
  (forall E, same_loop E (cyc_pairs c) -> exists c', curves_of E b = [(c', true)] /\ same_loop (cyc_pairs c') E).
Lemma swap_invol (E : list edge) : map swap_edge (map swap_edge E) = E.
Proof. rewrite map_map. rewrite <- (map_id E) at 2. apply map_ext. intros e. apply swap_swap. Qed.
Lemma swap_perm (E F : list edge) : Permutation E (map swap_edge F) -> Permutation (map swap_edge E) F.
Proof. intros P. rewrite <- (swap_invol F). apply Permutation_map. auto. Qed.
Lemma vol_swap V E F : Permutation E (map swap_edge F) -> (brep_volume V E = - brep_volume V F)%Qc.
Proof. intros P. rewrite (brep_perm V P). apply brep_swap. Qed.
(** the area a closed curve bounds, with its sign *)
Lemma flat_two (A B : Type) (g : A -> list B) l a b : Permutation l [a; b] -> Permutation (flat_map g l) (g a ++ g b).
Proof. intros P. eapply perm_trans; [apply (Permutation_flat_map g P)|]. cbn. rewrite app_nil_r. auto. Qed.
Section Count.
  Variable c : list Z.
  Variable lnk : ds -> Z -> Z -> bool.
  Variable ord : Z -> list Z -> list Z.
  Variable unique : list edge -> list edge.
  Variable curves_of : list edge -> bool -> list (list Z * bool).
  Variable V : Z -> pt2.
  Variable b : bool.
  Hypothesis c_nodup : NoDup c.
  Hypothesis c_len : (3 <= length c)%nat.
  Hypothesis ord_perm : forall a bs, Permutation (ord a bs) bs.
  Hypothesis TR : traces c unique curves_of b.
  Lemma two_curves : exists S1 S2 c1 c2, Permutation S1 (cyc_pairs c) /\ Permutation S2 (map swap_edge (cyc_pairs c)) /\
    curves_of (unique S1) b = [(c1, true)] /\ curves_of (unique S2) b = [(c2, true)] /\ same_loop (cyc_pairs c1) S1 /\ same_loop (cyc_pairs c2) S2 /\
    Permutation (edge_to_plcurves lnk ord unique curves_of V (cyc_pairs c) b)
      ((if dropped V (brep_volume V S1) (c1, true) then [] else [(c1, true)]) ++ (if dropped V (brep_volume V S2) (c2, true) then [] else [(c2, true)])).
  Proof.
    destruct (@c155_polygon c lnk ord c_nodup c_len ord_perm) as (f1 & f2 & S1 & S2 & NF & P & P1 & P2). destruct TR as [TU TC].
    assert (U1 : Permutation (unique S1) S1) by (apply TU; left; auto). assert (U2 : Permutation (unique S2) S2) by (apply TU; right; auto).
    destruct (TC (unique S1)) as (c1 & E1 & L1); [left; eapply perm_trans; eauto|]. destruct (TC (unique S2)) as (c2 & E2 & L2); [right; eapply perm_trans; eauto|].
    exists S1, S2, c1, c2. split; auto. split; auto. split; auto. split; auto. split; [|split].
    - destruct L1 as [L1|L1]; [left; eapply perm_trans; eauto|right; eapply perm_trans; [exact L1|apply Permutation_map; auto]].
    - destruct L2 as [L2|L2]; [left; eapply perm_trans; eauto|right; eapply perm_trans; [exact L2|apply Permutation_map; auto]].
    - unfold edge_to_plcurves. eapply perm_trans; [eapply flat_two; exact P|]. cbn [snd]. rewrite E1, E2, (brep_perm V U1), (brep_perm V U2). cbn [filter].
      destruct (dropped V (brep_volume V S1) (c1, true)), (dropped V (brep_volume V S2) (c2, true)); cbn; auto.
  Qed.
End Count.
Lemma kept_along V S c1 : Permutation (cyc_pairs c1) S -> dropped V (brep_volume V S) (c1, true) = false.
Proof. apply c155_direction. Qed.
Lemma kept_small V S c1 : same_loop (cyc_pairs c1) S -> (brep_volume V S * brep_volume V S <= tiny)%Qc -> dropped V (brep_volume V S) (c1, true) = false.
Proof.
  intros [P|P] H; [apply kept_along; auto|]. destruct (dropped V (brep_volume V S) (c1, true)) eqn:D; auto. apply (c155_direction V S c1) in D; auto. exfalso. apply Qclt_not_le in D. auto.
Qed.
Lemma gone_large V S c1 : Permutation (cyc_pairs c1) (map swap_edge S) -> (tiny < brep_volume V S * brep_volume V S)%Qc -> dropped V (brep_volume V S) (c1, true) = true.
Proof. intros P H. apply (c155_direction V S c1); auto. Qed.
(** One closed curve comes back exactly once, when the tracing ignores the directions of the edges (so that it traces the curve and the reversed curve the same way) and the squared
    area is larger than 1e-10 - and then in the direction the tracing chose. *)
Theorem c155_once : forall c lnk ord unique curves_of V b, NoDup c -> (3 <= length c)%nat -> (forall a bs, Permutation (ord a bs) bs) -> traces c unique curves_of b ->
  (forall E F, Permutation E (cyc_pairs c) -> Permutation F (map swap_edge (cyc_pairs c)) -> curves_of E b = curves_of F b) ->
  (cut < curve_volume V c * curve_volume V c)%Qc ->
  exists c', edge_to_plcurves lnk ord unique curves_of V (cyc_pairs c) b = [(c', true)] /\ same_loop (cyc_pairs c') (cyc_pairs c).
Proof. rewrite <- cut_tiny.
  intros c lnk ord unique curves_of V b N L O TR BL AR. destruct (@two_curves c lnk ord unique curves_of V b N L O TR) as (S1 & S2 & c1 & c2 & P1 & P2 & E1 & E2 & L1 & L2 & P). destruct TR as [TU _].
  assert (EC : c1 = c2). { assert (EQ : curves_of (unique S1) b = curves_of (unique S2) b) by (apply BL; (eapply perm_trans; [apply TU|]); [left| |right|]; auto). assert (Q := eq_trans (eq_sym E1) (eq_trans EQ E2)). injection Q as Q. exact Q. } subst c2.
  assert (V1 : brep_volume V S1 = curve_volume V c) by (apply brep_perm; auto). assert (V2 : brep_volume V S2 = (- curve_volume V c)%Qc) by (apply vol_swap; auto).
  assert (SL : same_loop (cyc_pairs c1) (cyc_pairs c)). { destruct L1 as [L1|L1]; [left; eapply perm_trans; eauto|right; eapply perm_trans; [exact L1|apply Permutation_map; auto]]. }
  exists c1. split; auto. destruct SL as [SL|SL].
  - rewrite (@kept_along V S1 c1), (@gone_large V S2 c1) in P.
    + cbn in P. apply Permutation_length_1_inv. symmetry. exact P.
    + eapply perm_trans; [exact SL|]. symmetry. apply swap_perm. auto.
    + rewrite V2. replace (- curve_volume V c * - curve_volume V c)%Qc with (curve_volume V c * curve_volume V c)%Qc by ring. auto.
    + eapply perm_trans; [exact SL|symmetry; auto].
  - rewrite (@gone_large V S1 c1), (@kept_along V S2 c1) in P.
    + cbn in P. apply Permutation_length_1_inv. symmetry. exact P.
    + eapply perm_trans; [exact SL|symmetry; auto].
    + eapply perm_trans; [exact SL|]. apply Permutation_map. symmetry. auto.
    + rewrite V1. auto.
Qed.
(** Traced along the directions of its edges, one closed curve comes back twice, once in each direction, whatever its area. *)
Theorem c155_twice_refuted : forall c lnk ord unique curves_of V b, NoDup c -> (3 <= length c)%nat -> (forall a bs, Permutation (ord a bs) bs) -> traces c unique curves_of b ->
  (forall E c', same_loop E (cyc_pairs c) -> In (c', true) (curves_of E b) -> Permutation (cyc_pairs c') E) ->
  exists c1 c2, Permutation (edge_to_plcurves lnk ord unique curves_of V (cyc_pairs c) b) [(c1, true); (c2, true)] /\ Permutation (cyc_pairs c1) (cyc_pairs c) /\ Permutation (cyc_pairs c2) (map swap_edge (cyc_pairs c)).
Proof.
  intros c lnk ord unique curves_of V b N L O TR AL. destruct (@two_curves c lnk ord unique curves_of V b N L O TR) as (S1 & S2 & c1 & c2 & P1 & P2 & E1 & E2 & L1 & L2 & P). destruct TR as [TU _].
  assert (Q1 : Permutation (unique S1) S1) by (apply TU; left; auto). assert (Q2 : Permutation (unique S2) S2) by (apply TU; right; auto).
  assert (A1 : Permutation (cyc_pairs c1) S1) by (eapply perm_trans; [apply (AL (unique S1)); [left; eapply perm_trans; eauto|rewrite E1; left; auto]|auto]).
  assert (A2 : Permutation (cyc_pairs c2) S2) by (eapply perm_trans; [apply (AL (unique S2)); [right; eapply perm_trans; eauto|rewrite E2; left; auto]|auto]).
  exists c1, c2. rewrite (@kept_along V S1 c1), (@kept_along V S2 c2) in P by auto. split; [exact P|]. split; eapply perm_trans; eauto.
Qed.
(** A closed curve whose squared area is at most 1e-10 (a drawing a few thousandths across) comes back twice however it is traced. *)
Theorem c155_small_refuted : forall c lnk ord unique curves_of V b, NoDup c -> (3 <= length c)%nat -> (forall a bs, Permutation (ord a bs) bs) -> traces c unique curves_of b ->
  (curve_volume V c * curve_volume V c <= cut)%Qc -> length (edge_to_plcurves lnk ord unique curves_of V (cyc_pairs c) b) = 2%nat.
Proof. rewrite <- cut_tiny.
  intros c lnk ord unique curves_of V b N L O TR AR. destruct (@two_curves c lnk ord unique curves_of V b N L O TR) as (S1 & S2 & c1 & c2 & P1 & P2 & E1 & E2 & L1 & L2 & P).
  assert (V1 : brep_volume V S1 = curve_volume V c) by (apply brep_perm; auto). assert (V2 : brep_volume V S2 = (- curve_volume V c)%Qc) by (apply vol_swap; auto).
  rewrite (@kept_small V S1 c1), (@kept_small V S2 c2) in P; auto.
  - apply Permutation_length in P. exact P.
  - rewrite V2. replace (- curve_volume V c * - curve_volume V c)%Qc with (curve_volume V c * curve_volume V c)%Qc by ring. auto.
  - rewrite V1. auto.
Qed.
(** ** the hypotheses are met *)
Definition tri : list Z := [4; 7; 9].
Definition tri_V (s : Qc) (i : Z) : pt2 := if i =? 4 then (0, 0)%Qc else if i =? 7 then (s, 0)%Qc else (0, s)%Qc.
Definition blind (E : list edge) (_ : bool) : list (list Z * bool) := [(tri, true)].
Definition along (E : list edge) (_ : bool) : list (list Z * bool) := [(if existsb (fun e : edge => (fst e =? 4) && (snd e =? 7)) E then tri else [9; 7; 4], true)].
Lemma along_fwd E : Permutation E (cyc_pairs tri) -> along E true = [(tri, true)].
Proof. intros P. unfold along. assert (H : existsb (fun e : edge => (fst e =? 4) && (snd e =? 7)) E = true); [|change ([(if existsb (fun e : edge => (fst e =? 4) && (snd e =? 7)) E then tri else [9; 7; 4], true)] = [(tri, true)]); rewrite H; auto]. apply existsb_exists. exists (4, 7). split; auto. eapply Permutation_in; [symmetry; exact P|]. cbn. auto. Qed.
Lemma along_bwd E : Permutation E (map swap_edge (cyc_pairs tri)) -> along E true = [([9; 7; 4], true)].
Proof.
  intros P. unfold along. destruct (existsb (fun e : edge => (fst e =? 4) && (snd e =? 7)) E) eqn:H; auto. apply existsb_exists in H as (e & I & H). apply (Permutation_in _ P) in I. exfalso. cbn in I. repeat (destruct I as [<-|I]; [discriminate|]). destruct I.
Qed.
Lemma rev_tri : Permutation (cyc_pairs [9; 7; 4]) (map swap_edge (cyc_pairs tri)).
Proof. cbn. change (Permutation [(9, 7); (7, 4); (4, 9)] [(7, 4); (9, 7); (4, 9)]). apply perm_swap. Qed.
Example traces_blind : traces tri (fun E => E) blind true.
Proof.
  split; [auto|]. intros E [P|P]; exists tri; (split; [reflexivity|]).
  - left. symmetry. auto.
  - right. symmetry. apply swap_perm. auto.
Qed.
Example traces_along : traces tri (fun E => E) along true /\ forall E c', same_loop E (cyc_pairs tri) -> In (c', true) (along E true) -> Permutation (cyc_pairs c') E.
Proof.
  assert (G : forall E, same_loop E (cyc_pairs tri) -> exists c', along E true = [(c', true)] /\ Permutation (cyc_pairs c') E).
  { intros E [P|P]; [exists tri|exists [9; 7; 4]]; (split; [first [apply along_fwd|apply along_bwd]; auto|]); [symmetry; auto|eapply perm_trans; [apply rev_tri|symmetry; auto]]. }
  split; [split; [auto|]|].
  - intros E H. destruct (G E H) as (c' & H1 & H2). exists c'. split; auto. left. auto.
  - intros E c' H I. destruct (G E H) as (c'' & H1 & H2). rewrite H1 in I. destruct I as [I|[]]. injection I as <-. auto.
Qed.
Definition lnk0 (d : ds) (a b : Z) : bool := true.
Example tri_once : edge_to_plcurves lnk0 (fun _ l => l) (fun E => E) blind (tri_V 1) (cyc_pairs tri) true = [(tri, true)].
Proof. vm_compute. reflexivity. Qed.
Example tri_twice : edge_to_plcurves lnk0 (fun _ l => l) (fun E => E) along (tri_V 1) (cyc_pairs tri) true = [(tri, true); ([9; 7; 4], true)].
Proof. vm_compute. reflexivity. Qed.
Example tri_small : edge_to_plcurves lnk0 (fun _ l => l) (fun E => E) blind (tri_V (Q2Qc (1 # 1000))) (cyc_pairs tri) true = [(tri, true); (tri, true)].
Proof. vm_compute. reflexivity. Qed.
Example tri_area : (cut < curve_volume (tri_V 1) tri * curve_volume (tri_V 1) tri)%Qc /\ (curve_volume (tri_V (Q2Qc (1 # 1000))) tri * curve_volume (tri_V (Q2Qc (1 # 1000))) tri <= cut)%Qc.
Proof. split; vm_compute; [reflexivity|discriminate]. Qed.
