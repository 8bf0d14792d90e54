(** Property C129: the faces CellCollapser joins around an edge are geometric neighbours, so that cells are the wedge-connected
    components of the arrangement. *)
From Verif Require Import Base Num SmallestEdge AdaptiveGrid AngleSort AngleSortSpec AngleSortProofs DisjointSet FaceCollapser FaceCollapserProofs FaceCollapserGeom CellCollapser CellCollapserSpec
  CellCollapserProofs CellCollapserMerge CellCollapserClean PropsCollapse PropsCells Volume Wedge WedgeSpec WedgeProofs.
From Coq Require Import Relations Permutation Sorted.
Local Open Scope Z_scope.

(** every edge has two distinct end points; if it is shorter than 1e-8, the axis found by the eigen-analysis is one along which it extends *)
Definition usable_edges (eig : list q3 -> option Z) (V : Z -> q3) (faces : list (Z * list loop)) : Prop :=
  forall f a b, face_edge faces f (a, b) -> V a <> V b /\
    ((tiny_sq <= dot (vsub (V b) (V a)) (vsub (V b) (V a)))%Qc \/
     forall Ns k, eig Ns = Some k -> 0 <= k < 3 /\ comp3 (vsub (V b) (V a)) k <> 0%Qc).

Lemma vsub_neg a b : vneg (vsub a b) = vsub b a.
Proof. destruct a as [[x y] z], b as [[u v] w]. unfold vsub, vneg, vadd. f_equal; [f_equal|]; ring. Qed.
Lemma vsub_eq0 a b : vsub a b = (0, 0, 0)%Qc -> a = b.
Proof.
  destruct a as [[x y] z], b as [[u v] w]. unfold vsub, vneg, vadd. intros E.
  assert (E1 := f_equal (fun p : q3 => fst (fst p)) E). assert (E2 := f_equal (fun p : q3 => snd (fst p)) E). assert (E3 := f_equal snd E). cbn in E1, E2, E3.
  f_equal; [f_equal|]; qc_lra.
Qed.
Lemma comp3_neg v k : comp3 (vneg v) k = (- comp3 v k)%Qc.
Proof. destruct v as [[x y] z]. unfold comp3, vneg. destruct (k =? 0), (k =? 1); auto. Qed.
Lemma dot_neg v : dot (vneg v) (vneg v) = dot v v.
Proof. destruct v as [[x y] z]. unfold dot, vneg. ring. Qed.
Lemma same_ray_sym x y : same_ray x y -> same_ray y x.
Proof.
  intros (t & Ht & ->). destruct (qinv_pos Ht) as [T0 T1]. exists (/ t)%Qc. split; auto. symmetry. apply vscale_inv; auto.
Qed.
Lemma same_ray_trans x y z : same_ray x y -> same_ray y z -> same_ray x z.
Proof. intros (t & Ht & ->) (u & Hu & ->). exists (u * t)%Qc. split; [apply mul_pos; auto|]. apply vscale_vscale. Qed.
Lemma turn_neg d x y : turn (vneg d) x y = turn d y x.
Proof. destruct d as [[a b] c], x as [[p q] r], y as [[u v] w]. unfold turn, dot, vneg, Volume.cross. ring. Qed.
Lemma swept_rev d x z y : swept (vneg d) y z x <-> swept d x z y.
Proof.
  unfold swept. rewrite !turn_neg.
  assert (A : same_ray y x <-> same_ray x y) by (split; apply same_ray_sym).
  assert (B : same_ray x y -> (same_ray y z <-> same_ray x z)).
  { intros H. split; intros H'; [eapply same_ray_trans; eauto|]. eapply same_ray_trans; [apply same_ray_sym; exact H|auto]. }
  rewrite A. tauto.
Qed.
Lemma fa_In' faces e f : In f (faces_at (cc_hf (cc_build faces)) e) <-> exists s, has_side faces f e s.
Proof.
  unfold faces_at, has_side, side_at. rewrite in_map_iff. destruct (build_wf faces) as (W & _). assert (HS := hw_sorted _ _ W). split.
  - intros ([[f' e'] [c s]] & <- & H). apply filter_In in H as [H E]. cbn in E. apply edge_eqb_eq in E. subst e'.
    exists s, c. apply (map_find_Some hf_total); auto.
  - intros (s & c & E). exists ((f, e), (c, s)). split; auto. apply filter_In. split; [apply (map_find_Some hf_total); auto|]. cbn. apply edge_eqb_eq; auto.
Qed.
Lemma fa_NoDup' faces e : NoDup (faces_at (cc_hf (cc_build faces)) e).
Proof.
  destruct (build_wf faces) as (W & _). assert (HS := hw_sorted _ _ W). apply (ssorted_NoDup hf_total) in HS.
  assert (G : forall l : hfmap, NoDup (keys l) -> NoDup (faces_at l e)); [|apply G; auto].
  clear. unfold faces_at. induction l as [|[[f e'] v] l IH]; intros HS; [constructor|]. cbn [keys map fst] in HS. inversion HS as [|? ? NF ND]; subst.
  cbn [filter fst snd]. destruct (edge_eqb e e') eqn:E; [|apply IH; auto]. apply edge_eqb_eq in E. subst e'. cbn [map fst]. constructor; [|apply IH; auto].
  intros H. apply in_map_iff in H as ([[f' e'] v'] & Ef & H). cbn in Ef. subst f'. apply filter_In in H as [H E]. cbn in E. apply edge_eqb_eq in E. subst e'.
  apply NF. apply (in_map fst) in H. auto.
Qed.
Section Main.
  Variable shuffle : list Z -> list Z.
  Variable eig : list q3 -> option Z.
  Variable nrm : q3 -> q3.
  Variable cyc : list vec2 -> list nat.
  Hypothesis SP : forall l, Permutation (shuffle l) l.
  Hypothesis NM : normalizes nrm.
  Hypothesis SC : sorts_cyclically cyc.
  Variable V N : Z -> q3.
  Variable faces : list (Z * list loop).
  Hypothesis PF : plain_faces faces.
  Hypothesis FF : flat_faces V N faces.
  Hypothesis UE : usable_edges eig V faces.
  Let m := cc_hf (cc_build faces).
  Let ord := around_order shuffle eig nrm cyc V N m.
  Let hs f a b s : has_side faces f (a, b) s <-> face_edge faces f (along s a b).
  Proof. unfold has_side. destruct (build_plain faces PF) as (_ & _ & B). rewrite B. destruct s; reflexivity. Qed.
  Let sgn f a b s : face_edge faces f (along s a b) -> face_sign m (a, b) f = s.
  Proof. intros H. apply hs in H as [c E]. unfold face_sign. fold m in E. rewrite E. auto. Qed.
  Let inc a b h : In h (faces_at m (a, b)) <-> exists u, face_edge faces h (along u a b).
  Proof. unfold m. rewrite fa_In'. split; intros [s H]; exists s; apply hs; auto. Qed.
  Let into_ok f a b s : face_edge faces f (along s a b) ->
    Volume.cross (if face_sign m (a, b) f then N f else vneg (N f)) (vneg (edge_vba V (a, b))) = into V N f (along s a b).
  Proof.
    intros H. rewrite (sgn _ _ _ _ H). unfold edge_vba, into. cbn [fst snd]. rewrite vsub_neg. destruct s; cbn [along fst snd]; auto.
    rewrite <- (vsub_neg (V b) (V a)). destruct (N f) as [[x y] z], (vsub (V b) (V a)) as [[p q] r]. unfold Volume.cross, vneg. f_equal; [f_equal|]; ring.
  Qed.
  Lemma next_iff a b f g : (exists h u, face_edge faces h (along u a b)) ->
    (cyc_next (ord (a, b) (faces_at m (a, b))) f g <->
     exists s t, face_edge faces f (along s a b) /\ face_edge faces g (along t a b) /\
       forall h u, face_edge faces h (along u a b) -> ~ swept (vsub (V b) (V a)) (into V N f (along s a b)) (into V N h (along u a b)) (into V N g (along t a b))).
  Proof.
    intros (h0 & u0 & H0). unfold ord.
    assert (VN : V a <> V b /\ ((tiny_sq <= dot (edge_vba V (a, b)) (edge_vba V (a, b)))%Qc \/ forall Ns k, eig Ns = Some k -> 0 <= k < 3 /\ comp3 (edge_vba V (a, b)) k <> 0%Qc)).
    { unfold edge_vba; cbn [fst snd]. assert (K3 : forall v k, comp3 (vneg v) k <> 0%Qc -> comp3 v k <> 0%Qc) by (intros v k H; rewrite comp3_neg in H; intros E; apply H; rewrite E; ring).
      destruct u0; cbn [along] in H0; destruct (UE _ _ _ H0) as [U1 U2]; (split; [auto|]); auto.
      rewrite <- vsub_neg in U2. destruct U2 as [U2|U2]; [left; rewrite dot_neg in U2; auto|right]. intros Ns k E. destruct (U2 Ns k E). split; auto. }
    destruct VN as [VN KK].
    assert (VZ : edge_vba V (a, b) <> (0, 0, 0)%Qc) by (unfold edge_vba; cbn [fst snd]; intros E; apply VN, vsub_eq0; auto).
    assert (AX : forall Ns, let k := edge_axis eig (edge_vba V (a, b)) Ns in 0 <= k < 3 /\ comp3 (edge_vba V (a, b)) k <> 0%Qc).
    { intros Ns. unfold edge_axis. cbv zeta. assert (MX := conj (max_axis_range (edge_vba V (a, b))) (max_axis_pos VZ)).
      destruct (tiny _) eqn:T; auto. unfold tiny in T. apply qltb_lt in T. destruct KK as [KK|KK]; [exfalso; revert KK; apply Qclt_not_le; auto|].
      destruct (eig Ns) as [k|] eqn:E; auto. apply (KK _ _ E). }
    rewrite around_next_iff; auto.
    - rewrite !inc. split.
      + intros ([s Hs] & [t Ht] & H). exists s, t. split; auto. split; auto. intros h u Hu. specialize (H h).
        rewrite (into_ok _ _ _ _ Hs), (into_ok _ _ _ _ Ht), (into_ok _ _ _ _ Hu) in H. unfold edge_vba in H; cbn [fst snd] in H. rewrite vsub_neg in H. apply H, inc; eauto.
      + intros (s & t & Hs & Ht & H). split; eauto. split; eauto. intros h Hh. apply inc in Hh as [u Hu]. specialize (H h u Hu).
        rewrite (into_ok _ _ _ _ Hs), (into_ok _ _ _ _ Ht), (into_ok _ _ _ _ Hu). unfold edge_vba; cbn [fst snd]. rewrite vsub_neg. auto.
    - apply fa_NoDup'.
    - intros f' Hf'. apply inc in Hf' as [u Hu]. unfold edge_vba; cbn [fst snd]. destruct u; cbn [along] in Hu; destruct (proj1 FF _ _ _ Hu) as [F1 F2]; (split; [|auto]).
      + rewrite vsub_neg. auto.
      + rewrite <- F1. rewrite vsub_neg, <- (vsub_neg (V a) (V b)). destruct (N f') as [[x y] z], (vsub (V a) (V b)) as [[p q] r]. unfold dot, vneg in *.
        assert (F1' := F1). assert (G : (x * p + y * q + z * r = 0)%Qc) by (rewrite <- F1; auto). qc_lra.
    - intros f' g' Hf' Hg' NE. apply inc in Hf' as [u Hu], Hg' as [w Hw]. rewrite (into_ok _ _ _ _ Hu), (into_ok _ _ _ _ Hw). apply (proj2 FF); auto.
    - apply AX.
    - apply AX.
  Qed.
  Lemma two_faces a b : (length (faces_at m (a, b)) > 1)%nat <-> exists h h' u u', h <> h' /\ face_edge faces h (along u a b) /\ face_edge faces h' (along u' a b).
  Proof.
    assert (ND := fa_NoDup' faces (a, b)). fold m in ND. split.
    - intros L. destruct (faces_at m (a, b)) as [|h [|h' l]] eqn:E; cbn [length] in L; try lia. inversion ND as [|? ? N1 N2]; subst.
      assert (H1 := proj1 (inc a b h)). assert (H2 := proj1 (inc a b h')). rewrite E in H1, H2. destruct H1 as [u Hu]; [simpl; auto|]. destruct H2 as [u' Hu']; [simpl; auto|].
      exists h, h', u, u'. split; auto. intros ->. apply N1; simpl; auto.
    - intros (h & h' & u & u' & NE & H1 & H2). assert (I1 : In h (faces_at m (a, b))) by (apply inc; eauto). assert (I2 : In h' (faces_at m (a, b))) by (apply inc; eauto).
      destruct (faces_at m (a, b)) as [|x [|y l]]; cbn [length]; try lia; exfalso; [destruct I1|]. destruct I1 as [<-|[]], I2 as [<-|[]]. auto.
  Qed.
  Lemma uniq f a b s t : face_edge faces f (along s a b) -> face_edge faces f (along t a b) -> s = t.
  Proof. intros H1 H2. rewrite <- (sgn _ _ _ _ H1), <- (sgn _ _ _ _ H2). auto. Qed.
  Lemma dih_iff open x y : dihedral ord open m (cc_invalid (cc_build faces)) x y -> wedge_step open V N faces x y.
  Proof.
    destruct x as [f s], y as [g t]. intros ([a b] & L & _ & OP & HC & H1 & H2). cbn [fst snd] in *.
    apply (hs f a b s) in H1. apply (hs g b a t) in H2. assert (H2' : face_edge faces g (along (negb t) a b)) by (destruct t; auto).
    exists a, b. split; auto. split; auto. split; [destruct OP; [auto|right; apply two_faces; auto]|].
    apply next_iff in HC; [|eauto]. destruct HC as (s' & t' & H3 & H4 & HC). rewrite (uniq _ _ _ _ _ H1 H3), (uniq _ _ _ _ _ H2' H4). exact HC.
  Qed.
  Lemma iff_dih open x y : wedge_step open V N faces x y ->
    dihedral ord open m (cc_invalid (cc_build faces)) x y \/ dihedral ord open m (cc_invalid (cc_build faces)) y x.
  Proof.
    destruct (build_plain faces PF) as (B1 & _ & _). rewrite B1.
    destruct x as [f s], y as [g t]. intros (a & b & H1 & H2 & OP & HC).
    destruct (Z.lt_trichotomy a b) as [L|[L|L]].
    - left. exists (a, b). cbn [fst snd]. split; auto. split; [intros []|]. split; [destruct OP; [auto|right; apply two_faces; auto]|].
      split; [apply next_iff; eauto; exists s, (negb t); auto|]. split; [apply hs; auto|apply hs; destruct t; auto].
    - exfalso. assert (E := fe_ne faces PF _ _ H1). destruct s; cbn in E; congruence.
    - right. exists (b, a). cbn [fst snd]. split; auto. split; [intros []|]. assert (SW : forall u, along (negb u) b a = along u a b) by (destruct u; auto).
      split; [destruct OP as [OP|(h & h' & u & u' & NE & A1 & A2)]; [auto|right; apply two_faces; exists h, h', (negb u), (negb u'); rewrite !SW; auto]|].
      assert (T1 : face_edge faces g (along t b a)) by (destruct t; auto).
      split; [|split; [apply hs; auto|apply hs; destruct s; auto]].
      apply next_iff; [eauto|]. exists t, (negb s). rewrite SW. split; auto. split; auto.
      intros h u Hu. rewrite <- vsub_neg, swept_rev. replace (along t b a) with (along (negb t) a b) by (destruct t; auto).
      replace (along u b a) with (along (negb u) a b) in * by (destruct u; auto). apply HC; auto.
  Qed.
  Lemma conn_iff open x y : dihedrally_connected ord open m (cc_invalid (cc_build faces)) x y <-> share_a_wedge_chain open V N faces x y.
  Proof.
    split; intros H.
    - induction H as [a b H| | a b H IH| a b c H1 IH1 H2 IH2]; [apply rst_step, dih_iff; auto|apply rst_refl|apply rst_sym; auto|eapply rst_trans; eauto].
    - induction H as [a b H| | a b H IH| a b c H1 IH1 H2 IH2]; [|apply rst_refl|apply rst_sym; auto|eapply rst_trans; eauto].
      destruct (iff_dih _ _ _ H) as [D|D]; [apply rst_step; auto|apply rst_sym, rst_step; auto].
  Qed.
End Main.

(** C129. For every family of flat faces, whatever order the half-faces are stored in, whatever Eigen's normalized() rounds to (a positive
    multiple) and whichever ray cyclic_order starts from: two face sides are in the same cell iff a chain of wedge steps joins them. *)
Theorem c129_cells_are_wedge_components : forall lnk shuffle eig nrm cyc V N open faces,
  (forall l, Permutation (shuffle l) l) -> normalizes nrm -> sorts_cyclically cyc ->
  plain_faces faces -> flat_faces V N faces -> usable_edges eig V faces ->
  let r := collapse lnk (around_order shuffle eig nrm cyc V N (cc_hf (cc_build faces))) open faces in
  forall f a b s f' a' b' s', face_edge faces f (along s a b) -> face_edge faces f' (along s' a' b') ->
    (cell_id (cl_hf r) (f, (a, b)) = cell_id (cl_hf r) (f', (a', b')) <-> share_a_wedge_chain open V N faces (f, s) (f', s')).
Proof.
  intros lnk shuffle eig nrm cyc V N open faces SP NM SC PF FF UE r f a b s f' a' b' s' H H'.
  assert (FP : forall f, In f (map fst faces) -> 0 <= f).
  { intros g Hg. apply in_map_iff in Hg as ([g' l] & E & Hg). simpl in E; subst. apply (proj2 PF _ _ Hg). }
  rewrite <- (conn_iff shuffle eig nrm cyc SP NM SC V N faces PF FF UE).
  destruct (c21_plain_faces_keep_their_edges faces PF) as (_ & _ & K).
  assert (HS : forall f a b s, face_edge faces f (along s a b) -> has_side faces f (a, b) s) by (intros g p q t Hg; destruct t; apply K; auto).
  apply c21_same_cell_iff_dihedrally_connected; auto.
Qed.
(** edges of length at least 1e-8 are usable whatever the eigen-solver does *)
Theorem c129_long_edges_usable : forall eig V faces, long_edges V faces -> usable_edges eig V faces.
Proof.
  intros eig V faces L f a b H. split; [|left; apply (L _ _ _ H)]. intros E. assert (K := L _ _ _ H). rewrite E in K.
  replace (dot (vsub (V b) (V b)) (vsub (V b) (V b))) with 0%Qc in K; [revert K; apply Qclt_not_le; reflexivity|].
  destruct (V b) as [[x y] z]. unfold vsub, vadd, vneg, dot. ring.
Qed.
(** the side of f that the wedge leaves by is the one its normal (front) or the opposite of its normal (back) points to *)
Theorem c129_side_of_the_wedge : forall V N faces f a b s, flat_faces V N faces -> V a <> V b -> face_edge faces f (along s a b) ->
  (0 < dot (if s then N f else vneg (N f)) (Volume.cross (vsub (V b) (V a)) (into V N f (along s a b))))%Qc.
Proof.
  intros V N faces f a b s [FF _] VN H. assert (DP := dot_pos (fun E => VN (eq_sym (vsub_eq0 _ _ E)))).
  set (n0 := if s then N f else vneg (N f)).
  assert (F : dot n0 (vsub (V b) (V a)) = 0%Qc /\ n0 <> (0, 0, 0)%Qc /\ into V N f (along s a b) = Volume.cross n0 (vsub (V b) (V a))).
  { unfold n0, into. destruct s; cbn [along fst snd] in *; destruct (FF _ _ _ H) as [F1 F2]; (split; [|split]); auto.
    - rewrite <- (vsub_neg (V a) (V b)). destruct (N f) as [[x y] z], (vsub (V a) (V b)) as [[p q] r]. unfold dot, vneg in *. rewrite <- F1. ring.
    - intros E. apply F2. destruct (N f) as [[x y] z]. unfold vneg in E.
      assert (E1 := f_equal (fun p : q3 => fst (fst p)) E). assert (E2 := f_equal (fun p : q3 => snd (fst p)) E). assert (E3 := f_equal snd E). cbn in E1, E2, E3.
      f_equal; [f_equal|]; qc_lra.
    - rewrite <- (vsub_neg (V b) (V a)). destruct (N f) as [[x y] z], (vsub (V b) (V a)) as [[p q] r]. unfold Volume.cross, vneg. f_equal; [f_equal|]; ring. }
  destruct F as (F1 & F2 & ->). rewrite cross_d_d by auto. assert (P := dot_pos F2).
  replace (dot n0 (vscale (dot (vsub (V b) (V a)) (vsub (V b) (V a))) n0)) with (dot (vsub (V b) (V a)) (vsub (V b) (V a)) * dot n0 n0)%Qc; [apply mul_pos; auto|].
  set (k := dot (vsub _ _) _). clearbody k. destruct n0 as [[x y] z]. unfold dot, vscale. ring.
Qed.
(** [swept] is the usual open wedge when the turn is less than half a turn *)
Lemma cramer3 d x y z : d <> (0, 0, 0)%Qc -> dot x d = 0%Qc -> dot y d = 0%Qc -> dot z d = 0%Qc ->
  vscale (turn d x y) z = vadd (vscale (turn d z y) x) (vscale (turn d x z) y).
Proof.
  intros ND Hx Hy Hz. assert (DP := dot_pos ND). destruct (qinv_pos DP) as [D0 _].
  assert (T0 : turn x y z = 0%Qc).
  { assert (E : (dot d d * turn x y z = dot x d * turn d y z - dot y d * turn d x z + dot z d * turn d x y)%Qc).
    { destruct d as [[a b] c], x as [[x1 x2] x3], y as [[y1 y2] y3], z as [[z1 z2] z3]. unfold turn, dot, Volume.cross. ring. }
    rewrite Hx, Hy, Hz in E. replace (0 * turn d y z - 0 * turn d x z + 0 * turn d x y)%Qc with 0%Qc in E by ring.
    apply Qcmult_integral in E as [E|E]; [contradiction|auto]. }
  assert (G : forall p q : q3, vadd q (vscale (turn x y z) d) = p -> p = q).
  { intros p q <-. rewrite T0. destruct q as [[u v] w], d as [[a b] c]. unfold vadd, vscale. f_equal; [f_equal|]; ring. }
  apply G. destruct d as [[a b] c], x as [[x1 x2] x3], y as [[y1 y2] y3], z as [[z1 z2] z3]. unfold turn, dot, Volume.cross, vadd, vscale. f_equal; [f_equal|]; ring.
Qed.
Theorem c129_swept_is_the_open_wedge : forall d x y z, d <> (0, 0, 0)%Qc -> dot x d = 0%Qc -> dot y d = 0%Qc -> dot z d = 0%Qc ->
  (0 < turn d x y)%Qc ->
  (swept d x z y <-> exists p q, (0 < p /\ 0 < q)%Qc /\ z = vadd (vscale p x) (vscale q y)).
Proof.
  intros d x y z ND Hx Hy Hz TP. destruct (qinv_pos TP) as [T0 TI]. split.
  - intros H. assert (K : (0 < turn d x z /\ 0 < turn d z y)%Qc).
    { destruct H as [[(t & Ht & E) _]|[_ [(_ & H)|[H _]]]]; [|auto|exfalso; revert TP; apply Qcle_not_lt; auto]. exfalso. rewrite E in TP.
      replace (turn d x (vscale t x)) with 0%Qc in TP; [revert TP; apply Qcle_not_lt, Qcle_refl|].
      destruct d as [[a b] c], x as [[x1 x2] x3]. unfold turn, dot, Volume.cross, vscale. ring. }
    destruct K as [K1 K2]. exists (/ turn d x y * turn d z y)%Qc, (/ turn d x y * turn d x z)%Qc. split; [split; apply mul_pos; auto|].
    transitivity (vscale (/ turn d x y) (vscale (turn d x y) z)); [symmetry; apply vscale_inv; auto|]. rewrite (cramer3 d x y z ND Hx Hy Hz).
    set (u := turn d z y). set (v := turn d x z). set (w := (/ turn d x y)%Qc). clearbody u v w.
    destruct x as [[x1 x2] x3], y as [[y1 y2] y3]. unfold vadd, vscale. f_equal; [f_equal|]; ring.
  - intros (p & q & (Hp & Hq) & ->). right.
    assert (E1 : turn d x (vadd (vscale p x) (vscale q y)) = (q * turn d x y)%Qc).
    { destruct d as [[a b] c], x as [[x1 x2] x3], y as [[y1 y2] y3]. unfold turn, dot, Volume.cross, vadd, vscale. ring. }
    assert (E2 : turn d (vadd (vscale p x) (vscale q y)) y = (p * turn d x y)%Qc).
    { destruct d as [[a b] c], x as [[x1 x2] x3], y as [[y1 y2] y3]. unfold turn, dot, Volume.cross, vadd, vscale. ring. }
    split; [|left; split; auto; rewrite E1, E2; split; apply mul_pos; auto].
    intros (t & Ht & E). rewrite E in TP.
    replace (turn d x (vscale t x)) with 0%Qc in TP; [revert TP; apply Qcle_not_lt, Qcle_refl|].
    destruct d as [[a b] c], x as [[x1 x2] x3]. unfold turn, dot, Volume.cross, vscale. ring.
Qed.

(** *** a concrete case: a book with four pages around the edge (0, 1), pages +x and -x stored in the opposite direction *)
Definition ray_cyc (A : list vec2) : list nat :=
  map Z.to_nat (angle_ord (fun z => if z <? 0 then (0, 0)%Qc else nth (Z.to_nat z) A (0, 0)%Qc) (-1) (zrange 0 (length A))).
Lemma ray_cyc_ok : sorts_cyclically ray_cyc.
Proof.
  intros A. set (W := fun z => if z <? 0 then (0, 0)%Qc else nth (Z.to_nat z) A (0, 0)%Qc).
  assert (ZS : forall n, map Z.to_nat (zrange 0 n) = seq 0 n).
  { intros n. unfold zrange. rewrite map_map. rewrite <- (map_id (seq 0 n)) at 2. apply map_ext. intros i. lia. }
  destruct (angle_ord_ok W) as [A1 A2]. change (ray_cyc A) with (map Z.to_nat (angle_ord W (-1) (zrange 0 (length A)))). split; [rewrite <- ZS; apply Permutation_map, A1|].
  intros NZ. assert (DW : forall j, 0 <= j -> diff W (-1) j = nth (Z.to_nat j) A (0, 0)%Qc).
  { intros j Hj. unfold diff, W. assert ((j <? 0) = false) as -> by (apply Z.ltb_ge; auto). change (-1 <? 0) with true. cbv iota. cbn [fst snd]. destruct (nth (Z.to_nat j) A _) as [x y]. cbn [fst snd]. f_equal; ring. }
  assert (NZ' : forall j, In j (zrange 0 (length A)) -> nonzero (diff W (-1) j)).
  { intros j Hj. apply zrange_In in Hj. rewrite DW by lia. rewrite Forall_forall in NZ. apply NZ, nth_In. lia. }
  destruct (A2 (-1) _ NZ') as [_ SS]. exists (0, 1)%Qc. split; [intros E; discriminate (f_equal (fun v : vec2 => this (snd v)) E)|].
  assert (FR : forall v, frame (0, 1)%Qc v = v). { intros [x y]. unfold frame; cbn [fst snd]. f_equal; ring. }
  assert (IN : forall j, In j (angle_ord W (-1) (zrange 0 (length A))) -> In j (zrange 0 (length A))) by (intros j; apply Permutation_in, A1).
  clear A1 A2. revert SS IN. generalize (angle_ord W (-1) (zrange 0 (length A))) as l0. intros l0 SS IN.
  induction SS as [|i l SS IH FA]; cbn [map]; [constructor|]. constructor; [apply IH; intros; apply IN; simpl; auto|].
  rewrite Forall_forall in *. intros j' Hj. apply in_map_iff in Hj as (j & <- & Hj). specialize (FA j Hj). cbv beta in FA.
  assert (Ii := IN i (or_introl eq_refl)). assert (Ij := IN j (or_intror Hj)). assert (Ri := Ii). assert (Rj := Ij). apply zrange_In in Ri, Rj.
  rewrite !FR, <- !DW by lia. intros B. apply comp_ccw in B; auto. congruence.
Qed.
Definition book (h : Qc) (i : Z) : q3 :=
  match i with 0 => (0, 0, 0)%Qc | 1 => (0, 0, h)%Qc | 2 => (1, 0, 0)%Qc | 3 => (0, 1, 0)%Qc | 4 => (- (1), 0, 0)%Qc | _ => (0, - (1), 0)%Qc end.
Definition book_N (i : Z) : q3 := match i with 0 => (0, - (1), 0)%Qc | 1 => (- (1), 0, 0)%Qc | 2 => (0, 1, 0)%Qc | _ => (1, 0, 0)%Qc end.
Definition book_faces : list (Z * list loop) := [(0, [[1; 0; 2]]); (1, [[0; 1; 3]]); (2, [[1; 0; 4]]); (3, [[0; 1; 5]])].
Definition fedges (faces : list (Z * list loop)) : list (Z * edge) := flat_map (fun '(f, ls) => flat_map (fun C => map (pair f) (cyc_pairs C)) ls) faces.
Lemma fedges_In faces f e : face_edge faces f e <-> In (f, e) (fedges faces).
Proof.
  unfold fedges. rewrite in_flat_map. split.
  - intros (l & C & H & HC & K). exists (f, l). split; auto. apply in_flat_map. exists C. split; auto. apply in_map_iff. exists e. split; auto.
    destruct e; apply cyc_next_iff; auto.
  - intros ([g l] & H & HC). apply in_flat_map in HC as (C & HC & K). apply in_map_iff in K as (e' & [= -> ->] & K).
    exists l, C. split; auto. split; auto. destruct e; apply cyc_next_iff; auto.
Qed.
Example book_plain : plain_faces book_faces.
Proof.
  split; [repeat constructor; simpl; lia|]. intros f l H. simpl in H. split; [|split; [|split]].
  - destruct H as [[= <- _]|[[= <- _]|[[= <- _]|[[= <- _]|[]]]]]; lia.
  - intros ->. destruct H as [[=]|[[=]|[[=]|[[=]|[]]]]].
  - intros C HC. destruct H as [[= _ <-]|[[= _ <-]|[[= _ <-]|[[= _ <-]|[]]]]]; destruct HC as [<-|[]]; (split; [repeat constructor; simpl; lia|simpl; lia]).
  - intros a b. rewrite !fedges_In. unfold fedges, book_faces. cbn. intros A B.
    repeat (destruct A as [A|A]; [injection A as <- <- <-; repeat (destruct B as [B|B]; [discriminate B|]); destruct B|]). destruct A.
Qed.
(** decidable sufficient conditions, checked by evaluation *)
Definition flat_check (V N : Z -> q3) (faces : list (Z * list loop)) : bool :=
  forallb (fun '(f, e) => qeqb (dot (N f) (vsub (V (snd e)) (V (fst e)))) 0 && qltb 0 (dot (N f) (N f))) (fedges faces) &&
  forallb (fun '(f, e) => forallb (fun '(g, e') => (f =? g) || negb (edge_eqb e e' || edge_eqb e (swap_edge e')) ||
     (qltb 0 (dot (into V N f e) (into V N f e)) && negb (qltb 0 (dot (into V N f e) (into V N g e'))))) (fedges faces)) (fedges faces).
Lemma flat_check_ok V N faces : flat_check V N faces = true -> flat_faces V N faces.
Proof.
  intros H. apply andb_true_iff in H as [H1 H2]. rewrite forallb_forall in H1, H2. split.
  - intros f a b Hf. apply fedges_In in Hf. specialize (H1 _ Hf). cbv beta iota in H1. apply andb_true_iff in H1 as [H1 H3]. apply qeqb_eq in H1. apply qltb_lt in H3.
    split; auto. intros E. rewrite E in H3. revert H3. apply Qcle_not_lt. discriminate.
  - intros f g a b s t Hf Hg NE (k & Hk & E). apply fedges_In in Hf, Hg. specialize (H2 _ Hf). cbv beta iota in H2. rewrite forallb_forall in H2. specialize (H2 _ Hg). cbv beta iota in H2.
    rewrite !orb_true_iff in H2. destruct H2 as [[H2|H2]|H2].
    + apply Z.eqb_eq in H2. auto.
    + assert (EE : edge_eqb (along s a b) (along t a b) || edge_eqb (along s a b) (swap_edge (along t a b)) = true).
      { apply orb_true_iff. destruct s, t; cbn [along swap_edge]; [left|right|right|left]; apply edge_eqb_eq; auto. }
      rewrite EE in H2. discriminate.
    + apply andb_true_iff in H2 as [H2 H3]. apply qltb_lt in H2. apply negb_true_iff, qltb_ge in H3. revert H3. apply Qclt_not_le. rewrite E.
      replace (dot (into V N f (along s a b)) (vscale k (into V N f (along s a b)))) with (k * dot (into V N f (along s a b)) (into V N f (along s a b)))%Qc; [apply mul_pos; auto|].
      destruct (into V N f (along s a b)) as [[x y] z]. unfold dot, vscale. ring.
Qed.
Example book_flat : flat_faces (book 1) book_N book_faces.
Proof. apply flat_check_ok. vm_compute. reflexivity. Qed.
Example book_long : long_edges (book 1) book_faces.
Proof.
  intros f a b H. apply fedges_In in H.
  assert (G : forallb (fun '(_, (a, b)) => negb (qltb (dot (vsub (book 1 b) (book 1 a)) (vsub (book 1 b) (book 1 a))) tiny_sq)) (fedges book_faces) = true) by (vm_compute; reflexivity).
  rewrite forallb_forall in G. specialize (G _ H). cbv beta iota in G. apply negb_true_iff, qltb_ge in G. auto.
Qed.
Definition book_cells (h : Qc) (k : option Z) : cells :=
  collapse ex_link (around_order (fun l => l) (fun _ => k) (fun v => v) ray_cyc (book h) book_N (cc_hf (cc_build book_faces))) false book_faces.
(** four wedges, each between two neighbouring pages *)
Example c129_book : cl_bnd (book_cells 1 None) = [[(0, true); (3, true)]; [(0, false); (1, false)]; [(1, true); (2, true)]; [(2, false); (3, false)]] /\
  share_a_wedge_chain false (book 1) book_N book_faces (0, false) (1, false) /\ ~ share_a_wedge_chain false (book 1) book_N book_faces (0, true) (2, false).
Proof.
  split; [vm_compute; reflexivity|].
  assert (FE : forall f s a b, In (f, along s a b) (fedges book_faces) -> face_edge book_faces f (along s a b)) by (intros; apply fedges_In; auto).
  assert (NM : normalizes (fun v => v)) by (intros v _; exists 1%Qc; split; [reflexivity|symmetry; apply vscale_1]).
  assert (T := c129_cells_are_wedge_components ex_link (fun l => l) (fun _ => None) (fun v => v) ray_cyc (book 1) book_N false book_faces (fun l => Permutation_refl l) NM ray_cyc_ok
     book_plain book_flat (c129_long_edges_usable _ _ _ book_long)). cbv zeta in T. fold (book_cells 1 None) in T. split.
  - apply (T 0 0 1 false 1 1 0 false); [apply FE; vm_compute; tauto|apply FE; vm_compute; tauto|vm_compute; reflexivity].
  - intros H. apply (T 0 1 0 true 2 0 1 false) in H; [|apply FE; vm_compute; tauto|apply FE; vm_compute; tauto]. revert H. vm_compute. discriminate.
Qed.

(** *** edges shorter than 1e-8. The axis comes from the eigenvectors of the sum of N N^T over the faces that run along the edge in its
    stored direction only; nothing ties it to the edge. *)
(** k is the axis of largest component of an eigenvector v of the smallest eigenvalue of the sum of n n^T *)
Definition quad (Ns : list q3) (w : q3) : Qc := fold_right (fun n acc => dot n w * dot n w + acc)%Qc 0%Qc Ns.
Definition mulA (Ns : list q3) (w : q3) : q3 := fold_right (fun n acc => vadd (vscale (dot n w) n) acc) (0, 0, 0)%Qc Ns.
Definition eigen_axis (Ns : list q3) (k : Z) : Prop :=
  exists v l, v <> (0, 0, 0)%Qc /\ mulA Ns v = vscale l v /\ (forall w, l * dot w w <= quad Ns w)%Qc /\
    0 <= k < 3 /\ forall j, 0 <= j < 3 -> (sq (comp3 v j) <= sq (comp3 v k))%Qc.
Definition nano : Qc := Q2Qc (1 # 1000000000).
Theorem c129_tiny_edge_refuted : exists eig,
  (forall Ns k, eig Ns = Some k -> eigen_axis Ns k) /\ plain_faces book_faces /\ flat_faces (book nano) book_N book_faces /\
  (forall f a b, face_edge book_faces f (a, b) -> book nano a <> book nano b) /\
  let r := collapse ex_link (around_order (fun l => l) eig (fun v => v) ray_cyc (book nano) book_N (cc_hf (cc_build book_faces))) false book_faces in
  exists f a b s f' a' b' s', face_edge book_faces f (along s a b) /\ face_edge book_faces f' (along s' a' b') /\
    cell_id (cl_hf r) (f, (a, b)) = cell_id (cl_hf r) (f', (a', b')) /\
    ~ share_a_wedge_chain false (book nano) book_N book_faces (f, s) (f', s').
Proof.
  set (NN := [book_N 1; book_N 3]).
  exists (fun Ns => if forallb (fun '(a, b) => qeqb (fst (fst a)) (fst (fst b)) && qeqb (snd (fst a)) (snd (fst b)) && qeqb (snd a) (snd b)) (combine Ns NN) && (length Ns =? 2)%nat then Some 1 else None).
  assert (FL : flat_faces (book nano) book_N book_faces) by (apply flat_check_ok; vm_compute; reflexivity).
  assert (DI : forall f a b, face_edge book_faces f (a, b) -> book nano a <> book nano b).
  { intros f a b H. apply fedges_In in H.
    assert (G : forallb (fun '(_, (a, b)) => qltb 0 (dot (vsub (book nano b) (book nano a)) (vsub (book nano b) (book nano a)))) (fedges book_faces) = true) by (vm_compute; reflexivity).
    rewrite forallb_forall in G. specialize (G _ H). cbv beta iota in G. apply qltb_lt in G. intros E. rewrite E in G. revert G. apply Qcle_not_lt.
    destruct (book nano b) as [[x y] z]. replace (dot (vsub (x, y, z) (x, y, z)) (vsub (x, y, z) (x, y, z))) with 0%Qc by (unfold vsub, vadd, vneg, dot; ring). apply Qcle_refl. }
  split; [|split; [apply book_plain|split; [auto|split; [auto|]]]].
  - intros Ns k. destruct (_ && _) eqn:E; [|discriminate]. intros [= <-]. apply andb_true_iff in E as [E1 E2]. apply Nat.eqb_eq in E2.
    destruct Ns as [|n1 [|n2 [|]]]; try discriminate. cbn [combine NN forallb] in E1. rewrite !andb_true_iff, !qeqb_eq in E1.
    destruct n1 as [[x1 y1] z1], n2 as [[x2 y2] z2]. cbn [fst snd book_N] in E1. destruct E1 as (((-> & ->) & ->) & ((-> & ->) & ->) & _).
    exists (0, 1, 0)%Qc, 0%Qc. split; [intros E; discriminate (f_equal (fun v : q3 => this (snd (fst v))) E)|]. split; [|split; [|split; [lia|]]].
    + unfold mulA, vscale, vadd, dot; cbn [fold_right]. vm_compute; repeat f_equal; try reflexivity; apply Qc_is_canon; reflexivity.
    + intros [[a b] c]. unfold quad, dot; cbn [fold_right]. assert (S : forall q : Qc, (0 <= q * q)%Qc) by (intros q; destruct (qlt_cases q) as [Q|[Q|Q]]; [apply Qclt_le_weak, mul_nn; auto|rewrite Q; discriminate|apply Qclt_le_weak, mul_pos; auto]).
      assert (A := S a). qc_lra.
    + intros j Hj. assert (j = 0 \/ j = 1 \/ j = 2) as [ -> |[ -> | -> ]] by lia; vm_compute; discriminate.
  - assert (FE : forall f s a b, In (f, along s a b) (fedges book_faces) -> face_edge book_faces f (along s a b)) by (intros; apply fedges_In; auto).
    exists 0, 1, 0, true, 2, 0, 1, false. split; [apply FE; vm_compute; tauto|]. split; [apply FE; vm_compute; tauto|]. split; [vm_compute; reflexivity|].
    assert (NM : normalizes (fun v => v)) by (intros v _; exists 1%Qc; split; [reflexivity|symmetry; apply vscale_1]).
    assert (UE : usable_edges (fun _ => None) (book nano) book_faces) by (intros f a b H; split; [eapply DI; eauto|right; intros ? ? E; discriminate E]).
    assert (T := c129_cells_are_wedge_components ex_link (fun l => l) (fun _ => None) (fun v => v) ray_cyc (book nano) book_N false book_faces (fun l => Permutation_refl l) NM ray_cyc_ok
       book_plain FL UE). cbv zeta in T. fold (book_cells nano None) in T.
    intros H. apply (T 0 1 0 true 2 0 1 false) in H; [|apply FE; vm_compute; tauto|apply FE; vm_compute; tauto]. revert H. vm_compute. discriminate.
Qed.
Print Assumptions c129_cells_are_wedge_components.
Print Assumptions c129_tiny_edge_refuted.
