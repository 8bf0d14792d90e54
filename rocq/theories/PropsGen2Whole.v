(** C133: the planar cut-cell mesh as a whole.  Under a description of what the half-edge mesh library returns (a subdivision of the plane by the cut edges) the generated mesh is
    defined, its cells are the faces inside cut grid cells, and every cut edge has one cell on each side, with opposite signs. *)
From Verif Require Import Base Num CoordMask CoordMaskProofs Vertex VertexSpec VertexProofs Grid SmallestEdge AdaptiveGrid Mesh ExteriorGrid ExteriorProofs PropsExterior Sparse Mesh2 PropsMesh2
  ActiveMask ExternalBoundary PropsExternal DisjointSet Volume PropsTriang Gen2 PropsGen2 Regions2 PropsRegions2 Gen2Whole.
Set Implicit Arguments.
Local Open Scope Z_scope.

(** * Specification *)
(** the face f of the half-edge mesh lies in the cut grid cell c, which is on the left of those of its sides that lie on a grid line *)
Definition in_cut_cell (m : mesh2) (c : coord) (f : list (list Z)) : Prop :=
  in_shape (m2_cells m) c = true /\ m2_mask m c = false /\ (forall j, In j (concat f) -> in_closed_cell c (pos (AV m j))) /\ (0 < twice_area2 (AV m) f)%Qc /\
  forall a b d k, In (a, b) (face_sides f) -> only_plane (AV m) [a; b] d k -> PropsExternal.left_of (pos (AV m a)) (pos (AV m b)) (cell_center c).
(** the face is the outside of the cut cells or a region of uncut ones: its sides lie on grid lines, and the grid cells on their left, where the face is, are uncut.
    Such a face must be recognisable: it is the outer face (clockwise, of area below -1/2), or the lower corner of its bounding box is an uncut cell. *)
Definition outside_cut (m : mesh2) (f : list (list Z)) : Prop :=
  (exists c, lower_corner (AV m) f c /\ in_shape (m2_cells m) c = true /\ ((twice_area2 (AV m) f < - (1))%Qc \/ m2_mask m c = true)) /\
  forall a b, In (a, b) (face_sides f) -> (exists d k, only_plane (AV m) [a; b] d k) /\
    forall c, holds (AV m) [a; b] c -> PropsExternal.left_of (pos (AV m a)) (pos (AV m b)) (cell_center c) -> in_shape (m2_cells m) c = true -> m2_mask m c = true.
(** m: the vertices and cut edges; mf: the faces the half-edge mesh finds *)
Record subdivision (m : mesh2) (mf : list (Z * list (list Z))) : Prop := {
  sd_shape : length (m2_cells m) = 2%nat /\ pos_shape (m2_cells m);
  (* a cut edge is a segment inside a cut cell of the grid *)
  sd_edge : forall e a b, In e (m2_edges m) -> e2_ix e = (a, b) -> verts_ok 2 (AV m) [a; b] /\ pos (AV m a) <> pos (AV m b) /\
    exists c, in_shape (m2_cells m) c = true /\ m2_mask m c = false /\ holds (AV m) [a; b] c;
  (* pieces of grid lines run in increasing direction; pieces of input edges have only cut cells at them *)
  sd_dir : forall e a b, In e (m2_edges m) -> e2_ix e = (a, b) -> increasing (AV m) a b \/ (forall c, holds (AV m) [a; b] c -> in_shape (m2_cells m) c = true -> m2_mask m c = false);
  sd_parallel : no_parallel (map e2_ix (m2_edges m));
  (* the sides of the faces are the cut edges in both directions, each once, and no face is on both sides of an edge *)
  sd_half : NoDup (flat_map (fun p => face_sides (snd p)) mf);
  sd_both : forall a b, (exists p, In p mf /\ In (a, b) (face_sides (snd p))) <-> exists e, joins (map e2_ix (m2_edges m)) e a b;
  sd_bridge : forall i f, In (i, f) mf -> uses_once f;
  sd_face : forall i f, In (i, f) mf -> f <> [] -> face_ok (AV m) f /\ ((exists c, in_cut_cell m c f) \/ outside_cut m f) }.

(** * Geometry of one edge *)
Section Edge.
  Variables (V : Z -> vertex) (a b : Z).
  Hypothesis OK : verts_ok 2 V [a; b].
  Hypothesis NE : pos (V a) <> pos (V b).

  Lemma edge_pos : exists p0 p1 q0 q1, pos (V a) = [p0; p1] /\ pos (V b) = [q0; q1].
  Proof.
    destruct (OK (i := a) ltac:(cbn; auto)) as [Wi _]. destruct (OK (i := b) ltac:(cbn; auto)) as [Wj _]. apply pos_length in Wi. apply pos_length in Wj.
    destruct (pos (V a)) as [|p0 [|p1 [|? ?]]]; try discriminate. destruct (pos (V b)) as [|q0 [|q1 [|? ?]]]; try discriminate. do 4 eexists; eauto.
  Qed.
  Lemma plane_pair d k : on_plane V [a; b] d k <-> nth_error (pos (V a)) d = Some (Z2Qc k) /\ nth_error (pos (V b)) d = Some (Z2Qc k).
  Proof. split; [intros H; split; apply H; cbn; auto|]. intros [H1 H2] i [<-|[<-|[]]]; auto. Qed.
  Lemma one_plane d d' k k' : on_plane V [a; b] d k -> on_plane V [a; b] d' k' -> d' = d.
  Proof.
    rewrite !plane_pair. intros [A1 A2] [B1 B2]. destruct (Nat.eq_dec d' d) as [|N]; auto. exfalso. apply NE. destruct edge_pos as (p0 & p1 & q0 & q1 & EA & EB). rewrite EA, EB in *.
    destruct d as [|[|d]]; [| |destruct d; discriminate]; (destruct d' as [|[|d']]; [| |destruct d'; discriminate]); try congruence; cbn in *; apply Some_inj in A1, A2, B1, B2; congruence.
  Qed.
  Lemma plane_only d k : on_plane V [a; b] d k -> only_plane V [a; b] d k.
  Proof. intros H. split; auto. intros d' k' H'. eapply one_plane; eauto. Qed.

  (** inside one cell, or between the two cells next to a grid line *)
  Lemma edge_cases c0 : holds V [a; b] c0 ->
    ((forall d k, ~ on_plane V [a; b] d k) /\ forall c, holds V [a; b] c -> c = c0) \/
    (exists d k lo hi, (d < 2)%nat /\ only_plane V [a; b] d k /\ across 2 d k lo hi /\ holds V [a; b] lo /\ holds V [a; b] hi /\ forall c, holds V [a; b] c <-> c = lo \/ c = hi).
  Proof.
    intros H0. assert (L0 : length c0 = 2%nat) by (eapply holds_length; eauto; cbn; auto).
    assert (DEC : (exists d k, on_plane V [a; b] d k) \/ forall d k, ~ on_plane V [a; b] d k).
    { assert (AX : forall d, (exists k, on_plane V [a; b] d k) \/ forall k, ~ on_plane V [a; b] d k).
      { intros d. destruct (nth_error (pos (V a)) d) as [p|] eqn:EA; [|right; intros k H; apply plane_pair in H as [H _]; congruence].
        destruct (nth_error (pos (V b)) d) as [q|] eqn:EB; [|right; intros k H; apply plane_pair in H as [_ H]; congruence].
        destruct (Qc_eq_dec p (Z2Qc (qfloor p))) as [E1|E1].
        - destruct (Qc_eq_dec q p) as [E2|E2]; [left; exists (qfloor p); apply plane_pair; split; rewrite ?EA, ?EB; f_equal; congruence|].
          right. intros k H. apply plane_pair in H as [H1 H2]. rewrite EA in H1. rewrite EB in H2. apply Some_inj in H1, H2. congruence.
        - right. intros k H. apply plane_pair in H as [H1 H2]. rewrite EA in H1. apply Some_inj in H1. apply E1. rewrite H1 at 1. f_equal. symmetry. apply qfloor_unique; rewrite H1; [apply Qcle_refl|]. qc_lra. }
      destruct (AX 0%nat) as [(k & H)|N0]; [eauto|]. destruct (AX 1%nat) as [(k & H)|N1]; [eauto|]. right. intros [|[|d]] k H; [eapply N0|eapply N1|]; eauto.
      apply plane_pair in H as [H _]. destruct edge_pos as (p0 & p1 & q0 & q1 & EA & _). rewrite EA in H. destruct d; discriminate. }
    destruct DEC as [(d & k & HP)|NP]; [right|left].
    - assert (PL := plane_only HP). assert (HD : (d < 2)%nat) by (eapply plane_axis; eauto; exists a; cbn; auto). exists d, k.
      assert (AC : exists lo hi, across 2 d k lo hi /\ (c0 = lo \/ c0 = hi)).
      { assert (X : exists x, nth_error c0 d = Some x /\ (x = k \/ x = k - 1)).
        { destruct (@holds_axis V [a; b] 2 c0 a OK H0 ltac:(cbn; auto) d (Z2Qc k)) as (x & Hx & R); [apply HP; cbn; auto|]. exists x. split; auto.
          destruct R as [R1 R2]. assert (x <= k) by (apply Z2Qc_le; auto). assert (k <= x + 1) by (apply Z2Qc_le; rewrite Z2Qc_plus, Z2Qc_1; auto). lia. }
        destruct X as (x & Hx & X). destruct c0 as [|x0 [|x1 [|? ?]]]; try discriminate. destruct d as [|[|d]]; [| |lia]; cbn in Hx; injection Hx as ->.
        - exists [k - 1; x1], [k; x1]. split; [|destruct X; subst; auto]. do 4 (split; [reflexivity|]). intros [|j]; [congruence|reflexivity].
        - exists [x0; k - 1], [x0; k]. split; [|destruct X; subst; auto]. do 4 (split; [reflexivity|]). intros [|[|j]] N; [reflexivity|congruence|reflexivity]. }
      destruct AC as (lo & hi & AC & E). exists lo, hi. assert (B := holds_across PL AC). assert (HH : holds V [a; b] lo /\ holds V [a; b] hi) by (destruct E; subst; tauto).
      destruct HH as [HL HH]. do 5 (split; auto). intros c. eapply holds_only; eauto. exists a; cbn; auto.
    - split; auto. intros c HC. assert (LC : length c = 2%nat) by (eapply holds_length; eauto; cbn; auto). apply nth_error_ext. intros j.
      destruct (nth_error c j) as [x|] eqn:EX, (nth_error c0 j) as [y|] eqn:EY; auto.
      2:{ apply nth_error_None in EY. apply nth_error_Some_lt in EX. unfold coord in *. lia. } 2:{ apply nth_error_None in EX. apply nth_error_Some_lt in EY. unfold coord in *. lia. }
      f_equal. assert (AX : forall i p, In i [a; b] -> nth_error (pos (V i)) j = Some p -> (Z2Qc x <= p /\ p <= Z2Qc x + 1)%Qc /\ (Z2Qc y <= p /\ p <= Z2Qc y + 1)%Qc).
      { intros i p Hi Hp. destruct (@holds_axis V [a; b] 2 c i OK HC Hi j p Hp) as (x' & X1 & X2). destruct (@holds_axis V [a; b] 2 c0 i OK H0 Hi j p Hp) as (y' & Y1 & Y2).
        rewrite EX in X1. rewrite EY in Y1. injection X1 as <-. injection Y1 as <-. auto. }
      assert (DEF : forall i, In i [a; b] -> exists p, nth_error (pos (V i)) j = Some p).
      { intros i Hi. apply nth_error_lt. destruct (OK Hi) as [W _]. rewrite (pos_length _ _ W). apply nth_error_Some_lt in EX. unfold coord in *. lia. }
      destruct (Z.lt_trichotomy x y) as [L|[?|L]]; auto; exfalso.
      + apply (NP j y). intros i Hi. destruct (DEF i Hi) as [p Hp]. rewrite Hp. f_equal. destruct (AX i p Hi Hp) as [R1 R2]. apply (unit_pair R1 R2 L).
      + apply (NP j x). intros i Hi. destruct (DEF i Hi) as [p Hp]. rewrite Hp. f_equal. destruct (AX i p Hi Hp) as [R1 R2]. apply (unit_pair R2 R1 L).
  Qed.
End Edge.

Lemma mul_half_pos x : (0 < x * qhalf)%Qc <-> (0 < x)%Qc.
Proof.
  split; intros H; [|apply Qcmult_pos; auto; reflexivity]. destruct (Qclt_le_dec 0 x) as [|G]; auto. exfalso. apply (Qclt_not_le _ _ H).
  replace 0%Qc with (0 * qhalf)%Qc by ring. apply Qcmult_le_compat_r; auto. discriminate.
Qed.
(** exactly one of the two cells is on the left of a -> b, and the other one on the left of b -> a *)
Lemma left_cell V a b d k lo hi : verts_ok 2 V [a; b] -> pos (V a) <> pos (V b) -> only_plane V [a; b] d k -> across 2 d k lo hi ->
  let L p q c := PropsExternal.left_of (pos (V p)) (pos (V q)) (cell_center c) in
  (L a b lo /\ ~ L a b hi /\ L b a hi /\ ~ L b a lo) \/ (L a b hi /\ ~ L a b lo /\ L b a lo /\ ~ L b a hi).
Proof.
  intros OK NE PL AC L. destruct (edge_pos OK NE) as (p0 & p1 & q0 & q1 & EA & EB). destruct PL as [HP _]. apply plane_pair in HP as [H1 H2]. destruct AC as (L1 & L2 & E1 & E2 & EQ).
  unfold L; clear L. rewrite EA, EB in *. destruct lo as [|l0 [|l1 [|? ?]]]; try discriminate. destruct hi as [|h0 [|h1 [|? ?]]]; try discriminate. unfold PropsExternal.left_of, cell_center. cbn [map].
  assert (TRI : forall x y : Qc, x <> y -> (x < y)%Qc \/ (y < x)%Qc). { intros x y N. destruct (Qc_dec x y) as [[?|?]|?]; auto. congruence. }
  destruct d as [|[|d]]; [| |destruct d; discriminate]; cbn in H1, H2, E1, E2; apply Some_inj in H1, H2; subst; injection E1 as ->; injection E2 as ->.
  - assert (EE := EQ 1%nat ltac:(lia)). cbn in EE. injection EE as ->. assert (N : p1 <> q1) by congruence. rewrite !Z2Qc_minus, !Z2Qc_1.
    replace ((Z2Qc k - Z2Qc k) * (Z2Qc h1 + qhalf - p1) - (q1 - p1) * (Z2Qc k - 1 + qhalf - Z2Qc k))%Qc with ((q1 - p1) * (1 - qhalf))%Qc by ring.
    replace ((Z2Qc k - Z2Qc k) * (Z2Qc h1 + qhalf - p1) - (q1 - p1) * (Z2Qc k + qhalf - Z2Qc k))%Qc with ((p1 - q1) * qhalf)%Qc by ring.
    replace ((Z2Qc k - Z2Qc k) * (Z2Qc h1 + qhalf - q1) - (p1 - q1) * (Z2Qc k - 1 + qhalf - Z2Qc k))%Qc with ((p1 - q1) * (1 - qhalf))%Qc by ring.
    replace ((Z2Qc k - Z2Qc k) * (Z2Qc h1 + qhalf - q1) - (p1 - q1) * (Z2Qc k + qhalf - Z2Qc k))%Qc with ((q1 - p1) * qhalf)%Qc by ring.
    replace (1 - qhalf)%Qc with qhalf by (apply Qc_is_canon; reflexivity). rewrite !mul_half_pos. destruct (TRI _ _ N) as [T|T]; [left|right]; repeat split; intros; qc_lra.
  - assert (EE := EQ 0%nat ltac:(lia)). cbn in EE. injection EE as ->. assert (N : p0 <> q0) by congruence. rewrite !Z2Qc_minus, !Z2Qc_1.
    replace ((q0 - p0) * (Z2Qc k - 1 + qhalf - Z2Qc k) - (Z2Qc k - Z2Qc k) * (Z2Qc h0 + qhalf - p0))%Qc with ((p0 - q0) * (1 - qhalf))%Qc by ring.
    replace ((q0 - p0) * (Z2Qc k + qhalf - Z2Qc k) - (Z2Qc k - Z2Qc k) * (Z2Qc h0 + qhalf - p0))%Qc with ((q0 - p0) * qhalf)%Qc by ring.
    replace ((p0 - q0) * (Z2Qc k - 1 + qhalf - Z2Qc k) - (Z2Qc k - Z2Qc k) * (Z2Qc h0 + qhalf - q0))%Qc with ((q0 - p0) * (1 - qhalf))%Qc by ring.
    replace ((p0 - q0) * (Z2Qc k + qhalf - Z2Qc k) - (Z2Qc k - Z2Qc k) * (Z2Qc h0 + qhalf - q0))%Qc with ((p0 - q0) * qhalf)%Qc by ring.
    replace (1 - qhalf)%Qc with qhalf by (apply Qc_is_canon; reflexivity). rewrite !mul_half_pos. destruct (TRI _ _ N) as [T|T]; [right|left]; repeat split; intros; qc_lra.
Qed.

(** * The pieces of generation *)
Lemma sequence_defined (A B : Type) (f : A -> option B) l : (forall a, In a l -> f a <> None) -> exists r, sequence (map f l) = Some r.
Proof.
  induction l as [|a l IH]; intros H; cbn [map sequence]; [eauto|]. destruct (f a) as [b|] eqn:E; [|exfalso; apply (H a); cbn; auto].
  destruct IH as [r ->]; [intros; apply H; cbn; auto|]. cbn. eauto.
Qed.
Lemma NoDup_app_split (A : Type) (u v : list A) : NoDup (u ++ v) -> NoDup u /\ NoDup v /\ forall x, In x u -> ~ In x v.
Proof.
  induction u as [|y u IH]; intros H; [split; [constructor|split; [auto|intros ? []]]|]. inversion H as [|? ? N H']; subst. destruct (IH H') as (H1 & H2 & H3).
  split; [constructor; auto; intros I; apply N, in_or_app; auto|]. split; auto. intros z [<-|Hz]; auto. intros Hv. apply N, in_or_app. auto.
Qed.
Lemma NoDup_app_join (A : Type) (u v : list A) : NoDup u -> NoDup v -> (forall x, In x u -> ~ In x v) -> NoDup (u ++ v).
Proof.
  induction u as [|y u IH]; intros H1 H2 H3; cbn; auto. inversion H1; subst. constructor; [|apply IH; auto; intros; apply H3; cbn; auto].
  intros I. apply in_app_or in I as [I|I]; auto. apply (H3 y); cbn; auto.
Qed.
Lemma NoDup_flat_filter (A B : Type) (g : A -> list B) (p : A -> bool) l : NoDup (flat_map g l) -> NoDup (flat_map g (filter p l)).
Proof.
  induction l as [|a l IH]; intros H; cbn in *; auto. apply NoDup_app_split in H as (H1 & H2 & H3). destruct (p a); cbn; auto. apply NoDup_app_join; auto.
  intros x Hx I. apply (H3 x Hx). apply in_flat_map in I as (y & Y & I). apply filter_In in Y as [Y _]. apply in_flat_map. eauto.
Qed.
Lemma flat_map_map (A B C : Type) (g : B -> list C) (h : A -> B) l : flat_map g (map h l) = flat_map (fun a => g (h a)) l.
Proof. induction l as [|a l IH]; cbn; congruence. Qed.

Lemma with_ext_ix base l r : Forall2 (fun a b => with_ext base a = Some b) l r -> map e2_ix r = map e2_ix l.
Proof.
  induction 1 as [|x y l r H F IH]; cbn; auto. f_equal; auto. unfold with_ext in H. destruct (boundary_pair2 _ _ _ _); [|discriminate]. cbn in H. apply Some_inj in H. subst. reflexivity.
Qed.
Section Whole.
  Variables (base : mesh2) (mf : list (Z * list (list Z))).
  Hypothesis SD : subdivision base mf.
  Let V := AV base.
  Let s := m2_cells base.
  Let act := m2_mask base.
  Let es := map e2_ix (m2_edges base).

  Lemma cut_lower c f : face_ok V f -> in_cut_cell base c f -> forall c', lower_corner V f c' <-> c' = c.
  Proof. intros OK (_ & _ & H & A & _). apply c105_cell; auto. intros E. unfold V in E. rewrite E in A. revert A. apply Qclt_not_eq || (intros A; exact (Qclt_not_eq _ _ A eq_refl)). Qed.

  Lemma keep_defined i f : In (i, f) mf -> keep_face2 s act V f <> None.
  Proof.
    intros I. unfold keep_face2. destruct f as [|l f']; [discriminate|]. set (f := l :: f') in *. destruct (sd_face SD i I) as [OK X]; [discriminate|].
    destruct (face_cells_low OK) as (c & E & L). unfold is_boundary_facet2. fold V in E. unfold V in *. rewrite E. fold V.
    assert (IS : in_shape s c = true). { destruct X as [(c0 & X)|((c0 & L0 & S0 & _) & _)]; [assert (c = c0) by (apply (cut_lower OK X); auto); subst; apply X|rewrite (lower_unique L L0); auto]. }
    unfold s in *. rewrite IS. discriminate.
  Qed.
  Lemma faces_defined : exists fs, gen_faces2 s act V mf = Some fs.
  Proof.
    assert (G : forall l, incl l mf -> exists fs, gen_faces2 s act V l = Some fs).
    { induction l as [|[i f] l IH]; intros I; cbn [gen_faces2]; [eauto|]. assert (D := @keep_defined i f (I (i, f) ltac:(cbn; auto))). destruct (keep_face2 s act V f) as [b|]; [|congruence].
      destruct IH as [r ->]; [intros x Hx; apply I; cbn; auto|]. eauto. }
    apply G, incl_refl.
  Qed.
  Lemma kept_faces fs : gen_faces2 s act V mf = Some fs ->
    exists keep, fs = map snd (filter keep mf) /\ forall i f, In (i, f) mf -> (keep (i, f) = true <-> f <> [] /\ exists c, in_cut_cell base c f).
  Proof.
    intros G. destruct (@c105_faces s act V mf fs) as (keep & E & K); [intros i f I N; apply (sd_face SD i I N)|auto|]. exists keep. split; auto. intros i f I. rewrite K by auto. split.
    - intros (N & A & c & L & C). split; auto. destruct (sd_face SD i I N) as [OK [X|((c0 & L0 & _ & B) & _)]]; auto. exfalso. fold V in L0. rewrite <- (lower_unique L L0) in B.
      destruct B as [B|B]; [apply (Qclt_not_le _ _ B); auto|]. unfold act in C. congruence.
    - intros (N & c & X). split; auto. destruct (sd_face SD i I N) as [OK _]. split; [|exists c; split; [apply (cut_lower OK X); auto|apply X]].
      destruct X as (_ & _ & _ & A & _). fold V in A. apply Qclt_le_weak in A. eapply Qcle_trans; [|exact A]. discriminate.
  Qed.
  Lemma kept_In fs f : gen_faces2 s act V mf = Some fs -> (In f fs <-> f <> [] /\ (exists i, In (i, f) mf) /\ exists c, in_cut_cell base c f).
  Proof.
    intros G. destruct (kept_faces G) as (keep & -> & K). rewrite in_map_iff. split.
    - intros ([i f'] & E & H). cbn in E. subst f'. apply filter_In in H as [I H]. apply K in H as [N X]; eauto.
    - intros (N & (i & I) & X). exists (i, f). split; auto. apply filter_In. split; auto. apply K; auto.
  Qed.
  Lemma kept_nodup fs : gen_faces2 s act V mf = Some fs -> NoDup (flat_map face_sides fs).
  Proof. intros G. destruct (kept_faces G) as (keep & -> & _). rewrite flat_map_map. apply NoDup_flat_filter, (sd_half SD). Qed.
  Lemma kept_ok fs f : gen_faces2 s act V mf = Some fs -> In f fs -> face_ok V f /\ uses_once f.
  Proof. intros G I. apply (kept_In _ G) in I as (N & (i & I) & _). split; [apply (sd_face SD i I N)|apply (sd_bridge SD i f I)]. Qed.

  Lemma own_defined fs : (forall f, In f fs -> face_ok V f) -> exists own, ownership2 s V fs = Some own.
  Proof.
    intros OK. unfold ownership2. generalize (zrange 0 (length fs)) as ks. intros ks. assert (G : forall l m, (forall p, In p l -> face_ok V (snd p)) -> exists own, fold_left (own_step s V) l (Some m) = Some own).
    { induction l as [|[k f] l IH]; intros m H; cbn [fold_left]; [eauto|]. destruct (face_cells_low (H (k, f) ltac:(cbn; auto))) as (c & E & _). unfold own_step at 2. cbn [snd] in *. rewrite E.
      apply IH. intros p Hp. apply H. cbn; auto. }
    apply G. intros [k f] H. apply in_combine_r in H. auto.
  Qed.
  Lemma fbm_defined fs : gen_faces2 s act V mf = Some fs -> exists fbm, face_boundary_map2 es fs = Some fbm.
  Proof.
    intros G. unfold face_boundary_map2. assert (H : forall f, In f fs -> face_map2 es f <> None).
    { intros f I. apply c106_defined. intros a b HS. apply (sd_both SD). apply (kept_In _ G) in I as (_ & (i & I) & _). exists (i, f). auto. }
    clear G. generalize 0. induction fs as [|f fs IH]; intros i; cbn [fbm_from]; [eauto|]. destruct (face_map2 es f) as [fm|] eqn:E; [|exfalso; apply (H f); cbn; auto].
    destruct (IH (fun f I => H f (or_intror I)) (i + 1)) as [r ->]. eauto.
  Qed.

  (** the external boundary of a cut edge *)
  Lemma ext_plain a b c0 : verts_ok 2 V [a; b] -> holds V [a; b] c0 -> (forall c, holds V [a; b] c -> c = c0) -> boundary_pair2 s act V [a; b] = Some None.
  Proof.
    intros OK H U. unfold boundary_pair2. destruct (@geometry_defined V [a; b]) as [S ES]; [discriminate|]. rewrite ES.
    assert (E : S = [c0]). { apply (ssorted_ext zlex_total); [eapply geometry_sorted; eauto|repeat constructor|]. intros x. rewrite (@geometry_cells_spec V 2 [a; b] S) by eauto.
      split; [intros X; left; symmetry; apply U; exact X|intros [<-|[]]; exact H]. }
    rewrite E. reflexivity.
  Qed.
  Lemma across_shape d k lo hi n c0 : across 2 d k lo hi -> c0 = lo \/ c0 = hi -> in_shape s c0 = true -> nth_error s d = Some n -> 0 < k < n -> in_shape s lo = true /\ in_shape s hi = true.
  Proof.
    intros (L1 & L2 & E1 & E2 & EQ) C0 IS Hn K. assert (LS : length s = 2%nat) by apply (sd_shape SD). unfold in_shape in *.
    destruct s as [|n0 [|n1 [|? ?]]]; try discriminate. destruct lo as [|l0 [|l1 [|? ?]]]; try discriminate. destruct hi as [|h0 [|h1 [|? ?]]]; try discriminate.
    destruct d as [|[|d]]; [| |destruct d; discriminate]; cbn in E1, E2, Hn; injection E1 as ->; injection E2 as ->; injection Hn as ->.
    - assert (EE := EQ 1%nat ltac:(lia)). cbn in EE. injection EE as ->. destruct C0; subst c0; cbn in *; lia.
    - assert (EE := EQ 0%nat ltac:(lia)). cbn in EE. injection EE as ->. destruct C0; subst c0; cbn in *; lia.
  Qed.
  Lemma ext_defined e : In e (m2_edges base) -> with_ext base e <> None.
  Proof.
    intros I. unfold with_ext. destruct (e2_ix e) as [a b] eqn:EI. cbn [fst snd]. destruct (sd_edge SD e I EI) as (OK & NE & c0 & S0 & M0 & H0).
    destruct (edge_cases OK NE H0) as [[_ U]|(d & k & lo & hi & HD & PL & AC & HL & HH & U)].
    - assert (X := ext_plain OK H0 U). unfold s, act, V in X. rewrite X. discriminate.
    - destruct (nth_error_lt _ s d) as [n Hn]; [unfold s; rewrite (proj1 (sd_shape SD)); auto|].
      destruct (@c50_edge s act V [a; b] d k lo hi n) as (r & ER & _); auto; [apply (sd_shape SD)|discriminate|intros K; exact (across_shape AC (proj1 (U c0) H0) S0 Hn K)|].
      unfold s, act, V in ER. rewrite ER. discriminate.
  Qed.

  (** what generation puts into the mesh; the region labels are not mentioned *)
  Record built (m : mesh2) : Prop := {
    bu_cells : m2_cells m = s; bu_mask : m2_mask m = act; bu_verts : m2_verts m = m2_verts base;
    bu_origin : m2_origin m = m2_origin base; bu_dx : m2_dx m = m2_dx base;
    bu_edges : sequence (map (with_ext base) (m2_edges base)) = Some (m2_edges m);
    bu_faces : gen_faces2 s act V mf = Some (map f2_loops (m2_faces m));
    bu_owner : ownership2 s V (map f2_loops (m2_faces m)) = Some (m2_owner m);
    bu_fbm : face_boundary_map2 es (map f2_loops (m2_faces m)) = Some (m2_fbm m) }.
  Lemma faces_built : exists m, generate_faces2 base mf = Some m.
  Proof.
    destruct faces_defined as [fs Hfs]. unfold generate_faces2. fold s act V. rewrite Hfs.
    destruct (@own_defined fs) as [own ->]; [intros f I; apply (kept_ok _ Hfs I)|]. destruct (sequence_defined (with_ext base) (m2_edges base)) as [l ->]; [apply ext_defined|].
    fold es. destruct (fbm_defined Hfs) as [fbm ->]. eauto.
  Qed.
  Lemma generate_built m : generate_faces2 base mf = Some m -> built m.
  Proof.
    unfold generate_faces2. fold s act V es. destruct (gen_faces2 s act V mf) as [fs|] eqn:Hfs; [|discriminate]. destruct (ownership2 s V fs) as [own|] eqn:Ho; [|discriminate].
    destruct (sequence (map (with_ext base) (m2_edges base))) as [l|] eqn:Hl; [|discriminate]. destruct (face_boundary_map2 es fs) as [fbm|] eqn:Hb; [|discriminate].
    intros E. apply Some_inj in E. subst m. assert (M : map f2_loops (map (fun f => mkFace2 f (-1)) fs) = fs) by (rewrite map_map; cbn; apply map_id).
    constructor; cbn; auto; rewrite M; auto.
  Qed.
  Lemma metadata_built lnk m m' : built m -> extra_metadata2 lnk m = Some m' -> built m'.
  Proof.
    intros B. unfold extra_metadata2. destruct (region_ops2 m) as [ops|]; [|discriminate]. intros E. apply Some_inj in E. subst m'.
    assert (M : map f2_loops (map (fun '(i, f) => mkFace2 (f2_loops f) (region2 m (ds_run lnk ops) i)) (enum (m2_faces m))) = map f2_loops (m2_faces m)).
    { rewrite map_map. unfold enum, zseq. rewrite Nat2Z.id. generalize (m2_faces m) as l. generalize 0%nat as k. intros k l. revert k. induction l as [|f l IH]; intros k; cbn; auto. f_equal. apply IH. }
    destruct B. constructor; cbn; auto; rewrite M; auto.
  Qed.

  Section Built.
    Variable m : mesh2.
    Hypothesis B : built m.
    Let fs := map f2_loops (m2_faces m).
    Lemma is_face_nth k f : is_face m k f -> 0 <= k /\ nth_error fs (Z.to_nat k) = Some (f2_loops f).
    Proof. intros [H0 H]. split; auto. unfold fs. rewrite nth_error_map, H. auto. Qed.
    Lemma edges_same e ed : is_edge m e ed -> exists ed0, nth_error (m2_edges base) (Z.to_nat e) = Some ed0 /\ e2_ix ed = e2_ix ed0 /\
      boundary_pair2 s act V [fst (e2_ix ed); snd (e2_ix ed)] = Some (e2_ext ed).
    Proof.
      intros [H0 H]. assert (F := sequence_forall2 _ _ (bu_edges B)). apply Forall2_nth in F as [L F]. destruct (nth_error_lt _ (m2_edges base) (Z.to_nat e)) as [ed0 E0].
      { rewrite L. apply nth_error_Some. congruence. } exists ed0. split; auto. specialize (F _ _ _ E0 H). unfold with_ext in F. fold s act V in F. destruct (boundary_pair2 s act V _) as [x|] eqn:EX; [|discriminate].
      cbn in F. apply Some_inj in F. subst ed. cbn. auto.
    Qed.
    Lemma edges_runs e ed : is_edge m e ed -> runs es e (fst (e2_ix ed)) (snd (e2_ix ed)).
    Proof. intros H. destruct (edges_same H) as (ed0 & E0 & E & _). destruct H as [H0 _]. split; auto. unfold es. rewrite nth_error_map, E0. cbn. rewrite E. destruct (e2_ix ed0); auto. Qed.
    Lemma bounds_iff k e ed sg : is_edge m e ed ->
      (bounds m k e sg <-> exists f, is_face m k f /\ In (if sg then (snd (e2_ix ed), fst (e2_ix ed)) else e2_ix ed) (face_sides (f2_loops f))).
    Proof.
      intros HE. assert (R := edges_runs HE). assert (LJ : forall a b, joins es e a b -> last_joining es e a b). { intros a b J. split; auto. intros e' J'. rewrite (sd_parallel SD J' J). lia. }
      unfold bounds. split.
      - intros (l & I & H). apply (@c106_faces _ _ _ (bu_fbm B)) in I as (K0 & f & Nf & NN & FM). rewrite nth_error_map in Nf. destruct (nth_error (m2_faces m) (Z.to_nat k)) as [cf|] eqn:N; [|discriminate].
        cbn in Nf. apply Some_inj in Nf. subst f. exists cf. split; [split; auto|]. assert (IF : In (f2_loops cf) fs) by (apply in_map; eapply nth_error_In; eauto).
        apply (@c106_signs _ _ _ FM (proj2 (kept_ok _ (bu_faces B) IF))) in H as (a & b & HS & _ & RR). destruct sg; destruct (runs_fun RR R) as [ -> -> ]; auto. destruct (e2_ix ed); auto.
      - intros (cf & HF & HS). destruct (is_face_nth HF) as [K0 N]. assert (IF : In (f2_loops cf) fs) by (eapply nth_error_In; eauto).
        assert (NN : f2_loops cf <> []) by (intros X; rewrite X in HS; destruct HS).
        destruct (face_map2 es (f2_loops cf)) as [fm|] eqn:FM.
        + exists fm. split; [apply (@c106_faces _ _ _ (bu_fbm B)); eauto|]. apply (@c106_signs _ _ _ FM (proj2 (kept_ok _ (bu_faces B) IF))).
          destruct sg; [exists (snd (e2_ix ed)), (fst (e2_ix ed))|exists (fst (e2_ix ed)), (snd (e2_ix ed))]; (split; [destruct (e2_ix ed); auto|]); (split; auto); apply LJ; [right|left]; auto.
        + exfalso. eapply (proj2 (c106_defined es (f2_loops cf))); eauto. intros a b HS'. apply (sd_both SD). apply (kept_In _ (bu_faces B)) in IF as (_ & (i & I) & _). exists (i, f2_loops cf). auto.
    Qed.
    (** the cell next to a directed side is unique *)
    Lemma side_unique k k' f f' x : is_face m k f -> is_face m k' f' -> In x (face_sides (f2_loops f)) -> In x (face_sides (f2_loops f')) -> k = k'.
    Proof.
      intros H H' I I'. destruct (Z.eq_dec k k') as [|N]; auto. exfalso. destruct (is_face_nth H) as [K0 Hn]. destruct (is_face_nth H') as [K0' Hn'].
      eapply (@NoDup_flat _ _ face_sides fs (Z.to_nat k) (Z.to_nat k')); eauto; [apply (kept_nodup (bu_faces B))|lia].
    Qed.
    Lemma kept_face f i c x : In (i, f) mf -> In x (face_sides f) -> in_cut_cell base c f -> exists k cf, is_face m k cf /\ f2_loops cf = f.
    Proof.
      intros I HS X. assert (N : f <> []) by (intros ->; destruct HS). assert (IF : In f fs) by (apply (kept_In _ (bu_faces B)); eauto). unfold fs in IF. apply in_map_iff in IF as (cf & E & IF).
      apply In_nth_error in IF as (n & Hn). exists (Z.of_nat n), cf. split; auto. split; [lia|]. rewrite Nat2Z.id. auto.
    Qed.
    (** which directed sides have a cut cell on their left *)
    Lemma half_face a b e c0 : joins es e a b -> verts_ok 2 V [a; b] -> pos (V a) <> pos (V b) -> holds V [a; b] c0 ->
      ((forall d k, ~ on_plane V [a; b] d k) -> exists k f, is_face m k f /\ In (a, b) (face_sides (f2_loops f))) /\
      (forall d k c, only_plane V [a; b] d k -> holds V [a; b] c -> PropsExternal.left_of (pos (V a)) (pos (V b)) (cell_center c) ->
         ((in_shape s c = true /\ act c = false) <-> exists k f, is_face m k f /\ In (a, b) (face_sides (f2_loops f)))).
    Proof.
      intros J OK NE H0. destruct (proj2 (sd_both SD a b) (ex_intro _ e J)) as ([i f] & I & HS). cbn [snd] in HS. assert (N : f <> []) by (intros ->; destruct HS).
      destruct (sd_face SD i I N) as [FOK X]. split.
      - intros NP. destruct X as [(c & X)|(_ & X)]; [|destruct (X a b HS) as [(d & k & P & _) _]; destruct (NP d k P)]. destruct (kept_face _ _ I HS X) as (k & cf & HF & E). exists k, cf. rewrite E. auto.
      - intros d k c PL HC LC. assert (CS : forall c1 f1, In (a, b) (face_sides f1) -> in_cut_cell base c1 f1 -> c1 = c).
        { intros c1 f1 HS1 (S1 & M1 & C1 & _ & L1). assert (H1 : holds V [a; b] c1). { assert (ENDS : In a (concat f1) /\ In b (concat f1)).
            { unfold face_sides in HS1. apply in_flat_map in HS1 as (l & Il & HS1). unfold loop_sides in HS1. apply in_map_iff in HS1 as (j & E & Hj). apply in_seq in Hj. injection E as <- <-.
              split; apply in_concat; exists l; (split; [auto|]); apply nth_In; [lia|]. apply Nat.mod_upper_bound. lia. }
            intros j [<-|[<-|[]]]; apply C1; tauto. }
          destruct (edge_cases OK NE HC) as [[NP _]|(d' & k' & lo & hi & _ & PL' & AC & HL & HH & U)]; [destruct (NP d k (proj1 PL))|].
          assert (LL := L1 a b d k HS1 PL). fold V in LL. apply U in H1, HC. destruct (left_cell OK NE PL' AC) as [(A1 & A2 & _)|(A1 & A2 & _)]; destruct H1, HC; subst; tauto. }
        split.
        + intros [SC AC]. destruct X as [(c1 & X)|(_ & X)].
          * destruct (kept_face _ _ I HS X) as (k' & cf & HF & E). exists k', cf. rewrite E. auto.
          * destruct (X a b HS) as [_ Y]. assert (Z := Y c HC LC SC). unfold act in AC. congruence.
        + intros (k' & cf & HF & HS'). destruct (is_face_nth HF) as [_ Hn]. apply nth_error_In in Hn. apply (kept_In _ (bu_faces B)) in Hn as (_ & _ & c1 & X1). rewrite <- (CS _ _ HS' X1). split; apply X1.
    Qed.

    Lemma holds_swap a b c : holds V [a; b] c -> holds V [b; a] c. Proof. intros H i [<-|[<-|[]]]; apply H; cbn; auto. Qed.
    Lemma on_swap a b d k : on_plane V [a; b] d k -> on_plane V [b; a] d k. Proof. intros H i [<-|[<-|[]]]; apply H; cbn; auto. Qed.
    Lemma only_swap a b d k : only_plane V [a; b] d k -> only_plane V [b; a] d k. Proof. intros [H U]. split; [apply on_swap; auto|]. intros d' k' H'. apply (U d' k'), on_swap; auto. Qed.
    Lemma verts_swap a b : verts_ok 2 V [a; b] -> verts_ok 2 V [b; a]. Proof. intros H i [<-|[<-|[]]]; apply H; cbn; auto. Qed.

    (** a cut cell on the side sg of the edge (false: left, true: right) *)
    Definition has_face (ed : cut_edge2) (sg : bool) : Prop :=
      exists k f, is_face m k f /\ In (if sg then (snd (e2_ix ed), fst (e2_ix ed)) else e2_ix ed) (face_sides (f2_loops f)).
    Lemma edge_sides e ed : is_edge m e ed ->
      (is_domain_edge ed = true /\ exists sg, has_face ed sg /\ ~ has_face ed (negb sg)) \/
      (is_domain_edge ed = false /\ has_face ed false /\ has_face ed true /\ e2_ext ed = None) \/
      (is_domain_edge ed = false /\ exists sg c, has_face ed (negb sg) /\ ~ has_face ed sg /\ uncut s act c /\ e2_ext ed = Some (ravel s c, sg)).
    Proof.
      intros HE. destruct (edges_same HE) as (ed0 & E0 & EI & EX). assert (R := edges_runs HE). unfold has_face, is_domain_edge. destruct (e2_ix ed) as [a b] eqn:EAB. cbn [fst snd] in *.
      apply nth_error_In in E0. symmetry in EI. destruct (sd_edge SD ed0 E0 EI) as (OK & NE & c0 & S0 & M0 & H0). assert (DIR := sd_dir SD ed0 E0 EI). fold V in OK, NE, H0, DIR. fold s in S0, DIR. fold act in M0, DIR.
      destruct (@half_face a b e c0) as [FN FP]; auto; [left; auto|]. destruct (@half_face b a e c0) as [GN GP]; auto; [right; auto|apply verts_swap; auto|apply holds_swap; auto|].
      destruct (edge_cases OK NE H0) as [[NP U]|(d & k & lo & hi & HD & PL & AC & HL & HH & U)].
      - rewrite (ext_plain OK H0 U) in EX. apply Some_inj in EX. rewrite <- EX. right; left. split; auto. split; [apply FN; auto|]. split; auto. apply GN. intros d k H. apply (NP d k), on_swap; auto.
      - destruct (nth_error_lt _ s d) as [n Hn]; [unfold s; rewrite (proj1 (sd_shape SD)); auto|]. assert (C0 := proj1 (U c0) H0).
        assert (SH := fun K => across_shape AC C0 S0 Hn K).
        destruct (@c50_edge s act V [a; b] d k lo hi n) as (r & ER & R1 & R2 & R3 & R4 & R5); auto; [apply (sd_shape SD)|discriminate|].
        rewrite ER in EX. apply Some_inj in EX. subst r. specialize (FP d k). specialize (GP d k). assert (PL' := only_swap PL). assert (HL' := holds_swap HL). assert (HH' := holds_swap HH).
        set (K1 := exists k f, is_face m k f /\ In (a, b) (face_sides (f2_loops f))) in *. set (K2 := exists k f, is_face m k f /\ In (b, a) (face_sides (f2_loops f))) in *.
        assert (LR : exists cl cr, ((cl = lo /\ cr = hi) \/ (cl = hi /\ cr = lo)) /\ PropsExternal.left_of (pos (V a)) (pos (V b)) (cell_center cl) /\ ~ PropsExternal.left_of (pos (V a)) (pos (V b)) (cell_center cr) /\
          PropsExternal.left_of (pos (V b)) (pos (V a)) (cell_center cr)).
        { destruct (left_cell OK NE PL AC) as [(A1 & A2 & A3 & _)|(A1 & A2 & A3 & _)]; [exists lo, hi|exists hi, lo]; auto. }
        destruct LR as (cl & cr & LR & LL & NL & LRR).
        assert (KL : in_shape s cl = true /\ act cl = false <-> K1) by (apply FP; auto; destruct LR as [[-> _]|[-> _]]; auto).
        assert (KR : in_shape s cr = true /\ act cr = false <-> K2) by (apply GP; auto; destruct LR as [[_ ->]|[_ ->]]; auto).
        assert (C01 : c0 = cl \/ c0 = cr) by (destruct LR as [[-> ->]|[-> ->]]; tauto).
        assert (OUT : forall c, nth_error c d = Some (k - 1) /\ k <= 0 \/ nth_error c d = Some k /\ n <= k -> in_shape s c = false).
        { intros c HC. destruct (in_shape s c) eqn:IS; auto. exfalso. assert (LS : length s = 2%nat) by apply (sd_shape SD). assert (LC := in_shape_length _ _ IS). destruct s as [|n0 [|n1 [|? ?]]]; try discriminate. destruct c as [|x0 [|x1 [|? ?]]]; try discriminate.
          unfold in_shape in IS. cbn in IS. destruct d as [|[|d]]; [| |lia]; cbn in Hn, HC; injection Hn as ->; destruct HC as [[E ?]|[E ?]]; injection E as ->; lia. }
        destruct AC as (L1 & L2 & E1 & E2 & EQ). assert (AC : across 2 d k lo hi) by (split; auto).
        assert (DOM : forall sg0, in_shape s cl = false \/ in_shape s cr = false -> e2_ext ed = Some (-2, sg0) -> (match e2_ext ed with Some (o, _) => o =? -2 | None => false end = true /\
                        exists sg : bool, (exists k f, is_face m k f /\ In (if sg then (b, a) else (a, b)) (face_sides (f2_loops f))) /\ ~ (exists k f, is_face m k f /\ In (if negb sg then (b, a) else (a, b)) (face_sides (f2_loops f))))).
        { intros sg0 O ->. split; auto. destruct O as [O|O].
          - exists true. cbn [negb]. fold K1 K2. rewrite <- KL, <- KR. destruct C01; subst c0; [congruence|]. split; [auto|]. intros [? _]. congruence.
          - exists false. cbn [negb]. fold K1 K2. rewrite <- KL, <- KR. destruct C01; subst c0; [|congruence]. split; [auto|]. intros [? _]. congruence. }
        destruct (Z.le_gt_cases k 0) as [K0|K0]; [|destruct (Z.le_gt_cases n k) as [KN|KN]].
        + left. apply (DOM true); [|auto]. assert (O := OUT lo (or_introl (conj E1 K0))). destruct LR as [[-> ->]|[-> ->]]; auto.
        + left. apply (DOM false); [|auto]. assert (O := OUT hi (or_intror (conj E2 KN))). destruct LR as [[-> ->]|[-> ->]]; auto.
        + destruct (SH (conj K0 KN)) as [I1 I2]. assert (IL : in_shape s cl = true /\ in_shape s cr = true) by (destruct LR as [[-> ->]|[-> ->]]; auto). destruct IL as [IL IR].
          assert (LS : length s = 2%nat) by apply (sd_shape SD).
          assert (RG : forall c, in_shape s c = true -> (ravel s c =? -2) = false) by (intros c IS; apply ravel_range in IS; lia).
          destruct (act cl) eqn:ACL, (act cr) eqn:ACR.
          * exfalso. destruct C01; subst c0; congruence.
          * assert (INC : increasing V a b). { destruct DIR as [|X]; auto. assert (X' := X cl (proj2 (U cl) ltac:(destruct LR as [[-> _]|[-> _]]; auto)) IL). congruence. }
            assert (EE : exists x sg, e2_ext ed = Some (x, sg) /\ 0 <= x).
            { destruct LR as [[-> ->]|[-> ->]]; [rewrite (R3 (conj K0 KN))|rewrite (R4 (conj K0 KN))]; unfold uncut; try (split; auto; fail); try (intros [? ?]; congruence); (do 2 eexists; split; [reflexivity|]); apply ravel_range; auto. }
            destruct EE as (x & sg & EE & X0). rewrite EE in ER. destruct (@c50_edge_sign s act V a b d k lo hi x sg LS OK PL AC HH I1 I2 INC ER X0) as (c & CC & UC & EX & SG).
            assert (c = cl). { destruct UC as [_ UC]. destruct CC; destruct LR as [[? ?]|[? ?]]; subst; auto; congruence. } subst c.
            assert (sg = false) by (apply SG; auto). subst. right; right. rewrite EE. split; [apply RG; auto|]. exists false, cl. cbn [negb]. fold K1 K2. rewrite <- KL, <- KR. split; [auto|]. split; [intros [_ ?]; congruence|]. auto.
          * assert (INC : increasing V a b). { destruct DIR as [|X]; auto. assert (X' := X cr (proj2 (U cr) ltac:(destruct LR as [[_ ->]|[_ ->]]; auto)) IR). congruence. }
            assert (EE : exists x sg, e2_ext ed = Some (x, sg) /\ 0 <= x).
            { destruct LR as [[-> ->]|[-> ->]]; [rewrite (R4 (conj K0 KN))|rewrite (R3 (conj K0 KN))]; unfold uncut; try (split; auto; fail); try (intros [? ?]; congruence); (do 2 eexists; split; [reflexivity|]); apply ravel_range; auto. }
            destruct EE as (x & sg & EE & X0). rewrite EE in ER. destruct (@c50_edge_sign s act V a b d k lo hi x sg LS OK PL AC HH I1 I2 INC ER X0) as (c & CC & UC & EX & SG).
            assert (c = cr). { destruct UC as [_ UC]. destruct CC; destruct LR as [[? ?]|[? ?]]; subst; auto; congruence. } subst c.
            assert (sg = true) by (destruct sg; auto; exfalso; apply NL, SG; auto). subst. right; right. rewrite EE. split; [apply RG; auto|]. exists true, cr. cbn [negb]. fold K1 K2. rewrite <- KL, <- KR. split; [auto|]. split; [intros [_ ?]; congruence|]. auto.
          * right; left. assert (EN : e2_ext ed = None). { apply R5; [lia|]. unfold uncut. destruct LR as [[? ?]|[? ?]]; subst; split; intros [? ?]; congruence. }
            rewrite EN. split; auto. fold K1 K2. rewrite <- KL, <- KR. auto.
    Qed.

    Lemma ix_same : map e2_ix (m2_edges m) = es.
    Proof.
      apply (with_ext_ix base (sequence_forall2 _ _ (bu_edges B))).
    Qed.
    Lemma built_incidence : incidence_ok m.
    Proof.
      apply (@c107_generated m V).
      - rewrite (bu_cells B). apply (sd_shape SD).
      - rewrite ix_same. apply (bu_fbm B).
      - intros e I. apply In_nth_error in I as (n & I). assert (HE : is_edge m (Z.of_nat n) e) by (split; [lia|rewrite Nat2Z.id; auto]). destruct (edges_same HE) as (_ & _ & _ & E). rewrite (bu_cells B), (bu_mask B). auto.
      - intros e o sg I E. apply In_nth_error in I as (n & I). assert (HE : is_edge m (Z.of_nat n) e) by (split; [lia|rewrite Nat2Z.id; auto]). rewrite (bu_cells B).
        assert (SP : 0 < shape_size s) by (apply shape_size_pos, (sd_shape SD)).
        destruct (edge_sides HE) as [[D _]|[(_ & _ & _ & N)|(_ & sg' & c & _ & _ & [IS _] & N)]].
        + unfold is_domain_edge in D. rewrite E in D. apply Z.eqb_eq in D. lia.
        + congruence.
        + rewrite N in E. apply Some_inj in E. injection E as <- _. apply ravel_range in IS. lia.
    Qed.
    Lemma has_face_bounds e ed sg : is_edge m e ed -> (has_face ed sg <-> exists k, bounds m k e sg).
    Proof. intros HE. unfold has_face. split; [intros (k & f & H); exists k; apply (bounds_iff _ _ HE); eauto|intros (k & H); apply (bounds_iff _ _ HE) in H as (f & H); eauto]. Qed.
    Lemma bounds_unique k k' e ed sg : is_edge m e ed -> bounds m k e sg -> bounds m k' e sg -> k = k'.
    Proof. intros HE H H'. apply (bounds_iff _ _ HE) in H as (f & F & I), H' as (f' & F' & I'). eapply side_unique; eauto. Qed.
    Lemma bounds_sign k e sg sg' : bounds m k e sg -> bounds m k e sg' -> sg = sg'.
    Proof.
      intros (l & I & H) (l' & I' & H'). assert (OKI := built_incidence). assert (l' = l) by (eapply NoDup_fst_inj; eauto; apply (ok_faces m OKI)). subst l'.
      eapply NoDup_fst_inj; eauto. apply (ok_edges m OKI _ _ I).
    Qed.
    Lemma bounds_face k e sg : bounds m k e sg -> 0 <= k < num_cutfaces m.
    Proof. intros (l & I & _). apply (ok_edges m built_incidence _ _ I). Qed.

    (** the sum over the faces *)
    Definition part (e : Z) (p : Z * list (Z * bool)) : Qc := lsum (fun '(e', s) => if (e' =? e)%Z then sign s else 0%Qc) (snd p).
    Lemma part_value e f l : In (f, l) (m2_fbm m) -> (forall sg, In (e, sg) l -> part e (f, l) = sign sg) /\ ((forall sg, ~ In (e, sg) l) -> part e (f, l) = 0%Qc).
    Proof.
      intros I. destruct (ok_edges m built_incidence _ _ I) as (ND & _). split.
      - intros sg H. unfold part. cbn [snd]. rewrite (@lsum_single _ _ _ (e, sg)); auto; [cbv beta iota; rewrite Z.eqb_refl; auto|eapply NoDup_map_inv; eauto|].
        intros [e' s'] I' N. destruct (Z.eqb_spec e' e); auto. subst. exfalso. apply N. f_equal. eapply NoDup_fst_inj; eauto.
      - intros H. unfold part. cbn [snd]. apply lsum_0. intros [e' s'] I'. destruct (Z.eqb_spec e' e); auto. subst. exfalso. eapply H; eauto.
    Qed.
    Lemma part_total e ed : is_edge m e ed ->
      (forall k sg, bounds m k e sg -> ~ has_face ed (negb sg) -> lsum (part e) (m2_fbm m) = sign sg) /\
      (has_face ed false -> has_face ed true -> lsum (part e) (m2_fbm m) = 0%Qc).
    Proof.
      intros HE. assert (NDF : NoDup (m2_fbm m)) by (eapply NoDup_map_inv, (ok_faces m built_incidence)). split.
      - intros k sg (l & I & H) N. rewrite (@lsum_single _ _ _ (k, l)); auto; [apply part_value; auto|]. intros [k' l'] I' NE. apply part_value; auto. intros sg' H'.
        destruct (Bool.bool_dec sg' sg) as [->|D].
        + apply NE. assert (k' = k) by (eapply bounds_unique; [exact HE| |]; eexists; eauto). subst. f_equal. eapply NoDup_fst_inj; eauto. apply (ok_faces m built_incidence).
        + apply N, (has_face_bounds _ HE). exists k'. replace (negb sg) with sg' by (destruct sg, sg'; cbn; congruence). exists l'. auto.
      - intros H1 H2. apply (has_face_bounds _ HE) in H1 as (k1 & l1 & I1 & E1), H2 as (k2 & l2 & I2 & E2).
        assert (NE : (k1, l1) <> (k2, l2)). { intros E. injection E as <- <-. assert (X : false = true) by (eapply (@bounds_sign k1 e); eexists; eauto). discriminate. }
        apply in_split in I1 as (u & v & Eu). assert (I2' : In (k2, l2) (u ++ v)) by (rewrite Eu in I2; apply in_app_or in I2 as [|[|]]; [apply in_or_app; auto|congruence|apply in_or_app; auto]).
        assert (ND' : NoDup (u ++ v)) by (rewrite Eu in NDF; apply NoDup_remove_1 in NDF; auto). assert (IN1 : In (k1, l1) (m2_fbm m)) by (rewrite Eu; apply in_or_app; cbn; auto).
        assert (SUB : forall x, In x (u ++ v) -> In x (m2_fbm m) /\ x <> (k1, l1)). { intros x Hx. split; [rewrite Eu; apply in_app_or in Hx as [|]; apply in_or_app; cbn; auto|]. intros ->. rewrite Eu in NDF. apply NoDup_remove_2 in NDF. auto. }
        assert (SP : lsum (part e) (m2_fbm m) = (part e (k1, l1) + lsum (part e) (u ++ v))%Qc) by (rewrite Eu, !lsum_app; cbn [lsum]; ring).
        rewrite SP, (@lsum_single _ _ _ (k2, l2) ND' I2').
        + rewrite (proj1 (@part_value e k1 l1 IN1) false E1), (proj1 (@part_value e k2 l2 I2) true E2). unfold sign. ring.
        + intros [k' l'] I' NE'. destruct (SUB _ I') as [I'' NE'']. apply part_value; auto. intros [|] H'.
          * apply NE'. assert (k' = k2) by (eapply bounds_unique; [exact HE| |]; eexists; eauto). subst. f_equal. exact (NoDup_fst_inj _ _ _ _ _ _ (ok_faces m built_incidence) I'' I2).
          * apply NE''. assert (k' = k1) by (eapply bounds_unique; [exact HE| |]; eexists; eauto). subst. f_equal. exact (NoDup_fst_inj _ _ _ _ _ _ (ok_faces m built_incidence) I'' IN1).
    Qed.
    Lemma built_balanced : balanced m.
    Proof.
      intros e ed HE D. unfold edge_total. assert (E : lsum (fun '(f, es) => lsum (fun '(e', s) => if (e' =? e)%Z then sign s else 0%Qc) es) (m2_fbm m) = lsum (part e) (m2_fbm m)) by (apply lsum_ext; intros [f l] _; reflexivity).
      rewrite E. clear E. destruct (part_total HE) as [P1 P2]. destruct (edge_sides HE) as [[D' _]|[(_ & H1 & H2 & N)|(_ & sg & c & H1 & H2 & [IS _] & N)]]; [congruence| |].
      - rewrite (P2 H1 H2), N. ring.
      - apply (has_face_bounds _ HE) in H1 as (k & H1). rewrite (P1 k (negb sg) H1), N by (rewrite negb_involutive; auto). apply ravel_range in IS. rewrite (proj2 (Z.leb_le 0 _)) by lia. destruct sg; unfold sign; cbn; ring.
    Qed.
    (** ownership *)
    Lemma built_owners c k : in_shape s c = true -> (In k (owners m c) <-> exists f, is_face m k f /\ in_cut_cell base c (f2_loops f)).
    Proof.
      intros IS. unfold owners. rewrite (bu_cells B). assert (OW := @c105_ownership s V _ _ (fun f I => proj1 (kept_ok f (bu_faces B) I)) (bu_owner B) (ravel s c) k).
      assert (E : In k (match map_find Z.compare (ravel s c) (m2_owner m) with Some cs => cs | None => [] end) <-> exists l, map_find Z.compare (ravel s c) (m2_owner m) = Some l /\ In k l).
      { destruct (map_find _ _ _) as [l|]; split; [eauto|intros (l' & E & I); apply Some_inj in E; subst; auto|intros []|intros (? & ? & _); discriminate]. }
      rewrite E, OW. clear E OW. split.
      - intros (H0 & f & c' & N & L & EQ). rewrite nth_error_map in N. destruct (nth_error (m2_faces m) (Z.to_nat k)) as [cf|] eqn:NF; [|discriminate]. cbn in N. apply Some_inj in N. subst f. exists cf. split; [split; auto|].
        assert (IF : In (f2_loops cf) (map f2_loops (m2_faces m))) by (apply in_map; eapply nth_error_In; eauto). assert (FOK := proj1 (kept_ok _ (bu_faces B) IF)). apply (kept_In _ (bu_faces B)) in IF as (_ & _ & c1 & X).
        assert (c' = c1) by (apply (cut_lower FOK X); auto). subst c'. assert (IS1 : in_shape s c1 = true) by apply X. assert (c = c1); [|subst; auto]. apply (f_equal (unravel s)) in EQ. rewrite !unravel_ravel in EQ; auto.
      - intros (cf & [H0 NF] & X). split; auto. exists (f2_loops cf), c. split; [rewrite nth_error_map, NF; auto|]. split; auto.
        assert (IF : In (f2_loops cf) (map f2_loops (m2_faces m))) by (apply in_map; eapply nth_error_In; eauto). apply (cut_lower (proj1 (kept_ok _ (bu_faces B) IF)) X); auto.
    Qed.
    Lemma built_valid : owners_valid m.
    Proof.
      intros c k I. unfold owners in I. rewrite (bu_cells B) in I. assert (OW := @c105_ownership s V _ _ (fun f I => proj1 (kept_ok f (bu_faces B) I)) (bu_owner B) (ravel s c) k).
      destruct (map_find _ _ _) as [l|]; [|destruct I]. destruct (proj1 OW) as (H0 & f & _ & N & _); [eauto|]. rewrite nth_error_map in N. destruct (nth_error (m2_faces m) (Z.to_nat k)) as [cf|] eqn:NF; [|discriminate]. exists cf. split; auto.
    Qed.
    (** which edges are on the border of the grid *)
    Lemma built_domain e ed a b : is_edge m e ed -> e2_ix ed = (a, b) -> (is_domain_edge ed = true <-> exists d k n, on_plane V [a; b] d k /\ nth_error s d = Some n /\ (k = 0 \/ k = n)).
    Proof.
      intros HE EAB. destruct (edges_same HE) as (ed0 & E0 & EI & EX). rewrite EAB in *. cbn [fst snd] in *.
      apply nth_error_In in E0. symmetry in EI. destruct (sd_edge SD ed0 E0 EI) as (OK & NE & c0 & S0 & M0 & H0). fold V in OK, NE, H0. fold s in S0. fold act in M0. unfold is_domain_edge.
      destruct (edge_cases OK NE H0) as [[NP U]|(d & k & lo & hi & HD & PL & AC & HL & HH & U)].
      - rewrite (ext_plain OK H0 U) in EX. apply Some_inj in EX. rewrite <- EX. split; [discriminate|]. intros (d & k & n & P & _). destruct (NP d k P).
      - destruct (nth_error_lt _ s d) as [n Hn]; [unfold s; rewrite (proj1 (sd_shape SD)); auto|]. assert (C0 := proj1 (U c0) H0). assert (SH := fun K => across_shape AC C0 S0 Hn K).
        destruct (@c50_edge s act V [a; b] d k lo hi n) as (r & ER & R1 & R2 & R3 & R4 & R5); auto; [apply (sd_shape SD)|discriminate|]. rewrite ER in EX. apply Some_inj in EX. subst r.
        assert (KR : 0 <= k <= n).
        { assert (LS : length s = 2%nat) by apply (sd_shape SD). assert (LC := in_shape_length _ _ S0). destruct AC as (L1 & L2 & E1 & E2 & EQ). clear U H0 M0 SH R1 R2 R3 R4 R5 ER E0. destruct s as [|n0 [|n1 [|? ?]]]; try discriminate. destruct c0 as [|x0 [|x1 [|? ?]]]; try discriminate.
          destruct d as [|[|d]]; [| |lia]; cbn in Hn; injection Hn as ->; destruct C0; subst; cbn in E1, E2; unfold in_shape in S0; cbn in S0; try (injection E1 as ->); try (injection E2 as ->); lia. }
        split.
        + intros D. exists d, k, n. split; [apply PL|]. split; auto. destruct (Z.eq_dec k 0); auto. destruct (Z.eq_dec k n); auto. exfalso. assert (K : 0 < k < n) by lia. destruct (SH K) as [I1 I2]. apply ravel_range in I1 as J1. apply ravel_range in I2 as J2.
          destruct (act lo) eqn:AL, (act hi) eqn:AH; unfold uncut in *.
          * rewrite R5 in D; [discriminate|auto|tauto].
          * rewrite R3 in D; auto; [apply Z.eqb_eq in D; lia|intros [_ ?]; congruence].
          * rewrite R4 in D; auto; [apply Z.eqb_eq in D; lia|intros [_ ?]; congruence].
          * rewrite R5 in D; auto; [discriminate|]. split; intros [_ ?]; congruence.
        + intros (d' & k' & n' & P & Hn' & K). assert (d' = d) by (eapply one_plane; eauto; apply PL). subst d'. assert (k' = k). { destruct PL as [P0 _]. assert (A := P a ltac:(cbn; auto)). rewrite (P0 a) in A by (cbn; auto). apply Some_inj in A. apply Z2Qc_inj in A. auto. } subst k'. assert (n' = n) by congruence. subst n'.
          destruct K as [->| ->]; [rewrite R1 by lia; auto|]. destruct (Z.le_gt_cases n 0); [rewrite R1 by lia; auto|]. rewrite R2 by lia. auto.
    Qed.
  End Built.
End Whole.

(** * C133 *)
Lemma whole_built lnk base mf m : subdivision base mf -> generate2 lnk base mf = Some m -> built base mf m.
Proof.
  intros SD. unfold generate2. destruct (generate_faces2 base mf) as [m0|] eqn:E; [|discriminate]. intros H. eapply metadata_built; eauto. apply generate_built; auto.
Qed.
(** C133. Generation succeeds: no map lookup fails, nothing is read outside the mask or the edge list. *)
Theorem c133_defined : forall lnk base mf, subdivision base mf -> exists m, generate2 lnk base mf = Some m.
Proof.
  intros lnk base mf SD. destruct (faces_built SD) as [m Hm]. unfold generate2. rewrite Hm. assert (B := @generate_built base mf m Hm). destruct (c107_labelled lnk (built_incidence SD B)) as (m' & E & _). eauto.
Qed.
(** C133. The cut cells of the mesh are, in order, the faces of the half-edge mesh that lie in a cut grid cell, and each is listed under that grid cell only. *)
Theorem c133_cells : forall lnk base mf m, subdivision base mf -> generate2 lnk base mf = Some m ->
  (exists keep, map f2_loops (m2_faces m) = map snd (filter keep mf) /\ forall i f, In (i, f) mf -> (keep (i, f) = true <-> f <> [] /\ exists c, in_cut_cell base c f)) /\
  (forall c k, in_shape (m2_cells base) c = true -> (In k (owners m c) <-> exists f, is_face m k f /\ in_cut_cell base c (f2_loops f))).
Proof. intros lnk base mf m SD HG. assert (B := @whole_built lnk base mf m SD HG). split; [apply (kept_faces SD (bu_faces B))|intros c k IS; apply (built_owners SD B); auto]. Qed.
(** C133. Every cut edge that is not on the border of the grid has exactly two cells, a cut cell or an uncut grid cell on each side, and the boundary operator has 1 for one, -1 for the other and 0
    for all other cells.  An edge on the border has exactly one cell, and its row is empty when the border is left out. *)
Theorem c133_edge_cells : forall lnk base mf m dom B e ed, subdivision base mf -> generate2 lnk base mf = Some m -> boundary2 m dom = Some B -> is_edge m e ed ->
  (is_domain_edge ed = false -> exists p q, 0 <= p < num_faces2 m /\ 0 <= q < num_faces2 m /\ p <> q /\ coeff B e p = 1%Qc /\ coeff B e q = (- (1))%Qc /\
     forall c, 0 <= c < num_faces2 m -> c <> p -> c <> q -> coeff B e c = 0%Qc) /\
  (is_domain_edge ed = true -> exists p, 0 <= p < num_cutfaces m /\ coeff B e p = (if dom then coeff B e p else 0%Qc) /\ (dom = true -> coeff B e p = 1%Qc \/ coeff B e p = (- (1))%Qc) /\
     forall c, 0 <= c < num_faces2 m -> c <> p -> coeff B e c = 0%Qc).
Proof.
  intros lnk base mf m dom B e ed SD HG HB HE. assert (BU := @whole_built lnk base mf m SD HG). assert (OK := built_incidence SD BU). destruct (c64_coefficients m dom OK) as (B' & HB' & _ & CF & CX & _).
  rewrite HB in HB'. apply Some_inj in HB'. subst B'. assert (NF : 0 <= num_cutfaces m) by (unfold num_cutfaces; lia).
  destruct (c33_index_bijection (m2_cells m) (m2_mask m)) as (LN & IB & IB' & _).
  assert (FZ : forall c, 0 <= c < num_cutfaces m -> (forall s, ~ bounds m c e s) -> coeff B e c = 0%Qc) by (intros c Hc N; apply (proj2 (CF e ed c HE Hc)); auto).
  assert (XC : forall c, num_cutfaces m <= c < num_faces2 m -> exists i cc, c = num_cutfaces m + Z.of_nat i /\ nth_error (cell_coords (m2_cells m) (m2_mask m)) i = Some cc).
  { intros c Hc. destruct (nth_error_lt _ (cell_coords (m2_cells m) (m2_mask m)) (Z.to_nat (c - num_cutfaces m))) as [cc Ec]; [unfold num_faces2, ext_cells in Hc; lia|]. exists (Z.to_nat (c - num_cutfaces m)), cc. split; [lia|auto]. }
  assert (NFF : num_cutfaces m <= num_faces2 m) by (unfold num_faces2, ext_cells; lia).
  destruct (edge_sides SD BU HE) as [(D & sg & H1 & H2)|[(D & H1 & H2 & N)|(D & sg & c0 & H1 & H2 & UC & N)]]; rewrite D; cbn [negb] in CF.
  - split; [discriminate|]. intros _. apply (has_face_bounds SD BU _ HE) in H1 as (k & H1). assert (RK := bounds_face SD BU H1). exists k. split; auto.
    assert (E := proj1 (CF e ed k HE RK) sg H1). rewrite D in E. split; [destruct dom; auto; rewrite E; auto|]. split; [intros ->; rewrite E; destruct sg; cbn; auto|].
    intros c Hc NE. destruct (Z_lt_le_dec c (num_cutfaces m)) as [L|L].
    + apply FZ; [lia|]. intros sg' H'. destruct (Bool.bool_dec sg' sg) as [->|DS]; [apply NE; exact (bounds_unique SD BU HE H' H1)|]. apply H2, (has_face_bounds SD BU _ HE). exists c. replace (negb sg) with sg' by (destruct sg, sg'; cbn; congruence). auto.
    + destruct (XC c) as (i & cc & -> & Ei); [lia|]. rewrite (CX e ed i cc HE Ei). unfold is_domain_edge in D. destruct (e2_ext ed) as [[o s']|]; auto. apply Z.eqb_eq in D. subst o. reflexivity.
  - split; [|discriminate]. intros _. apply (has_face_bounds SD BU _ HE) in H1 as (k1 & H1), H2 as (k2 & H2). assert (R1 := bounds_face SD BU H1). assert (R2 := bounds_face SD BU H2).
    exists k1, k2. split; [lia|]. split; [lia|]. split; [intros ->; assert (X := bounds_sign SD BU H1 H2); discriminate|].
    rewrite (proj1 (CF e ed k1 HE R1) false H1), (proj1 (CF e ed k2 HE R2) true H2), D. cbn [negb]. rewrite orb_true_r. split; auto. split; auto.
    intros c Hc N1 N2. destruct (Z_lt_le_dec c (num_cutfaces m)) as [L|L].
    + apply FZ; [lia|]. intros [|] H'; [apply N2; exact (bounds_unique SD BU HE H' H2)|apply N1; exact (bounds_unique SD BU HE H' H1)].
    + destruct (XC c) as (i & cc & -> & Ei); [lia|]. rewrite (CX e ed i cc HE Ei), N. auto.
  - split; [|discriminate]. intros _. apply (has_face_bounds SD BU _ HE) in H1 as (k & H1). assert (RK := bounds_face SD BU H1). assert (IS := proj1 UC). assert (R0 := ravel_range _ _ IS).
    assert (EXT : exterior (m2_cells m) (m2_mask m) c0) by (rewrite (bu_cells BU), (bu_mask BU); exact UC). destruct (IB c0 EXT) as [RI NI]. set (x := num_cutfaces m + ext_cell_index (m2_cells m) (m2_mask m) c0).
    assert (RX : num_cutfaces m <= x < num_faces2 m) by (unfold x, num_faces2, ext_cells; lia).
    assert (CK : coeff B e k = sign (negb sg)). { rewrite (proj1 (CF e ed k HE RK) (negb sg) H1), D. cbn [negb]. rewrite orb_true_r. auto. }
    assert (CU : unravel (m2_cells m) (ravel (m2_cells base) c0) = c0) by (rewrite (bu_cells BU); apply unravel_ravel; auto).
    assert (CXX : forall c, num_cutfaces m <= c < num_faces2 m -> coeff B e c = if c =? x then sign sg else 0%Qc).
    { intros c Hc. destruct (XC c Hc) as (i & cc & -> & Ei). rewrite (CX e ed i cc HE Ei), N. rewrite (proj2 (Z.leb_le 0 _)) by lia. cbn [andb]. rewrite CU.
      destruct (IB' _ _ Ei) as [Xc Ec]. assert (EQ : coord_eqb c0 cc = (num_cutfaces m + Z.of_nat i =? x)).
      { apply Bool.eq_iff_eq_true. rewrite Z.eqb_eq, coord_eqb_eq. unfold x. split; [intros ->; lia|]. intros E. assert (E2 : ext_cell_index (m2_cells m) (m2_mask m) c0 = Z.of_nat i) by lia. rewrite E2, Nat2Z.id, Ei in NI. congruence. }
      rewrite EQ. auto. }
    assert (REST : forall c, 0 <= c < num_faces2 m -> c <> k -> c <> x -> coeff B e c = 0%Qc).
    { intros c Hc N1 N2. destruct (Z_lt_le_dec c (num_cutfaces m)) as [L|L].
      - apply FZ; [lia|]. intros sg' H'. destruct (Bool.bool_dec sg' (negb sg)) as [->|DS]; [apply N1; exact (bounds_unique SD BU HE H' H1)|]. apply H2, (has_face_bounds SD BU _ HE). exists c. replace sg with sg' by (destruct sg, sg'; cbn in *; congruence). auto.
      - rewrite CXX by lia. rewrite (proj2 (Z.eqb_neq c x)); auto. }
    assert (CXV := CXX x RX). rewrite Z.eqb_refl in CXV. destruct sg; cbn in CK, CXV; [exists k, x|exists x, k]; (split; [lia|]); (split; [lia|]); (split; [lia|]); (split; [auto|]); (split; [auto|]); auto.
Qed.
(** C133. The edges with external boundary -2 are exactly those on the border of the grid. *)
Theorem c133_domain : forall lnk base mf m e ed a b, subdivision base mf -> generate2 lnk base mf = Some m -> is_edge m e ed -> e2_ix ed = (a, b) ->
  (is_domain_edge ed = true <-> exists d k n, on_plane (AV base) [a; b] d k /\ nth_error (m2_cells base) d = Some n /\ (k = 0 \/ k = n)).
Proof. intros lnk base mf m e ed a b SD HG HE E. apply (built_domain SD (@whole_built lnk base mf m SD HG) HE E). Qed.
(** C133. Without the border, constants are in the kernel of the boundary operator's transpose product and of the laplacian, whatever the Hodge star. *)
Theorem c133_constants : forall lnk base mf m B, subdivision base mf -> generate2 lnk base mf = Some m -> boundary2 m false = Some B ->
  (forall r, mulv B (fun _ => 1%Qc) r = 0%Qc) /\ forall h k c, lap B h (fun _ => k) c = 0%Qc.
Proof.
  intros lnk base mf m B SD HG HB. assert (BU := @whole_built lnk base mf m SD HG). assert (OK := built_incidence SD BU). assert (BA := built_balanced SD BU). split; [exact (c64_row_sums m B OK BA HB)|].
  intros h k c. apply (c64_laplacian m B h OK HB); auto.
Qed.
(** C133. Point location on the generated mesh: a point of a cut grid cell gets the number of a cut cell inside that grid cell whose loops wind around the point, or -1 when no cut cell of
    that grid cell does; a point of an uncut grid cell gets that cell. *)
Theorem c133_location : forall lnk base mf m wn p c, subdivision base mf -> generate2 lnk base mf = Some m -> (0 < fst (m2_dx base))%Qc -> (0 < snd (m2_dx base))%Qc ->
  in_grid_cell base c p -> in_shape (m2_cells base) c = true ->
  (m2_mask base c = true -> exists i, nth_error (cell_coords (m2_cells base) (m2_mask base)) i = Some c /\ cell_index2 wn m p = Z.of_nat i + num_cutfaces m) /\
  (m2_mask base c = false ->
     (cell_index2 wn m p = -1 /\ forall k f, is_face m k f -> in_cut_cell base c (f2_loops f) -> ~ contains wn f p) \/
     (exists f, is_face m (cell_index2 wn m p) f /\ in_cut_cell base c (f2_loops f) /\ contains wn f p)).
Proof.
  intros lnk base mf m wn p c SD HG D0 D1 HC IS. assert (BU := @whole_built lnk base mf m SD HG). destruct (c38_point_location wn m p c) as (_ & A2 & A3).
  - rewrite (bu_dx BU); auto.
  - rewrite (bu_dx BU); auto.
  - apply (built_valid SD BU).
  - unfold in_grid_cell in *. rewrite (bu_dx BU), (bu_origin BU). auto.
  - rewrite (bu_cells BU), (bu_mask BU) in A2, A3. split; [intros M; apply A2; split; auto|]. intros M. destruct (A3 IS M) as [[E H]|(k & f & E & I & F & H)]; [left|right].
    + split; auto. intros k f F X. apply (H k f); auto. apply (built_owners SD BU _ _ IS). eauto.
    + exists f. rewrite E. split; auto. split; auto. apply (built_owners SD BU _ _ IS) in I as (f' & F' & X). assert (f' = f) by (destruct F, F'; congruence). subst. auto.
Qed.

(** ** Non-vacuity: two grid cells, the left one cut in two by an input edge, the right one uncut *)
Definition ex133_v (y : Z) : vertex := mkVertex [0; y] [qhalf; 0%Qc] [false; true].
Definition ex133 : mesh2 := mkMesh2 (0, 0)%Qc (1, 1)%Qc [2; 1] [ex133_v 0; ex133_v 1]
  [me (6, 7); ax (0, 6) None; ax (6, 2) None; ax (1, 7) None; ax (7, 3) None; ax (0, 1) None; ax (2, 3) None] [] (fun c => at0 c 0 =? 1) [] [] [].
Definition ex133_mf : list (Z * list (list Z)) := [(0, [[0; 6; 7; 1]]); (1, [[0; 1; 7; 3; 2; 6]]); (2, [[6; 2; 3; 7]])].
Lemma ex133_pos : pos (AV ex133 0) = [0; 0]%Qc /\ pos (AV ex133 1) = [0; 1]%Qc /\ pos (AV ex133 2) = [1; 0]%Qc /\ pos (AV ex133 3) = [1; 1]%Qc /\ pos (AV ex133 6) = [qhalf; 0]%Qc /\ pos (AV ex133 7) = [qhalf; 1]%Qc.
Proof. repeat split; cbn; (f_equal; [|f_equal]); apply Qc_is_canon; reflexivity. Qed.
Ltac ex133_rw := destruct ex133_pos as (P0 & P1 & P2 & P3 & P6 & P7); rewrite ?P0, ?P1, ?P2, ?P3, ?P6, ?P7 in *; clear P0 P1 P2 P3 P6 P7.
Lemma ex133_verts i : In i [0; 1; 2; 3; 6; 7] -> v_wf 2 (AV ex133 i) /\ normalised (AV ex133 i).
Proof. intros H. repeat destruct H as [<-|H]; try destruct H; (split; [repeat split|repeat constructor; cbn; discriminate || reflexivity]). Qed.
Lemma not_half k : qhalf <> Z2Qc k.
Proof. intros E. assert (0 < k) by (apply Z2Qc_lt; rewrite <- E; reflexivity). assert (k < 1) by (apply Z2Qc_lt; rewrite <- E; reflexivity). lia. Qed.
Lemma ex133_inner : (forall d k, ~ on_plane (AV ex133) [6; 7] d k) /\ (forall d k, ~ on_plane (AV ex133) [7; 6] d k).
Proof.
  assert (H : forall d k, ~ on_plane (AV ex133) [6; 7] d k).
  { intros d k H. assert (H6 := H 6 ltac:(cbn; auto)). assert (H7 := H 7 ltac:(cbn; auto)). ex133_rw. destruct d as [|[|[|d]]]; cbn in H6, H7; try discriminate; apply Some_inj in H6, H7; [apply (not_half H6)|].
    rewrite <- H6 in H7. discriminate. }
  split; auto. intros d k X. apply (H d k). intros i [<-|[<-|[]]]; apply X; cbn; auto.
Qed.
Ltac split_in H := repeat match type of H with _ \/ _ => destruct H as [H|H] | False => destruct H end.
Example c133_witness : subdivision ex133 ex133_mf.
Proof.
  assert (VO : forall a b, In a [0; 1; 2; 3; 6; 7] -> In b [0; 1; 2; 3; 6; 7] -> verts_ok 2 (AV ex133) [a; b]) by (intros a b A B i [<-|[<-|[]]]; apply ex133_verts; auto).
  assert (CL : forall j, In j [0; 1; 2; 3; 6; 7] -> in_closed_cell [0; 0] (pos (AV ex133 j))).
  { intros j H. repeat destruct H as [<-|H]; try destruct H; ex133_rw; repeat constructor; discriminate. }
  constructor.
  - split; [reflexivity|repeat constructor].
  - intros e a b H E. cbn in H. repeat destruct H as [<-|H]; try destruct H; cbn in E; injection E as <- <-; (split; [apply VO; cbn; tauto|]); (split; [ex133_rw; intros X; discriminate X|]);
      exists [0; 0]; (split; [reflexivity|]); (split; [reflexivity|]); intros j [<-|[<-|[]]]; apply CL; cbn; tauto.
  - intros e a b H E. left. cbn in H. repeat destruct H as [<-|H]; try destruct H; cbn in E; injection E as <- <-; unfold increasing; ex133_rw;
      ((exists 0%nat; cbn; do 2 eexists; split; [reflexivity|split; [reflexivity|reflexivity]]) || (exists 1%nat; cbn; do 2 eexists; split; [reflexivity|split; [reflexivity|reflexivity]])).
  - assert (R : forall e a b, runs (map e2_ix (m2_edges ex133)) e a b -> In (e, (a, b)) [(0, (6, 7)); (1, (0, 6)); (2, (6, 2)); (3, (1, 7)); (4, (7, 3)); (5, (0, 1)); (6, (2, 3))]).
    { intros e a b [H0 H]. rewrite <- (Z2Nat.id e) by auto. destruct (Z.to_nat e) as [|[|[|[|[|[|[|n]]]]]]]; cbn in H; try (destruct n; discriminate); injection H as <- <-; cbn; tauto. }
    intros e e' a b [H|H] [H'|H']; apply R in H, H'; cbn in H, H'; split_in H; injection H as <- <- <-; split_in H'; congruence.
  - vm_compute. repeat constructor; cbn; intuition discriminate.
  - intros a b. split.
    + intros (p & I & H). cbn in I. repeat destruct I as [<-|I]; try destruct I; vm_compute in H; split_in H; injection H as <- <-;
        ((exists 0; ((left; split; [lia|reflexivity]) || (right; split; [lia|reflexivity]))) || (exists 1; ((left; split; [lia|reflexivity]) || (right; split; [lia|reflexivity]))) ||
         (exists 2; ((left; split; [lia|reflexivity]) || (right; split; [lia|reflexivity]))) || (exists 3; ((left; split; [lia|reflexivity]) || (right; split; [lia|reflexivity]))) ||
         (exists 4; ((left; split; [lia|reflexivity]) || (right; split; [lia|reflexivity]))) || (exists 5; ((left; split; [lia|reflexivity]) || (right; split; [lia|reflexivity]))) ||
         (exists 6; ((left; split; [lia|reflexivity]) || (right; split; [lia|reflexivity])))).
    + intros (e & J). assert (X : exists p, In p ex133_mf /\ existsb (fun x => (fst x =? a) && (snd x =? b))%bool (face_sides (snd p)) = true).
      { destruct J as [[H0 H]|[H0 H]]; (destruct (Z.to_nat e) as [|[|[|[|[|[|[|n]]]]]]]; cbn in H; try (destruct n; discriminate); injection H as <- <-);
          ((exists (0, [[0; 6; 7; 1]]); split; [cbn; tauto|reflexivity]) || (exists (1, [[0; 1; 7; 3; 2; 6]]); split; [cbn; tauto|reflexivity]) || (exists (2, [[6; 2; 3; 7]]); split; [cbn; tauto|reflexivity])). }
      destruct X as (p & I & X). apply existsb_exists in X as ([x y] & Hx & E). cbn in E. apply andb_true_iff in E as [E1 E2]. apply Z.eqb_eq in E1, E2. subst. eauto.
  - intros i f I. cbn in I. split_in I; injection I as <- <-; (split; [vm_compute; repeat constructor; cbn; intuition discriminate|]); intros a b H; vm_compute in H;
      repeat (destruct H as [E|H]; [injection E as <- <-; vm_compute; intuition discriminate|]); destruct H.
  - intros i f I N. cbn in I. assert (FO : forall l, In l [[0; 6; 7; 1]; [0; 1; 7; 3; 2; 6]; [6; 2; 3; 7]] -> face_ok (AV ex133) [l]).
    { intros l Hl. split; [discriminate|]. split; [intros l' [<-|[]]; repeat destruct Hl as [<-|Hl]; try destruct Hl; discriminate|]. intros j Hj. apply ex133_verts. cbn in Hj. rewrite app_nil_r in Hj.
      repeat destruct Hl as [<-|Hl]; try destruct Hl; cbn in Hj |- *; tauto. }
    destruct I as [I|[I|[I|[]]]]; injection I as <- <-; (split; [apply FO; cbn; tauto|]).
    + left. exists [0; 0]. split; [reflexivity|]. split; [reflexivity|]. split; [intros j Hj; apply CL; cbn in Hj |- *; tauto|]. split; [reflexivity|].
      intros a b d k H PL. vm_compute in H. destruct H as [H|[H|[H|[H|[]]]]]; injection H as <- <-; [| destruct (proj1 ex133_inner d k (proj1 PL))| |]; ex133_rw; reflexivity.
    + right. split.
      * exists [0; 0]. split; [|split; [reflexivity|left; reflexivity]]. split; [reflexivity|]. intros [|[|j]] cj E; [| |destruct j; discriminate]; injection E as <-;
          (split; [exists 0; split; [cbn; auto|reflexivity]|]); intros j x Hj Ex; cbn in Hj; repeat destruct Hj as [<-|Hj]; try destruct Hj; vm_compute in Ex; injection Ex as <-; lia.
      * intros a b H. assert (IN : In a [0; 1; 2; 3; 6; 7] /\ In b [0; 1; 2; 3; 6; 7] /\ pos (AV ex133 a) <> pos (AV ex133 b)) by (vm_compute in H; split_in H; injection H as <- <-; cbn; ex133_rw; (split; [tauto|split; [tauto|intros X; discriminate X]])).
        destruct IN as (IA & IB & NE). split.
        { assert (P : exists d k, on_plane (AV ex133) [a; b] d k).
          { vm_compute in H. destruct H as [H|[H|[H|[H|[H|[H|[]]]]]]]; injection H as <- <-; [exists 0%nat, 0|exists 1%nat, 1|exists 1%nat, 1|exists 0%nat, 1|exists 1%nat, 0|exists 1%nat, 0]; intros j [<-|[<-|[]]]; ex133_rw; cbn; f_equal; apply Qc_is_canon; reflexivity. }
          destruct P as (d & k & P). exists d, k. apply plane_only; auto. }
        intros c HC LC IS. assert (L2 := in_shape_length _ _ IS). destruct c as [|x [|y [|? ?]]]; try discriminate. unfold in_shape in IS. cbn in IS.
        assert (R : 0 <= x < 2 /\ y = 0) by lia. destruct R as [RX ->]. vm_compute in H. assert (CX : x = 0 \/ x = 1) by lia.
        destruct CX; subst x; [|reflexivity]. exfalso. revert LC.
        destruct H as [H|[H|[H|[H|[H|[H|[]]]]]]]; injection H as <- <-; ex133_rw; cbn; intros X; vm_compute in X; discriminate.
    + left. exists [0; 0]. split; [reflexivity|]. split; [reflexivity|]. split; [intros j Hj; apply CL; cbn in Hj |- *; tauto|]. split; [reflexivity|].
      intros a b d k H PL. vm_compute in H. destruct H as [H|[H|[H|[H|[]]]]]; injection H as <- <-; [| | |destruct (proj2 ex133_inner d k (proj1 PL))]; ex133_rw; reflexivity.
Qed.

(** ** REFUTED without the condition that a region of uncut cells is recognisable *)
(** a 4x4 grid in which the three cells (2,1), (1,2), (2,2) are uncut: they form one region whose bounding box has its lower corner in the cut cell (1,1) *)
Definition ex133_L : mesh2 := mkMesh2 (0, 0)%Qc (1, 1)%Qc [4; 4] [] [ax (0, 5) None; ax (0, 1) None; ax (1, 6) None; ax (1, 2) None; ax (2, 7) None; ax (2, 3) None; ax (3, 8) None; ax (3, 4) None; ax (4, 9) None; ax (5, 10) None; ax (5, 6) None; ax (6, 11) None; ax (6, 7) None; ax (7, 12) None; ax (7, 8) None; ax (8, 13) None; ax (8, 9) None; ax (9, 14) None; ax (10, 15) None; ax (10, 11) None; ax (11, 16) None; ax (11, 12) None; ax (13, 18) None; ax (13, 14) None; ax (14, 19) None; ax (15, 20) None; ax (15, 16) None; ax (16, 21) None; ax (16, 17) None; ax (17, 22) None; ax (17, 18) None; ax (18, 23) None; ax (18, 19) None; ax (19, 24) None; ax (20, 21) None; ax (21, 22) None; ax (22, 23) None; ax (23, 24) None] [] c105_uncut [] [] [].
Definition ex133_Lmf : list (Z * list (list Z)) := [(0, [[0; 5; 6; 1]]); (1, [[1; 6; 7; 2]]); (2, [[2; 7; 8; 3]]); (3, [[3; 8; 9; 4]]); (4, [[5; 10; 11; 6]]); (5, [[6; 11; 12; 7]]); (6, [[8; 13; 14; 9]]); (7, [[10; 15; 16; 11]]); (8, [[13; 18; 19; 14]]); (9, [[15; 20; 21; 16]]); (10, [[16; 21; 22; 17]]); (11, [[17; 22; 23; 18]]); (12, [[18; 23; 24; 19]]); (13, [[11; 16; 17; 18; 13; 8; 7; 12]]); (14, [[0; 1; 2; 3; 4; 9; 14; 19; 24; 23; 22; 21; 20; 15; 10; 5]])].
Fixpoint nodupb (l : list edge) : bool := match l with [] => true | x :: t => negb (existsb (fun y => (fst x =? fst y) && (snd x =? snd y))%bool t) && nodupb t end.
Lemma edge_mem x l : existsb (fun y : edge => (fst x =? fst y) && (snd x =? snd y))%bool l = true <-> In x l.
Proof.
  rewrite existsb_exists. destruct x as [a b]. split.
  - intros ([c d] & I & E). cbn in E. apply andb_true_iff in E as [E1 E2]. apply Z.eqb_eq in E1, E2. subst. auto.
  - intros I. exists (a, b). split; auto. cbn. rewrite !Z.eqb_refl. auto.
Qed.
Lemma nodupb_spec l : nodupb l = true -> NoDup l.
Proof.
  induction l as [|x l IH]; cbn; [constructor|]. intros H. apply andb_true_iff in H as [H1 H2]. constructor; auto. intros I. apply (proj2 (edge_mem x l)) in I. apply negb_true_iff in H1. eapply eq_true_false_abs; [exact I|exact H1].
Qed.
(** the faces and edges fit together as in [subdivision], the face 13 is the union of the three uncut cells, and yet it is kept as a cut cell: some edge has three cells, and the laplacian of the
    generated mesh does not annihilate constants *)
Theorem c133_uncut_refuted : exists base mf m B r h c, let es := map e2_ix (m2_edges base) in
  NoDup (flat_map (fun p => face_sides (snd p)) mf) /\
  (forall p a b, In p mf -> In (a, b) (face_sides (snd p)) -> exists e, joins es e a b) /\
  (forall e a b, runs es e a b -> (exists p, In p mf /\ In (a, b) (face_sides (snd p))) /\ exists p, In p mf /\ In (b, a) (face_sides (snd p))) /\
  (forall p a b, In p mf -> In (a, b) (face_sides (snd p)) -> ~ In (b, a) (face_sides (snd p))) /\
  generate2 (fun _ _ _ => true) base mf = Some m /\ boundary2 m false = Some B /\ mulv B (fun _ => 1%Qc) r <> 0%Qc /\ lap B h (fun _ => 1%Qc) c <> 0%Qc.
Proof.
  exists ex133_L, ex133_Lmf. eexists. eexists. exists 20, (fun _ => 1%Qc), 13. cbv zeta. split; [apply nodupb_spec; vm_compute; reflexivity|]. split; [|split; [|split; [|split; [vm_compute; reflexivity|split; [vm_compute; reflexivity|]]]]].
  - intros p a b I H. assert (X : forallb (fun p => forallb (fun x => existsb (fun i => match nth_error (map e2_ix (m2_edges ex133_L)) (Z.to_nat i) with
        | Some y => ((fst x =? fst y) && (snd x =? snd y)) || ((fst x =? snd y) && (snd x =? fst y)) | None => false end)%bool (zrange 0 38)) (face_sides (snd p))) ex133_Lmf = true) by (vm_compute; reflexivity).
    rewrite forallb_forall in X. specialize (X _ I). rewrite forallb_forall in X. specialize (X _ H). apply existsb_exists in X as (e & Ie & X). apply zrange_In in Ie. exists e.
    destruct (nth_error (map e2_ix (m2_edges ex133_L)) (Z.to_nat e)) as [[u v]|] eqn:N; [|discriminate]. cbn in X. apply orb_true_iff in X. rewrite !andb_true_iff, !Z.eqb_eq in X. destruct X as [[-> ->]|[-> ->]]; [left|right]; split; auto; lia.
  - intros e a b [_ H]. apply nth_error_In in H.
    assert (X : forallb (fun y => existsb (fun p => existsb (fun z => (fst y =? fst z) && (snd y =? snd z))%bool (face_sides (snd p))) ex133_Lmf && existsb (fun p => existsb (fun z => (snd y =? fst z) && (fst y =? snd z))%bool (face_sides (snd p))) ex133_Lmf)%bool (map e2_ix (m2_edges ex133_L)) = true) by (vm_compute; reflexivity).
    rewrite forallb_forall in X. specialize (X _ H). apply andb_true_iff in X as [X Y]. apply existsb_exists in X as (p & Ip & X), Y as (q & Iq & Y). split; [exists p|exists q]; (split; [auto|]).
    + apply (proj1 (edge_mem (a, b) _)). exact X.
    + apply (proj1 (edge_mem (b, a) _)). exact Y.
  - intros p a b I H K. assert (X : forallb (fun p => forallb (fun y => negb (existsb (fun z => (snd y =? fst z) && (fst y =? snd z))%bool (face_sides (snd p)))) (face_sides (snd p))) ex133_Lmf = true) by (vm_compute; reflexivity).
    rewrite forallb_forall in X. specialize (X _ I). rewrite forallb_forall in X. specialize (X _ H). apply (proj2 (edge_mem (b, a) _)) in K. apply negb_true_iff in X. eapply eq_true_false_abs; [exact K|exact X].
  - split; intros E; apply (f_equal this) in E; vm_compute in E; discriminate.
Qed.
