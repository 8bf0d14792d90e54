From Verif Require Import Base Num CoordMask Vertex VertexSpec VertexProofs Grid SubGrid.
Local Open Scope Z_scope.

Ltac axis3 axis := destruct axis as [|[|[|axis]]]; [| | |exfalso; lia].

Lemma len2 (A : Type) (l : list A) : length l = 2%nat -> exists a b, l = [a; b].
Proof. destruct l as [|a [|b [|]]]; try discriminate; eauto. Qed.
Lemma len3 (A : Type) (l : list A) : length l = 3%nat -> exists a b c, l = [a; b; c].
Proof. destruct l as [|a [|b [|c [|]]]]; try discriminate; eauto. Qed.

Lemma upgrade_spec (A : Type) axis (c2 : list A) v : (axis < 3)%nat -> length c2 = 2%nat ->
  exists c3, upgrade axis c2 v = Some c3 /\ length c3 = 3%nat /\ nth_error c3 axis = Some v /\
    downgrade axis c3 = Some c2.
Proof.
  intros Ha Hl. apply len2 in Hl as (a & b & ->). axis3 axis; simpl; eexists; repeat split; reflexivity.
Qed.

Lemma downgrade_upgrade (A : Type) axis (c3 : list A) : (axis < 3)%nat -> length c3 = 3%nat ->
  exists c2 v, downgrade axis c3 = Some c2 /\ length c2 = 2%nat /\ nth_error c3 axis = Some v /\
    upgrade axis c2 v = Some c3.
Proof.
  intros Ha Hl. apply len3 in Hl as (a & b & c & ->). axis3 axis; simpl; do 2 eexists; repeat split; reflexivity.
Qed.

Lemma vertex_roundtrip_up axis c v : (axis < 3)%nat -> v_wf 2 v ->
  exists w, upgrade_vertex axis c v = Some w /\ v_wf 3 w /\ downgrade_vertex axis w = Some v /\
    nth_error (pos w) axis = Some (Z2Qc c) /\ nth_error (v_clamped w) axis = Some true.
Proof.
  intros Ha (H1 & H2 & H3). unfold upgrade_vertex, downgrade_vertex.
  destruct (upgrade_spec _ axis (v_coord v) c Ha H1) as (c3 & -> & L1 & N1 & D1).
  destruct (upgrade_spec _ axis (v_quot v) 0%Qc Ha H2) as (q3 & -> & L2 & N2 & D2).
  destruct (upgrade_spec _ axis (v_clamped v) true Ha H3) as (b3 & -> & L3 & N3 & D3).
  eexists; split; [reflexivity|]. split; [repeat split; auto|]. simpl. rewrite D1, D2, D3. split; [destruct v; reflexivity|].
  split; auto. rewrite (pos_nth_error _ axis c 0%Qc); auto. f_equal. ring.
Qed.

Lemma vertex_roundtrip_down axis c w : (axis < 3)%nat -> v_wf 3 w ->
  nth_error (v_coord w) axis = Some c -> nth_error (v_quot w) axis = Some 0%Qc ->
  nth_error (v_clamped w) axis = Some true ->
  exists v, downgrade_vertex axis w = Some v /\ v_wf 2 v /\ upgrade_vertex axis c v = Some w.
Proof.
  intros Ha (H1 & H2 & H3) N1 N2 N3. unfold upgrade_vertex, downgrade_vertex.
  destruct (downgrade_upgrade _ axis (v_coord w) Ha H1) as (c2 & x & -> & L1 & M1 & D1).
  destruct (downgrade_upgrade _ axis (v_quot w) Ha H2) as (q2 & y & -> & L2 & M2 & D2).
  destruct (downgrade_upgrade _ axis (v_clamped w) Ha H3) as (b2 & z & -> & L3 & M3 & D3).
  eexists; split; [reflexivity|]. split; [repeat split; auto|]. simpl.
  rewrite N1 in M1; rewrite N2 in M2; rewrite N3 in M3. apply Some_inj in M1; apply Some_inj in M2; apply Some_inj in M3. subst.
  rewrite D1, D2, D3. destruct w; reflexivity.
Qed.

Lemma downgrade_in_shape axis s3 s2 c3 c2 : (axis < 3)%nat -> downgrade axis s3 = Some s2 -> length s3 = 3%nat ->
  downgrade axis c3 = Some c2 -> in_shape s3 c3 = true -> in_shape s2 c2 = true.
Proof.
  intros Ha Hs L Hc Hin. assert (L' := in_shape_length _ _ Hin). rewrite L in L'.
  apply len3 in L as (x & y & z & ->). apply len3 in L' as (a & b & c & ->).
  simpl in Hin. axis3 axis; simpl in *; injection Hs as <-; injection Hc as <-; simpl;
  repeat (rewrite ?andb_true_iff in *); tauto.
Qed.

Lemma upgrade_in_shape axis s3 s2 c2 c n : (axis < 3)%nat -> downgrade axis s3 = Some s2 -> length s3 = 3%nat ->
  nth_error s3 axis = Some n -> 0 <= c < n -> in_shape s2 c2 = true ->
  exists c3, upgrade axis c2 c = Some c3 /\ in_shape s3 c3 = true /\ downgrade axis c3 = Some c2.
Proof.
  intros Ha Hs L Hn Hc Hin. apply len3 in L as (x & y & z & ->).
  axis3 axis; simpl in *; injection Hs as <-; injection Hn as <-;
  (assert (L' := in_shape_length _ _ Hin); simpl in L'; apply len2 in L' as (a & b & ->));
  (eexists; split; [reflexivity|]); simpl in *; (split; [|reflexivity]);
  repeat (rewrite ?andb_true_iff in *); intuition lia.
Qed.

Lemma index_roundtrip axis s3 s2 n c i : (axis < 3)%nat -> length s3 = 3%nat -> pos_shape s3 ->
  downgrade axis s3 = Some s2 -> nth_error s3 axis = Some n -> 0 <= c < n -> 0 <= i < shape_size s2 ->
  exists j, upgrade_index s2 s3 axis c i = Some j /\ 0 <= j < shape_size s3 /\ downgrade_index s2 s3 axis j = Some i.
Proof.
  intros Ha L HP Hs Hn Hc Hi.
  assert (HP2 : pos_shape s2).
  { apply len3 in L as (x & y & z & ->). unfold pos_shape in *.
    axis3 axis; simpl in Hs; injection Hs as <-; repeat match goal with H : Forall _ (_ :: _) |- _ => inversion H; clear H; subst end; repeat constructor; auto. }
  destruct (unravel_in HP2 Hi) as [U1 U2].
  destruct (upgrade_in_shape axis s3 s2 (unravel s2 i) c n Ha Hs L Hn Hc U1) as (c3 & E1 & E2 & E3).
  unfold upgrade_index, downgrade_index. rewrite E1. simpl. eexists; split; [reflexivity|].
  split; [apply ravel_range; auto|]. rewrite unravel_ravel by auto. rewrite E3. simpl. congruence.
Qed.
