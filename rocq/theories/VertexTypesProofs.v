From Verif Require Import Base Num CoordMask Vertex VertexSpec VertexProofs ThresholdProofs VertexTypes.
Local Open Scope Qc_scope.

(** within one parent edge, with coordinates in range, < is the coordinate order *)
Lemma ei_same_edge a b : 0 <= ei_coord a -> ei_index a = ei_index b ->
  (ei_ltb a b = true <-> ei_coord a < ei_coord b).
Proof.
  intros H0 HE. unfold ei_ltb. rewrite HE, Z.eqb_refl. apply qleb_le in H0. rewrite H0. simpl. apply qltb_lt.
Qed.

Lemma ei_irrefl a : ei_ltb a a = false.
Proof.
  unfold ei_ltb. rewrite Z.eqb_refl, Z.ltb_irrefl. destruct (qleb 0 (ei_coord a)); simpl; auto.
  apply qltb_ge. apply Qcle_refl.
Qed.

Lemma ei_asym a b : ei_ltb a b = true -> ei_ltb b a = false.
Proof.
  unfold ei_ltb. destruct (ei_index a =? ei_index b)%Z eqn:E.
  - apply Z.eqb_eq in E. rewrite E, Z.eqb_refl, !Z.ltb_irrefl. rewrite !andb_true_r.
    destruct (qleb 0 (ei_coord a)); simpl; [|discriminate]. intros H. apply qltb_lt in H.
    destruct (qleb 0 (ei_coord b)); simpl; auto. apply qltb_ge. qc_lra.
  - rewrite Z.eqb_sym, E, !andb_false_r. intros H. apply andb_true_iff in H as [H _].
    apply Z.ltb_lt in H. replace (ei_index b <? ei_index a)%Z with false by (symmetry; apply Z.ltb_ge; lia). auto.
Qed.

Lemma ei_same_edge_swo a b c :
  0 <= ei_coord a -> 0 <= ei_coord b -> 0 <= ei_coord c -> ei_index a = ei_index b -> ei_index b = ei_index c ->
  (ei_ltb a b = true -> ei_ltb b c = true -> ei_ltb a c = true) /\
  (ei_ltb a b = false -> ei_ltb b c = false -> ei_ltb a c = false).
Proof.
  intros Ha Hb Hc E1 E2. assert (S := fun x y => ei_same_edge x y).
  split; intros H1 H2.
  - apply S in H1; auto. apply S in H2; auto. apply S; auto; [congruence|]. eapply Qclt_trans; eauto.
  - apply not_true_iff_false. apply not_true_iff_false in H1. apply not_true_iff_false in H2.
    rewrite S in * by (auto; congruence). intros H.
    apply Qcnot_lt_le in H1. apply Qcnot_lt_le in H2. apply (Qclt_not_le _ _ H). eapply Qcle_trans; eauto.
Qed.
