(** Exact numbers standing for C++ double: canonical rationals Qc of the standard library
    (Leibniz equality, computable).  Rounding, NaN and infinities are not represented. *)
From Coq Require Export QArith Qcanon Qround Lqa.
From Verif Require Export Base.
Set Implicit Arguments.
Local Open Scope Qc_scope.

Definition Z2Qc (z : Z) : Qc := Q2Qc (inject_Z z).
(** std::floor *)
Definition qfloor (x : Qc) : Z := Qfloor (this x).
Definition qcmp (x y : Qc) : comparison := Qccompare x y.
Definition qltb (x y : Qc) : bool := match qcmp x y with Lt => true | _ => false end.
Definition qleb (x y : Qc) : bool := match qcmp x y with Gt => false | _ => true end.
Definition qeqb (x y : Qc) : bool := match qcmp x y with Eq => true | _ => false end.
(** std::abs *)
Definition qabs (x : Qc) : Qc := if qltb x 0 then - x else x.
Definition qhalf : Qc := Q2Qc (1 # 2).

Lemma qcmp_total : TotalCmp qcmp.
Proof.
  split; unfold qcmp, Qccompare.
  - intros x y. rewrite <- Qeq_alt. split; [apply Qc_is_canon|intros ->; reflexivity].
  - intros x y. rewrite Qcompare_antisym; reflexivity.
  - intros x y z. rewrite <- !Qlt_alt. apply Qlt_trans.
Qed.

Lemma qltb_lt x y : qltb x y = true <-> x < y.
Proof.
  unfold qltb, qcmp, Qccompare, Qclt. rewrite Qlt_alt.
  destruct (Qcompare x y); split; congruence.
Qed.
Lemma qleb_le x y : qleb x y = true <-> x <= y.
Proof.
  unfold qleb, qcmp, Qccompare, Qcle. rewrite Qle_alt.
  destruct (Qcompare x y); split; congruence.
Qed.
Lemma qeqb_eq x y : qeqb x y = true <-> x = y.
Proof.
  unfold qeqb. rewrite <- (tc_eq qcmp_total). destruct (qcmp x y); split; congruence.
Qed.
Lemma qltb_ge x y : qltb x y = false <-> y <= x.
Proof.
  rewrite <- Bool.not_true_iff_false, qltb_lt. unfold Qclt, Qcle. split; intros; [apply Qnot_lt_le; auto|apply Qle_not_lt; auto].
Qed.
Lemma qleb_gt x y : qleb x y = false <-> y < x.
Proof.
  rewrite <- Bool.not_true_iff_false, qleb_le. unfold Qclt, Qcle. split; intros; [apply Qnot_le_lt; auto|apply Qlt_not_le; auto].
Qed.
Lemma qeqb_neq x y : qeqb x y = false <-> x <> y.
Proof. rewrite <- Bool.not_true_iff_false, qeqb_eq; tauto. Qed.

(** Transfer of Qc goals and hypotheses to Q, for lra. *)
Lemma this_plus x y : (this (x + y) == this x + this y)%Q.
Proof. apply Qred_correct. Qed.
Lemma this_mult x y : (this (x * y) == this x * this y)%Q.
Proof. apply Qred_correct. Qed.
Lemma this_opp x : (this (- x) == - this x)%Q.
Proof. apply Qred_correct. Qed.
Lemma this_minus x y : (this (x - y) == this x - this y)%Q.
Proof. unfold Qcminus. rewrite this_plus, this_opp. reflexivity. Qed.
Lemma this_Q2Qc q : (this (Q2Qc q) == q)%Q.
Proof. apply Qred_correct. Qed.
Lemma this_inv x : (this (/ x) == / this x)%Q.
Proof. apply Qred_correct. Qed.
Lemma this_0 : (this 0 == 0)%Q. Proof. reflexivity. Qed.
Lemma this_1 : (this 1 == 1)%Q. Proof. reflexivity. Qed.
Lemma this_half : (this qhalf == 1 # 2)%Q. Proof. reflexivity. Qed.
Lemma this_Z2Qc z : (this (Z2Qc z) == inject_Z z)%Q.
Proof. apply Qred_correct. Qed.
Lemma qc_eq_Q x y : x = y <-> (this x == this y)%Q.
Proof. split; [intros ->; reflexivity|apply Qc_is_canon]. Qed.

Lemma inject_Z_minus a b : inject_Z (a - b) = (inject_Z a - inject_Z b)%Q.
Proof. unfold Z.sub, Qminus. rewrite inject_Z_plus, inject_Z_opp; reflexivity. Qed.

Ltac q_push :=
  repeat match goal with
  | H : context [this (_ + _)%Qc] |- _ => rewrite !this_plus in H
  | H : context [this (_ * _)%Qc] |- _ => rewrite !this_mult in H
  | H : context [this (_ - _)%Qc] |- _ => rewrite !this_minus in H
  | H : context [this (- _)%Qc] |- _ => rewrite !this_opp in H
  | H : context [this (Z2Qc _)] |- _ => rewrite !this_Z2Qc in H
  | H : context [this 0%Qc] |- _ => rewrite !this_0 in H
  | H : context [this 1%Qc] |- _ => rewrite !this_1 in H
  | H : context [this qhalf] |- _ => rewrite !this_half in H
  | |- context [this (_ + _)%Qc] => rewrite !this_plus
  | |- context [this (_ * _)%Qc] => rewrite !this_mult
  | |- context [this (_ - _)%Qc] => rewrite !this_minus
  | |- context [this (- _)%Qc] => rewrite !this_opp
  | |- context [this (Z2Qc _)] => rewrite !this_Z2Qc
  | |- context [this 0%Qc] => rewrite !this_0
  | |- context [this 1%Qc] => rewrite !this_1
  | |- context [this qhalf] => rewrite !this_half
  end.
Ltac q_hyps :=
  repeat match goal with
  | H : @eq Qc _ _ |- _ => apply (proj1 (qc_eq_Q _ _)) in H
  end.
(** Decide linear facts over Qc. *)
Ltac qc_lra :=
  unfold Qclt, Qcle in *; q_hyps; try apply (proj2 (qc_eq_Q _ _)); q_push;
  rewrite ?inject_Z_plus, ?inject_Z_minus, ?inject_Z_opp, ?inject_Z_mult in *;
  try change (inject_Z 0) with 0%Q in *; try change (inject_Z 1) with 1%Q in *; lra.

Lemma Z2Qc_plus a b : Z2Qc (a + b) = Z2Qc a + Z2Qc b.
Proof. apply Qc_is_canon. rewrite this_plus, !this_Z2Qc, inject_Z_plus; reflexivity. Qed.
Lemma Z2Qc_opp a : Z2Qc (- a) = - Z2Qc a.
Proof. apply Qc_is_canon. rewrite this_opp, !this_Z2Qc, inject_Z_opp; reflexivity. Qed.
Lemma Z2Qc_minus a b : Z2Qc (a - b) = Z2Qc a - Z2Qc b.
Proof. unfold Z.sub, Qcminus. rewrite Z2Qc_plus, Z2Qc_opp; auto. Qed.
Lemma Z2Qc_mult a b : Z2Qc (a * b) = Z2Qc a * Z2Qc b.
Proof. apply Qc_is_canon. rewrite this_mult, !this_Z2Qc, inject_Z_mult; reflexivity. Qed.
Lemma Z2Qc_0 : Z2Qc 0 = 0. Proof. apply Qc_is_canon; reflexivity. Qed.
Lemma Z2Qc_1 : Z2Qc 1 = 1. Proof. apply Qc_is_canon; reflexivity. Qed.
Lemma Z2Qc_lt a b : Z2Qc a < Z2Qc b <-> (a < b)%Z.
Proof. unfold Qclt. rewrite !this_Z2Qc. rewrite <- Zlt_Qlt. tauto. Qed.
Lemma Z2Qc_le a b : Z2Qc a <= Z2Qc b <-> (a <= b)%Z.
Proof. unfold Qcle. rewrite !this_Z2Qc. rewrite <- Zle_Qle. tauto. Qed.
Lemma Z2Qc_inj a b : Z2Qc a = Z2Qc b <-> a = b.
Proof.
  split; [|intros ->; auto]. intros H.
  apply Z.le_antisymm; apply -> Z2Qc_le; rewrite H; apply Qcle_refl.
Qed.

Lemma qfloor_spec x : Z2Qc (qfloor x) <= x /\ x < Z2Qc (qfloor x) + 1.
Proof.
  unfold qfloor, Qcle, Qclt. rewrite this_plus, !this_Z2Qc. split.
  - apply Qfloor_le.
  - assert (H := Qlt_floor (this x)). rewrite inject_Z_plus in H. exact H.
Qed.
Lemma qfloor_unique x z : Z2Qc z <= x -> x < Z2Qc z + 1 -> qfloor x = z.
Proof.
  intros H1 H2. destruct (qfloor_spec x) as [H3 H4].
  assert (Z2Qc z < Z2Qc (qfloor x + 1)) by (rewrite Z2Qc_plus, Z2Qc_1; eapply Qcle_lt_trans; eauto).
  assert (Z2Qc (qfloor x) < Z2Qc (z + 1)) by (rewrite Z2Qc_plus, Z2Qc_1; eapply Qcle_lt_trans; eauto).
  apply -> Z2Qc_lt in H; apply -> Z2Qc_lt in H0. lia.
Qed.
Lemma qfloor_Z z : qfloor (Z2Qc z) = z.
Proof. apply qfloor_unique; qc_lra. Qed.
