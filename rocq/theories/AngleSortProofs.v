From Verif Require Import Base Num AngleSort AngleSortSpec.
From Coq Require Import Permutation Sorted Lqa.
Local Open Scope Qc_scope.

Ltac qc_nra :=
  unfold Qclt, Qcle in *; q_hyps; try apply (proj2 (qc_eq_Q _ _)); q_push; nra.

Lemma qlt_cases (x : Qc) : x < 0 \/ x = 0 \/ 0 < x.
Proof.
  destruct (Qc_dec x 0) as [[H|H]|H]; auto.
Qed.
Lemma mul_pos (a b : Qc) : 0 < a -> 0 < b -> 0 < a * b.
Proof. intros. qc_nra. Qed.
Lemma mul_pos_inv (s x : Qc) : 0 < s -> 0 < s * x -> 0 < x.
Proof. intros. qc_nra. Qed.
Lemma mul_nonpos_inv (s x : Qc) : 0 < s -> s * x <= 0 -> x <= 0.
Proof. intros. qc_nra. Qed.
(** the cross product order on vectors with a positive functional s is transitive *)
Lemma cross_trans (p q : Qc) (s := fun v : vec2 => p * fst v + q * snd v) (a b c : vec2) :
  0 < s a -> 0 < s b -> 0 < s c ->
  (0 < cross a b -> 0 < cross b c -> 0 < cross a c) /\ (cross a b <= 0 -> cross b c <= 0 -> cross a c <= 0).
Proof.
  intros Ha Hb Hc.
  assert (ID : s b * cross a c = s a * cross b c + s c * cross a b) by (unfold s, cross; ring).
  clearbody s. set (x := cross a c) in *. set (y := cross b c) in *. set (z := cross a b) in *. clearbody x y z. split; intros H1 H2.
  - apply (mul_pos_inv (s b)); auto. rewrite ID. assert (A1 := mul_pos _ _ Ha H2). assert (A2 := mul_pos _ _ Hc H1). qc_lra.
  - apply (mul_nonpos_inv (s b)); auto. rewrite ID. qc_nra.
Qed.

Lemma comp_cross a b : quadrant a = quadrant b -> (comp a b = true <-> 0 < cross a b).
Proof.
  intros E. unfold comp. rewrite E, Z.eqb_refl, qltb_lt. unfold cross. split; intros H; qc_lra.
Qed.
Lemma quadrant_pos a : nonzero a -> exists p q, forall b, nonzero b -> quadrant b = quadrant a -> 0 < p * fst b + q * snd b.
Proof.
  intros _. 
  assert (NZ : forall b, nonzero b -> fst b <> 0 \/ snd b <> 0).
  { intros [x y] H. destruct (qlt_cases x) as [?|[->|?]]; [left; simpl; intros ->; qc_lra| |left; simpl; intros ->; qc_lra].
    right. simpl. intros ->. apply H; auto. }
  exists (if (quadrant a =? 1)%Z || (quadrant a =? 2)%Z then -(1) else 1), (if (quadrant a =? 1)%Z || (quadrant a =? 4)%Z then 1 else -(1)).
  intros b Hb E. rewrite <- E. apply NZ in Hb. clear NZ E a. destruct b as [x y]; unfold quadrant; cbn [fst snd] in *.
  destruct (qltb y 0) eqn:Ey; [apply qltb_lt in Ey|apply qltb_ge in Ey]; (destruct (qltb x 0) eqn:Ex; [apply qltb_lt in Ex|apply qltb_ge in Ex]); simpl nth; simpl Z.leb; simpl Z.eqb; cbn [orb]; cbv iota; cbn match; try qc_lra.
  destruct Hb as [H|H]; [destruct (qlt_cases x) as [?|[->|?]]|destruct (qlt_cases y) as [?|[->|?]]]; try congruence; qc_lra.
Qed.

Lemma comp_irrefl a : comp a a = false.
Proof. apply Bool.not_true_iff_false. rewrite comp_cross by auto. unfold cross. intros H. qc_lra. Qed.
Lemma comp_trans a b c : nonzero a -> nonzero b -> nonzero c -> comp a b = true -> comp b c = true -> comp a c = true.
Proof.
  intros Ha Hb Hc H1 H2. destruct (Z.eq_dec (quadrant a) (quadrant b)) as [E|E].
  - destruct (Z.eq_dec (quadrant b) (quadrant c)) as [E'|E'].
    + apply comp_cross in H1, H2; auto. apply comp_cross; [congruence|].
      destruct (quadrant_pos b Hb) as (p & q & Q). eapply (cross_trans p q a b c); auto; apply Q; auto.
    + unfold comp in *. rewrite (proj2 (Z.eqb_neq _ _)) in H2 by auto. rewrite E. rewrite (proj2 (Z.eqb_neq _ _)) by auto. auto.
  - unfold comp in H1. rewrite (proj2 (Z.eqb_neq _ _)) in H1 by auto. apply Z.ltb_lt in H1.
    destruct (Z.eq_dec (quadrant b) (quadrant c)) as [E'|E'].
    + unfold comp. rewrite <- E'. rewrite (proj2 (Z.eqb_neq _ _)) by auto. apply Z.ltb_lt; auto.
    + unfold comp in H2. rewrite (proj2 (Z.eqb_neq _ _)) in H2 by auto. apply Z.ltb_lt in H2.
      unfold comp. rewrite (proj2 (Z.eqb_neq _ _)) by lia. apply Z.ltb_lt. lia.
Qed.
Lemma comp_negtrans a b c : nonzero a -> nonzero b -> nonzero c -> comp a b = false -> comp b c = false -> comp a c = false.
Proof.
  intros Ha Hb Hc H1 H2. destruct (Z.eq_dec (quadrant a) (quadrant b)) as [E|E].
  - destruct (Z.eq_dec (quadrant b) (quadrant c)) as [E'|E'].
    + apply Bool.not_true_iff_false in H1, H2. apply Bool.not_true_iff_false. rewrite comp_cross in * by congruence.
      destruct (quadrant_pos b Hb) as (p & q & Q).
      assert (C := proj2 (cross_trans p q a b c (Q a Ha E) (Q b Hb eq_refl) (Q c Hc (eq_sym E')))).
      apply Qcnot_lt_le in H1, H2. apply Qcle_not_lt. auto.
    + unfold comp in *. rewrite (proj2 (Z.eqb_neq _ _)) in H2 by auto. rewrite E. rewrite (proj2 (Z.eqb_neq _ _)) by auto. auto.
  - unfold comp in H1. rewrite (proj2 (Z.eqb_neq _ _)) in H1 by auto. apply Z.ltb_ge in H1.
    destruct (Z.eq_dec (quadrant b) (quadrant c)) as [E'|E'].
    + unfold comp. rewrite <- E'. rewrite (proj2 (Z.eqb_neq _ _)) by auto. apply Z.ltb_ge; auto.
    + unfold comp in H2. rewrite (proj2 (Z.eqb_neq _ _)) in H2 by auto. apply Z.ltb_ge in H2.
      unfold comp. rewrite (proj2 (Z.eqb_neq _ _)) by lia. apply Z.ltb_ge. lia.
Qed.

Definition fhb (a : vec2) : bool := qltb (fst a) 0 || (qeqb (fst a) 0 && qltb (snd a) 0).
Lemma fhb_iff a : fhb a = true <-> first_half a.
Proof. unfold fhb, first_half. rewrite Bool.orb_true_iff, Bool.andb_true_iff, !qltb_lt, qeqb_eq. tauto. Qed.
Lemma ccw_bool a b : ccw_before a b <->
  if fhb a then (if fhb b then 0 < cross a b else True) else (if fhb b then False else 0 < cross a b).
Proof.
  unfold ccw_before. rewrite <- !fhb_iff. destruct (fhb a), (fhb b); intuition congruence.
Qed.
Lemma mul_pn (a b : Qc) : 0 < a -> b < 0 -> a * b < 0.
Proof. intros. qc_nra. Qed.
Lemma mul_np (a b : Qc) : a < 0 -> 0 < b -> a * b < 0.
Proof. intros. qc_nra. Qed.
Lemma mul_nn (a b : Qc) : a < 0 -> b < 0 -> 0 < a * b.
Proof. intros. qc_nra. Qed.
Ltac sign_mul x y :=
  match goal with
  | H : x < 0, H' : y < 0 |- _ => assert (0 < x * y) by (apply mul_nn; auto)
  | H : x < 0, H' : 0 < y |- _ => assert (x * y < 0) by (apply mul_np; auto)
  | H : 0 < x, H' : y < 0 |- _ => assert (x * y < 0) by (apply mul_pn; auto)
  | H : 0 < x, H' : 0 < y |- _ => assert (0 < x * y) by (apply mul_pos; auto)
  | _ => idtac
  end.
Lemma comp_ccw a b : nonzero a -> nonzero b -> (comp a b = true <-> ccw_before a b).
Proof.
  intros Ha0 Hb0. rewrite ccw_bool.
  assert (NZ : forall b, nonzero b -> ~ (fst b = 0 /\ snd b = 0)).
  { intros [x y] H [E E']. simpl in *. subst. apply H; auto. }
  assert (Ha := NZ _ Ha0). assert (Hb := NZ _ Hb0). clear NZ Ha0 Hb0. destruct a as [x y], b as [u v]. cbn [fst snd] in *.
  unfold comp, quadrant, fhb, cross; cbn [fst snd].
  destruct (qlt_cases x) as [Hx|[Hx|Hx]], (qlt_cases y) as [Hy|[Hy|Hy]]; try (exfalso; tauto);
  destruct (qlt_cases u) as [Hu|[Hu|Hu]], (qlt_cases v) as [Hv|[Hv|Hv]];
    try (exfalso; tauto); sign_mul x v; sign_mul y u;
    repeat match goal with
    | H : ?z < 0 |- context [qltb ?z 0] => rewrite (proj2 (qltb_lt z 0) H)
    | H : 0 < ?z |- context [qltb ?z 0] => rewrite (proj2 (qltb_ge z 0) (Qclt_le_weak _ _ H))
    end;
    repeat match goal with
    | H : 0 < ?z |- context [qeqb ?z 0] => rewrite (proj2 (qeqb_neq z 0)) by (intros ->; revert H; apply Qcle_not_lt, Qcle_refl)
    end; subst;
    change (qltb 0 0) with false; change (qeqb 0 0) with true;
    cbn [Nat.add nth Z.eqb Z.ltb Z.compare Pos.eqb Pos.compare Pos.compare_cont orb andb]; rewrite ?qltb_lt;
    (split; intros HH; try discriminate HH; try reflexivity; try exact I; try contradiction; try qc_lra).
Qed.
