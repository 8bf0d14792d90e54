(** Property C92: segments. *)
From Verif Require Import Base Num Sparse Line.
Local Open Scope Qc_scope.
Local Arguments Qcplus : simpl never. Local Arguments Qcmult : simpl never. Local Arguments Qcopp : simpl never. Local Arguments Qcminus : simpl never. Local Arguments Qcdiv : simpl never. Local Arguments Qcinv : simpl never.

(** ** specification: squared Euclidean distance, points of a segment *)
Fixpoint dist2 (a b : list Qc) : Qc := match a, b with x :: a', y :: b' => (x - y) * (x - y) + dist2 a' b' | _, _ => 0 end.
Definition between (a b : list Qc) (t : Qc) : list Qc := zipwith (fun x y => (1 - t) * x + t * y) a b.
Definition on_segment (a b q : list Qc) : Prop := exists t, 0 <= t /\ t <= 1 /\ q = between a b t.

Lemma sq_nonneg (z : Qc) : 0 <= z * z. Proof. unfold Qcle. q_push. nra. Qed.
Lemma interp_between l t : length (l_start l) = length (l_end l) -> interp l t = between (l_start l) (l_end l) t.
Proof.
  unfold interp, between, direction, vplus, vscale, vminus. destruct l as [a b]. cbn. revert b. induction a as [|x a IH]; intros [|y b] L; cbn in *; try discriminate; auto. f_equal; [ring|auto].
Qed.
Lemma vplus_comm a b : vplus a b = vplus b a.
Proof. unfold vplus. revert b. induction a as [|x a IH]; intros [|y b]; cbn; auto. f_equal; [ring|auto]. Qed.
Lemma dist2_expand p s d t : length p = length s -> length d = length s ->
  dist2 p (vplus s (vscale t d)) = dist2 p s - (1 + 1) * t * vdot (vminus p s) d + t * t * vdot d d.
Proof.
  unfold vplus, vscale, vminus, vdot. revert s d. induction p as [|x p IH]; intros [|y s] [|z d] L M; cbn in *; try discriminate; [ring|]. rewrite IH by lia. ring.
Qed.
Lemma vdot_self_nonneg d : 0 <= vdot d d.
Proof. unfold vdot. apply lsum_nonneg. intros [x y] I. assert (E : x = y) by (clear - I; induction d as [|a d IH]; cbn in I; [destruct I|destruct I as [E|I]; [apply pair_equal_spec in E as [ <- <- ]; auto|auto]]). subst. unfold Qcle. q_push. nra. Qed.
Lemma vdot_zero d p : vdot d d = 0 -> vdot p d = 0.
Proof.
  unfold vdot. revert p. induction d as [|x d IH]; intros [|y p] H; cbn in *; auto.
  assert (A := vdot_self_nonneg d). unfold vdot in A. assert (X : 0 <= x * x) by apply sq_nonneg. assert (Z : x * x = 0 /\ lsum (fun '(x, y) => x * y) (combine d d) = 0) by (split; apply Qcle_antisym; qc_lra).
  destruct Z as [Z1 Z2]. rewrite (IH p Z2). apply Qcmult_integral in Z1. destruct Z1 as [ -> | -> ]; ring.
Qed.
Lemma clamp_spec A B : 0 <= A -> (A = 0 -> B = 0) -> let s := clamp (B / A) 0 1 in 0 <= s /\ s <= 1 /\ forall t, 0 <= t -> t <= 1 -> - (1 + 1) * s * B + s * s * A <= - (1 + 1) * t * B + t * t * A.
Proof.
  intros HA H0. cbn zeta. unfold clamp. destruct (Qc_eq_dec A 0) as [ -> |NA].
  - rewrite (H0 eq_refl). replace (0 / 0) with 0 by reflexivity. destruct (qltb 0 0) eqn:E1; [apply qltb_lt in E1; discriminate|]. destruct (qltb 1 0) eqn:E2; [apply qltb_lt in E2; discriminate|].
    split; [apply Qcle_refl|]. split; [discriminate|]. intros t _ _. rewrite !Qcmult_0_r. apply Qcle_refl.
  - assert (PA : 0 < A) by (destruct (Qc_dec A 0) as [[H|H]|H]; auto; [exfalso; qc_lra|contradiction]). assert (EB : B = B / A * A) by (field; auto). set (q := B / A) in *. rewrite EB. clearbody q. clear EB H0 NA HA.
    destruct (qltb q 0) eqn:E1; [apply qltb_lt in E1|apply qltb_ge in E1; destruct (qltb 1 q) eqn:E2; [apply qltb_lt in E2|apply qltb_ge in E2]].
    + split; [apply Qcle_refl|]. split; [discriminate|]. intros t T0 T1. revert T0 T1 E1 PA. unfold Qcle, Qclt. q_push. intros. assert (0 <= t * (t - 2 * q))%Q by nra. nra.
    + split; [discriminate|]. split; [apply Qcle_refl|]. intros t T0 T1. revert T0 T1 E2 PA. unfold Qcle, Qclt. q_push. intros.
      assert ((t - 1) * ((t + 1) - 2 * q) >= 0)%Q by nra. nra.
    + split; [auto|]. split; [auto|]. intros t T0 T1. revert T0 T1 E1 E2 PA. unfold Qcle, Qclt. q_push. intros. assert (SQ : (0 <= (t - q) * (t - q))%Q) by (generalize (t - q)%Q; intros; nra). assert (XX := Qmult_le_0_compat _ _ (Qlt_le_weak _ _ PA) SQ). lra.
Qed.

(** ** C92 *)
(** the projection of p is a point of the segment, and no point of the segment is closer to p *)
Theorem c92_nearest l p : length (l_start l) = length (l_end l) -> length p = length (l_start l) ->
  on_segment (l_start l) (l_end l) (project l p) /\ forall q, on_segment (l_start l) (l_end l) q -> dist2 p (project l p) <= dist2 p q.
Proof.
  intros L M. unfold project. set (d := direction l). set (s := clamp _ 0 1). rewrite vplus_comm.
  assert (Ld : length d = length (l_start l)) by (unfold d, direction, vminus; rewrite zipwith_length; auto).
  destruct (clamp_spec (vdot d d) (vdot (vminus p (l_start l)) d) (vdot_self_nonneg d) (fun H => vdot_zero d _ H)) as (S0 & S1 & SM). fold s in S0, S1, SM.
  split.
  - exists s. split; auto. split; auto. rewrite <- interp_between by auto. reflexivity.
  - intros q (t & T0 & T1 & ->). rewrite <- interp_between by auto. unfold interp. fold d. rewrite !dist2_expand by auto. specialize (SM t T0 T1).
    revert SM. generalize (dist2 p (l_start l)) (vdot (vminus p (l_start l)) d) (vdot d d) s. intros q q0 q1 s0. unfold Qcle. q_push. intros. lra.
Qed.
Lemma dist2_nonneg a b : 0 <= dist2 a b.
Proof. revert b. induction a as [|x a IH]; intros [|y b]; cbn; try apply Qcle_refl. assert (A := IH b). assert (0 <= (x - y) * (x - y)) by apply sq_nonneg. qc_lra. Qed.
Lemma dist2_zero a b : length a = length b -> dist2 a b = 0 -> a = b.
Proof.
  revert b. induction a as [|x a IH]; intros [|y b] L H; cbn in *; try discriminate; auto. assert (A := dist2_nonneg a b). assert (B : 0 <= (x - y) * (x - y)) by apply sq_nonneg.
  assert (Z : (x - y) * (x - y) = 0 /\ dist2 a b = 0) by (split; apply Qcle_antisym; qc_lra). destruct Z as [Z1 Z2]. apply Qcmult_integral in Z1. f_equal; [|apply IH; auto]. destruct Z1; qc_lra.
Qed.
Lemma distance2_dist2 l p : distance2 l p = dist2 (project l p) p.
Proof. unfold distance2, vdot, vminus. generalize (project l p). intros v. revert p. induction v as [|x v IH]; intros [|y p]; cbn; auto. rewrite <- IH. auto. Qed.
Lemma dist2_refl a : dist2 a a = 0. Proof. induction a as [|x a IH]; cbn; auto. rewrite IH. ring. Qed.
Lemma dist2_sym a b : dist2 a b = dist2 b a. Proof. revert b. induction a as [|x a IH]; intros [|y b]; cbn; auto. rewrite IH. ring. Qed.
(** the distance is zero exactly on the segment, where projecting changes nothing *)
Theorem c92_distance l p : length (l_start l) = length (l_end l) -> length p = length (l_start l) ->
  (distance2 l p = 0 <-> on_segment (l_start l) (l_end l) p) /\ (on_segment (l_start l) (l_end l) p -> project l p = p) /\
  (forall q, on_segment (l_start l) (l_end l) q -> distance2 l p <= dist2 q p).
Proof.
  intros L M. destruct (c92_nearest l p L M) as [P N]. rewrite distance2_dist2.
  assert (LP : length (project l p) = length p) by (destruct P as (t & _ & _ & ->); unfold between; rewrite zipwith_length; auto; lia).
  assert (A : on_segment (l_start l) (l_end l) p -> project l p = p).
  { intros S. specialize (N p S). rewrite dist2_refl in N. symmetry. apply dist2_zero; auto. apply Qcle_antisym; auto. apply dist2_nonneg. }
  split; [split|split]; auto.
  - intros H. apply dist2_zero in H; auto. rewrite <- H. auto.
  - intros S. rewrite (A S). apply dist2_refl.
  - intros q S. rewrite dist2_sym, (dist2_sym q). auto.
Qed.
(** interp runs from the start to the end; the arithmetic on lines acts on every point *)
Theorem c92_transforms l T s t : length (l_start l) = length (l_end l) -> length T = length (l_start l) ->
  interp l 0 = l_start l /\ interp l 1 = l_end l /\ interp l t = between (l_start l) (l_end l) t /\
  interp (line_plus l T) t = zipwith Qcplus (interp l t) T /\ interp (line_minus l T) t = zipwith Qcminus (interp l t) T /\
  interp (line_scale s l) t = map (Qcmult s) (interp l t) /\ interp (line_div l s) t = map (fun x => x / s) (interp l t) /\
  interp (line_cwise_product l T) t = zipwith Qcmult (interp l t) T /\ interp (line_cwise_quotient l T) t = zipwith Qcdiv (interp l t) T.
Proof.
  destruct l as [a b]. cbn [l_start l_end]. intros L M. unfold interp, direction, line_plus, line_minus, line_scale, line_div, line_cwise_product, line_cwise_quotient, vplus, vminus, vscale, between. cbn [l_start l_end].
  revert b T L M. induction a as [|x a IH]; intros [|y b] [|z T] L M; cbn in *; try discriminate; [repeat split; auto|].
  destruct (IH b T) as (H1 & H2 & H3 & H4 & H5 & H6 & H7 & H8 & H9); [lia|lia|].
  repeat split; f_equal; auto; try ring; unfold Qcdiv; ring.
Qed.
Example c92_example : let l := mkLine [0; 0] [Z2Qc 4; Z2Qc 2] in
  map this (project l [Z2Qc 3; Z2Qc 4]) = [4 # 1; 2 # 1]%Q /\ map this (project l [Z2Qc 1; Z2Qc 3]) = [2 # 1; 1 # 1]%Q /\ map this (project l [- (1); 0]) = [0; 0]%Q /\
  map this (project (mkLine [1; 1] [1; 1]) [Z2Qc 3; 0]) = [1; 1]%Q /\ this (distance2 l [Z2Qc 1; Z2Qc 3]) = (5 # 1)%Q.
Proof. vm_compute. repeat split; reflexivity. Qed.
