(** Orbits of an injective self-map of a finite list (pure mathematics used by the loop-tracing proofs). *)
From Verif Require Import Base.
Set Implicit Arguments.

Section FP.
  Variable A : Type.
  Variable eqd : forall x y : A, {x = y} + {x <> y}.
  Variable L : list A.
  Variable f : A -> A.
  Hypothesis f_in : forall x, In x L -> In (f x) L.
  Hypothesis f_inj : forall x y, In x L -> In y L -> f x = f y -> x = y.

  Fixpoint iter (n : nat) (x : A) : A := match n with O => x | S n => f (iter n x) end.
  Definition orbit (x y : A) : Prop := exists n, iter n x = y.

  Lemma iter_in n x : In x L -> In (iter n x) L.
  Proof. induction n; simpl; auto. Qed.
  Lemma iter_add n m x : iter (n + m) x = iter n (iter m x).
  Proof. induction n; simpl; auto. f_equal; auto. Qed.
  Lemma iter_S_comm n x : iter n (f x) = f (iter n x).
  Proof. induction n; simpl; auto. f_equal; auto. Qed.
  Lemma iter_inj n x y : In x L -> In y L -> iter n x = iter n y -> x = y.
  Proof. intros Hx Hy. induction n; simpl; auto. intros H. apply IHn. apply f_inj; auto using iter_in. Qed.
  Lemma iter_mul p n x : iter p x = x -> iter (n * p) x = x.
  Proof. intros H. induction n; simpl; auto. rewrite iter_add, IHn; auto. Qed.

  Lemma not_NoDup_dup (l : list A) : ~ NoDup l -> exists i j a, i < j /\ nth_error l i = Some a /\ nth_error l j = Some a.
  Proof.
    induction l as [|a l IH]; intros H; [destruct H; constructor|].
    destruct (in_dec eqd a l) as [Hin|Hin].
    - apply In_nth_error in Hin as [j Hj]. exists 0, (S j), a. repeat split; auto. lia.
    - destruct IH as (i & j & b & Hl & Hi & Hj).
      { intros HN; apply H; constructor; auto. }
      exists (S i), (S j), b. repeat split; auto. lia.
  Qed.

  Lemma period_ex x : In x L -> exists p, 0 < p <= length L /\ iter p x = x.
  Proof.
    intros Hx. set (l := map (fun k => iter k x) (seq 0 (S (length L)))).
    assert (HN : ~ NoDup l).
    { intros HN. assert (I : incl l L). { intros y Hy. apply in_map_iff in Hy as (k & <- & _). apply iter_in; auto. }
      assert (E := NoDup_incl_length HN I). unfold l in E. rewrite map_length, seq_length in E. lia. }
    apply not_NoDup_dup in HN as (i & j & a & Hl & Hi & Hj).
    assert (G : forall k b, nth_error l k = Some b -> k < S (length L) /\ b = iter k x).
    { intros k b Hk. assert (K : k < length l) by (apply nth_error_Some; congruence).
      unfold l in K. rewrite map_length, seq_length in K. split; auto.
      unfold l in Hk. erewrite map_nth_error in Hk; [injection Hk as <-; reflexivity|].
      rewrite nth_error_nth' with (d := 0); [|rewrite seq_length; auto]. rewrite seq_nth; auto. }
    apply G in Hi as [Ki ->]. apply G in Hj as [Kj E].
    exists (j - i). split; [lia|].
    replace j with (i + (j - i)) in E by lia. rewrite iter_add in E.
    symmetry. eapply iter_inj; [| |exact E]; auto using iter_in.
  Qed.

  Lemma min_period x : In x L -> exists p, 0 < p <= length L /\ iter p x = x /\ forall k, 0 < k < p -> iter k x <> x.
  Proof.
    intros Hx. destruct (@period_ex x Hx) as (p & Hp & E). revert p Hp E.
    induction p as [p IH] using (well_founded_induction lt_wf). intros Hp E.
    assert (D : {k | 0 < k < p /\ iter k x = x} + {forall k, 0 < k < p -> iter k x <> x}).
    { clear IH E Hp. induction p as [|p IHp]; [right; intros; lia|].
      destruct IHp as [(k & Hk & Ek)|N]; [left; exists k; split; auto; lia|].
      destruct p as [|p]; [right; intros; lia|].
      destruct (eqd (iter (S p) x) x) as [Ex|Ex]; [left; exists (S p); split; auto; lia|].
      right. intros k Hk. destruct (Nat.eq_dec k (S p)); [subst; auto|apply N; lia]. }
    destruct D as [(k & Hk & Ek)|N]; [apply (IH k); auto; lia|]. exists p; auto.
  Qed.

  Lemma orbit_refl x : orbit x x.
  Proof. exists 0; auto. Qed.
  Lemma orbit_trans x y z : orbit x y -> orbit y z -> orbit x z.
  Proof. intros [n <-] [m <-]. exists (m + n). apply iter_add. Qed.
  Lemma orbit_in x y : In x L -> orbit x y -> In y L.
  Proof. intros H [n <-]; apply iter_in; auto. Qed.
  Lemma orbit_sym x y : In x L -> orbit x y -> orbit y x.
  Proof.
    intros Hx [n <-]. destruct (@period_ex x Hx) as (p & Hp & E).
    exists (n * p - n). rewrite <- iter_add. replace (n * p - n + n) with (n * p) by nia. apply iter_mul; auto.
  Qed.

  (** minimal period p: the first p iterates are distinct and form the whole orbit *)
  Lemma orbit_list x p : In x L -> 0 < p -> iter p x = x -> (forall k, 0 < k < p -> iter k x <> x) ->
    NoDup (map (fun k => iter k x) (seq 0 p)) /\ forall y, In y (map (fun k => iter k x) (seq 0 p)) <-> orbit x y.
  Proof.
    intros Hx Hp E M. split.
    - apply NoDup_nth_error. rewrite map_length, seq_length. intros i j Hi HE.
      assert (G : forall k, k < p -> nth_error (map (fun k => iter k x) (seq 0 p)) k = Some (iter k x)).
      { intros k Hk. erewrite map_nth_error; [reflexivity|]. rewrite nth_error_nth' with (d := 0); [|rewrite seq_length; auto].
        rewrite seq_nth; auto. }
      assert (Hj : j < p).
      { assert (nth_error (map (fun k => iter k x) (seq 0 p)) j <> None) by (rewrite <- HE, G by auto; discriminate).
        apply nth_error_Some in H. rewrite map_length, seq_length in H. auto. }
      rewrite !G in HE by auto. injection HE as HE.
      assert (W : forall i j, i < j -> j < p -> iter i x <> iter j x).
      { intros a b Hab Hb EE. apply (M (b - a)); [lia|]. replace b with (a + (b - a)) in EE by lia. rewrite iter_add in EE.
        symmetry. eapply iter_inj; [| |exact EE]; auto using iter_in. }
      destruct (Nat.lt_trichotomy i j) as [H|[H|H]]; auto; exfalso; [apply (W i j)|apply (W j i)]; auto.
    - intros y. rewrite in_map_iff. split; [intros (k & <- & _); exists k; auto|].
      intros [n <-]. exists (n mod p). split; [|apply in_seq; split; [lia|simpl; apply Nat.mod_upper_bound; lia]].
      rewrite (Nat.div_mod n p) at 2 by lia. rewrite Nat.add_comm, iter_add. rewrite (Nat.mul_comm p), iter_mul; auto.
  Qed.
End FP.
