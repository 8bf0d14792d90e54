(** Shared data-structure vocabulary of the model: arrays as lists, lexicographic comparison,
    ordered std::set / std::map as strictly sorted lists.  Nothing here models a particular
    function of /repo; these are the C++ standard containers the code is written with. *)
From Coq Require Export List Arith ZArith Lia Bool FinFun.
Export ListNotations.
Set Implicit Arguments.
Set Asymmetric Patterns.

(** mtao::iterator::zip over two arrays (stops at the shorter one). *)
Fixpoint zipwith (A B C : Type) (f : A -> B -> C) (l : list A) (l' : list B) : list C :=
  match l, l' with
  | a :: t, b :: t' => f a b :: zipwith f t t'
  | _, _ => []
  end.

(** for (int i = a; i < a+n; ++i) as the list of visited indices. *)
Definition zrange (a : Z) (n : nat) : list Z := map (fun k => (a + Z.of_nat k)%Z) (seq 0 n).

(** A three-way comparison that is a total order (what a C++ operator< used as a container key
    has to be; proved for every key type that is used). *)
Record TotalCmp (A : Type) (cmp : A -> A -> comparison) : Prop := {
  tc_eq : forall x y, cmp x y = Eq <-> x = y;
  tc_anti : forall x y, cmp y x = CompOpp (cmp x y);
  tc_trans : forall x y z, cmp x y = Lt -> cmp y z = Lt -> cmp x z = Lt }.

(** std::array / std::vector operator< : lexicographic. *)
Fixpoint lex_cmp (A : Type) (cmp : A -> A -> comparison) (l l' : list A) : comparison :=
  match l, l' with
  | [], [] => Eq
  | [], _ :: _ => Lt
  | _ :: _, [] => Gt
  | a :: t, b :: t' => match cmp a b with Eq => lex_cmp cmp t t' | c => c end
  end.

(** std::pair / std::tuple operator<. *)
Definition pair_cmp (A B : Type) (ca : A -> A -> comparison) (cb : B -> B -> comparison)
  (x y : A * B) : comparison :=
  match ca (fst x) (fst y) with Eq => cb (snd x) (snd y) | c => c end.

(** std::set<K>::insert / emplace on a sorted list. *)
Fixpoint set_insert (A : Type) (cmp : A -> A -> comparison) (x : A) (l : list A) : list A :=
  match l with
  | [] => [x]
  | y :: t => match cmp x y with
              | Lt => x :: y :: t
              | Eq => y :: t
              | Gt => y :: set_insert cmp x t
              end
  end.

Definition set_of_list (A : Type) (cmp : A -> A -> comparison) (l : list A) : list A :=
  fold_left (fun s x => set_insert cmp x s) l [].

(** std::map<K,V> on a list sorted by key. *)
Fixpoint map_find (K V : Type) (cmp : K -> K -> comparison) (k : K) (m : list (K * V)) : option V :=
  match m with
  | [] => None
  | (k', v) :: t => match cmp k k' with Eq => Some v | Lt => None | Gt => map_find cmp k t end
  end.

(** m[k] = v *)
Fixpoint map_set (K V : Type) (cmp : K -> K -> comparison) (k : K) (v : V) (m : list (K * V))
  : list (K * V) :=
  match m with
  | [] => [(k, v)]
  | (k', v') :: t => match cmp k k' with
                     | Lt => (k, v) :: (k', v') :: t
                     | Eq => (k', v) :: t
                     | Gt => (k', v') :: map_set cmp k v t
                     end
  end.

(** m.emplace(k,v) / m.try_emplace(k,v): keeps an existing value. *)
Definition map_emplace (K V : Type) (cmp : K -> K -> comparison) (k : K) (v : V)
  (m : list (K * V)) : list (K * V) :=
  match map_find cmp k m with Some _ => m | None => map_set cmp k v m end.

(** Strictly increasing. *)
Inductive ssorted (A : Type) (cmp : A -> A -> comparison) : list A -> Prop :=
| ss_nil : ssorted cmp []
| ss_cons : forall x l, Forall (fun y => cmp x y = Lt) l -> ssorted cmp l -> ssorted cmp (x :: l).

(** ** Lemmas *)

Lemma nth_error_ext (A : Type) (l l' : list A) :
  (forall i, nth_error l i = nth_error l' i) -> l = l'.
Proof.
  revert l'; induction l as [|a l IH]; intros [|b l'] H; auto.
  - specialize (H 0%nat); discriminate.
  - specialize (H 0%nat); discriminate.
  - assert (Ha := H 0%nat); simpl in Ha; injection Ha as ->.
    f_equal; apply IH; intros i; exact (H (S i)).
Qed.

Lemma zipwith_length (A B C : Type) (f : A -> B -> C) l l' :
  length l = length l' -> length (zipwith f l l') = length l.
Proof.
  revert l'; induction l as [|a l IH]; intros [|b l'] H; simpl in *; try discriminate; auto.
Qed.

Lemma nth_error_zipwith (A B C : Type) (f : A -> B -> C) l l' i :
  nth_error (zipwith f l l') i =
  match nth_error l i, nth_error l' i with Some a, Some b => Some (f a b) | _, _ => None end.
Proof.
  revert l' i; induction l as [|a l IH]; intros [|b l'] [|i]; simpl; auto.
  destruct (nth_error l i); auto.
Qed.

Lemma zrange_In a n x : In x (zrange a n) <-> (a <= x < a + Z.of_nat n)%Z.
Proof.
  unfold zrange; rewrite in_map_iff; split.
  - intros (k & <- & Hk); apply in_seq in Hk; lia.
  - intros H; exists (Z.to_nat (x - a)); split; [lia|apply in_seq; lia].
Qed.

Lemma zrange_length a n : length (zrange a n) = n.
Proof. unfold zrange; rewrite map_length, seq_length; auto. Qed.

Lemma NoDup_zrange a n : NoDup (zrange a n).
Proof.
  unfold zrange. apply FinFun.Injective_map_NoDup; [|apply seq_NoDup].
  intros x y H; lia.
Qed.

Section Cmp.
  Variable (A : Type) (cmp : A -> A -> comparison).
  Hypothesis TC : TotalCmp cmp.

  Lemma tc_refl x : cmp x x = Eq.
  Proof. apply (tc_eq TC); auto. Qed.

  Lemma tc_gt x y : cmp x y = Gt <-> cmp y x = Lt.
  Proof. rewrite (tc_anti TC x y); destruct (cmp x y); simpl; split; congruence. Qed.

  Lemma tc_lt_irrefl x : cmp x x <> Lt.
  Proof. rewrite tc_refl; discriminate. Qed.

  Lemma set_insert_In x y l : In y (set_insert cmp x l) <-> y = x \/ In y l.
  Proof.
    induction l as [|z l IH]; simpl; [intuition|].
    destruct (cmp x z) eqn:E; simpl.
    - apply (tc_eq TC) in E; subst; intuition; subst; auto.
    - intuition.
    - rewrite IH; intuition.
  Qed.

  Lemma set_insert_sorted x l : ssorted cmp l -> ssorted cmp (set_insert cmp x l).
  Proof.
    induction l as [|z l IH]; simpl; intros H.
    - constructor; constructor.
    - inversion H as [|? ? HF HS]; subst. destruct (cmp x z) eqn:E.
      + exact H.
      + constructor; [|exact H]. constructor; auto.
        eapply Forall_impl; [|exact HF]. intros y Hy; simpl in Hy.
        eapply (tc_trans TC); eauto.
      + constructor; [|apply IH; auto].
        rewrite Forall_forall in *. intros y Hy.
        apply set_insert_In in Hy as [->|Hy]; [apply tc_gt; auto|auto].
  Qed.

  Lemma ssorted_NoDup l : ssorted cmp l -> NoDup l.
  Proof.
    induction 1 as [|x l HF HS IH]; constructor; auto.
    intros Hin; rewrite Forall_forall in HF. apply (tc_lt_irrefl (x:=x)); auto.
  Qed.

  Lemma fold_insert_In l s y :
    In y (fold_left (fun s x => set_insert cmp x s) l s) <-> In y l \/ In y s.
  Proof.
    revert s; induction l as [|x l IH]; intros s; simpl; [intuition|].
    rewrite IH, set_insert_In; intuition.
  Qed.

  Lemma set_of_list_In l y : In y (set_of_list cmp l) <-> In y l.
  Proof. unfold set_of_list; rewrite fold_insert_In; simpl; intuition. Qed.

  Lemma fold_insert_sorted l s : ssorted cmp s ->
    ssorted cmp (fold_left (fun s x => set_insert cmp x s) l s).
  Proof.
    revert s; induction l as [|x l IH]; intros s H; simpl; auto.
    apply IH, set_insert_sorted; auto.
  Qed.

  Lemma set_of_list_sorted l : ssorted cmp (set_of_list cmp l).
  Proof. apply fold_insert_sorted; constructor. Qed.

  Lemma set_of_list_NoDup l : NoDup (set_of_list cmp l).
  Proof. apply ssorted_NoDup, set_of_list_sorted. Qed.

  (** two sorted lists with the same elements are equal: std::set equality is set equality *)
  Lemma ssorted_ext l l' : ssorted cmp l -> ssorted cmp l' ->
    (forall x, In x l <-> In x l') -> l = l'.
  Proof.
    intros H; revert l'; induction H as [|x l HF HS IH]; intros [|y l'] H' HE; auto.
    - destruct (HE y) as [_ F]; destruct F; left; auto.
    - destruct (HE x) as [F _]; destruct F; left; auto.
    - inversion H' as [|? ? HF' HS']; subst. rewrite Forall_forall in HF, HF'.
      assert (x = y).
      { destruct (proj1 (HE x) (or_introl eq_refl)) as [->|Hx]; auto.
        destruct (proj2 (HE y) (or_introl eq_refl)) as [->|Hy]; auto.
        exfalso; apply (tc_lt_irrefl (x:=x)).
        eapply (tc_trans TC); [apply HF; exact Hy|apply HF'; exact Hx]. }
      subst y; f_equal. apply IH; auto.
      intros z; split; intros Hz.
      + destruct (proj1 (HE z) (or_intror Hz)) as [<-|]; auto.
        exfalso; apply (tc_lt_irrefl (x:=x)); auto.
      + destruct (proj2 (HE z) (or_intror Hz)) as [<-|]; auto.
        exfalso; apply (tc_lt_irrefl (x:=x)); auto.
  Qed.

  Lemma lex_cmp_total : TotalCmp (lex_cmp cmp).
  Proof.
    split.
    - induction x as [|a x IH]; intros [|b y]; simpl; split; try congruence; intros H.
      + destruct (cmp a b) eqn:E; try discriminate.
        apply (tc_eq TC) in E; subst; f_equal; apply IH; auto.
      + injection H as -> ->. rewrite tc_refl; apply IH; auto.
    - induction x as [|a x IH]; intros [|b y]; simpl; auto.
      rewrite (tc_anti TC a b). destruct (cmp a b); simpl; auto.
    - induction x as [|a x IH]; intros [|b y] [|c z]; simpl; try congruence.
      destruct (cmp a b) eqn:E1; try discriminate.
      + apply (tc_eq TC) in E1; subst. destruct (cmp b c) eqn:E2; try discriminate; auto.
        apply IH.
      + intros _. destruct (cmp b c) eqn:E2; try discriminate.
        * apply (tc_eq TC) in E2; subst; rewrite E1; auto.
        * rewrite (tc_trans TC _ _ _ E1 E2); auto.
  Qed.

  Section Map.
    Variable V : Type.
    Implicit Types m : list (A * V).

    Definition keys m := map fst m.

    Lemma map_set_keys k v m : keys (map_set cmp k v m) = set_insert cmp k (keys m).
    Proof.
      induction m as [|[k' v'] m IH]; simpl; auto.
      destruct (cmp k k') eqn:E; simpl; auto. unfold keys in *; rewrite IH; auto.
    Qed.

    Lemma map_set_sorted k v m : ssorted cmp (keys m) -> ssorted cmp (keys (map_set cmp k v m)).
    Proof. rewrite map_set_keys; apply set_insert_sorted. Qed.

    Lemma map_find_set k k' v m : ssorted cmp (keys m) ->
      map_find cmp k (map_set cmp k' v m) =
      match cmp k k' with Eq => Some v | _ => map_find cmp k m end.
    Proof.
      induction m as [|[q w] m IH]; simpl; intros H.
      - destruct (cmp k k'); auto.
      - inversion H as [|? ? HF HS]; subst. destruct (cmp k' q) eqn:E.
        + apply (tc_eq TC) in E; subst q. simpl. destruct (cmp k k') eqn:E2; auto.
        + simpl. destruct (cmp k k') eqn:E2; auto.
          destruct (cmp k q) eqn:E3; auto.
          * exfalso. rewrite (tc_eq TC) in E3; subst.
            apply (tc_lt_irrefl (x:=q)). eapply (tc_trans TC); eauto.
          * exfalso. apply tc_gt in E3. apply (tc_lt_irrefl (x:=q)).
            eapply (tc_trans TC); [exact E3|]. eapply (tc_trans TC); eauto.
        + simpl. rewrite IH by auto. destruct (cmp k q) eqn:E3; auto.
          * apply (tc_eq TC) in E3; subst k. apply tc_gt in E.
            rewrite E; auto.
          * apply tc_gt in E. rewrite (tc_trans TC _ _ _ E3 E); auto.
    Qed.

    Lemma map_find_None k m : ssorted cmp (keys m) ->
      (map_find cmp k m = None <-> ~ In k (keys m)).
    Proof.
      induction m as [|[q w] m IH]; simpl; intros H; [intuition|].
      inversion H as [|? ? HF HS]; subst. rewrite Forall_forall in HF.
      destruct (cmp k q) eqn:E.
      - apply (tc_eq TC) in E; subst. split; [discriminate|intuition].
      - split; auto. intros _ [->|Hin]; [rewrite tc_refl in E; discriminate|].
        apply (tc_lt_irrefl (x:=k)). eapply (tc_trans TC); eauto.
      - rewrite IH by auto. split; intros Hn; [intros [->|Hin]; [rewrite tc_refl in E; discriminate|auto]|auto].
    Qed.

    Lemma map_find_Some k v m : ssorted cmp (keys m) ->
      (map_find cmp k m = Some v <-> In (k, v) m).
    Proof.
      induction m as [|[q w] m IH]; simpl; intros H; [intuition; discriminate|].
      inversion H as [|? ? HF HS]; subst. rewrite Forall_forall in HF.
      assert (HK : forall v', In (k, v') m -> cmp q k = Lt).
      { intros v' Hin; apply HF. apply (in_map fst) in Hin; auto. }
      destruct (cmp k q) eqn:E.
      - apply (tc_eq TC) in E; subst. split.
        + intros [= ->]; auto.
        + intros [[= ->]|Hin]; auto. apply HK in Hin. rewrite tc_refl in Hin; discriminate.
      - split; [discriminate|]. intros [[= -> ->]|Hin]; [rewrite tc_refl in E; discriminate|].
        apply HK in Hin. apply tc_gt in Hin. congruence.
      - rewrite IH by auto. split; auto. intros [[= -> ->]|Hin]; auto.
        rewrite tc_refl in E; discriminate.
    Qed.

    Lemma map_emplace_sorted k v m : ssorted cmp (keys m) ->
      ssorted cmp (keys (map_emplace cmp k v m)).
    Proof.
      unfold map_emplace; destruct (map_find cmp k m); auto; apply map_set_sorted.
    Qed.

    Lemma map_find_emplace k k' v m : ssorted cmp (keys m) ->
      map_find cmp k (map_emplace cmp k' v m) =
      match map_find cmp k m with
      | Some w => Some w
      | None => match cmp k k' with Eq => Some v | _ => None end
      end.
    Proof.
      intros H. unfold map_emplace. destruct (map_find cmp k' m) eqn:E.
      - destruct (map_find cmp k m) eqn:E2; auto. destruct (cmp k k') eqn:E3; auto.
        apply (tc_eq TC) in E3; subst; congruence.
      - rewrite map_find_set by auto. destruct (cmp k k') eqn:E3.
        + apply (tc_eq TC) in E3; subst; rewrite E; auto.
        + destruct (map_find cmp k m); auto.
        + destruct (map_find cmp k m); auto.
    Qed.
  End Map.
End Cmp.

Lemma pair_cmp_total (A B : Type) ca cb :
  TotalCmp (A:=A) ca -> TotalCmp (A:=B) cb -> TotalCmp (pair_cmp ca cb).
Proof.
  intros HA HB; split; unfold pair_cmp.
  - intros [a b] [a' b']; simpl. destruct (ca a a') eqn:E.
    + rewrite (tc_eq HB). apply (tc_eq HA) in E; subst. split; congruence.
    + split; [discriminate|]. intros [= -> ->]. rewrite (tc_refl HA) in E; discriminate.
    + split; [discriminate|]. intros [= -> ->]. rewrite (tc_refl HA) in E; discriminate.
  - intros [a b] [a' b']; simpl. rewrite (tc_anti HA a a'). destruct (ca a a'); simpl; auto.
    apply (tc_anti HB).
  - intros [a b] [a' b'] [a'' b'']; simpl.
    destruct (ca a a') eqn:E1; try discriminate.
    + apply (tc_eq HA) in E1; subst. destruct (ca a' a'') eqn:E2; try discriminate; auto.
      apply (tc_trans HB).
    + intros _. destruct (ca a' a'') eqn:E2; try discriminate.
      * apply (tc_eq HA) in E2; subst; rewrite E1; auto.
      * rewrite (tc_trans HA _ _ _ E1 E2); auto.
Qed.

Lemma Zcompare_total : TotalCmp Z.compare.
Proof.
  split.
  - intros; apply Z.compare_eq_iff.
  - intros; apply Z.compare_antisym.
  - intros x y z; rewrite !Z.compare_lt_iff; lia.
Qed.

Definition zlex := lex_cmp Z.compare.
Lemma zlex_total : TotalCmp zlex.
Proof. apply lex_cmp_total, Zcompare_total. Qed.
