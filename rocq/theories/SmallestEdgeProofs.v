From Verif Require Import Base SmallestEdge SmallestEdgeSpec.
Local Open Scope Z_scope.

Lemma edge_total : TotalCmp edge_cmp.
Proof. apply pair_cmp_total; apply Zcompare_total. Qed.
Lemma edge_le_cmp e f : edge_le e f <-> edge_cmp f e <> Lt.
Proof.
  destruct e as [a b], f as [c d]; unfold edge_le, edge_cmp, pair_cmp; simpl.
  destruct (Z.compare_spec c a).
  - subst. rewrite Z.compare_lt_iff. lia.
  - split; [lia|congruence].
  - split; [congruence|lia].
Qed.
Lemma edge_le_trans e f g : edge_le e f -> edge_le f g -> edge_le e g.
Proof. unfold edge_le; lia. Qed.
Lemma edge_le_refl e : edge_le e e.
Proof. unfold edge_le; lia. Qed.
Lemma edge_le_antisym e f : edge_le e f -> edge_le f e -> e = f.
Proof. destruct e, f; unfold edge_le; simpl; intros; f_equal; lia. Qed.

Lemma edge_min_spec e m : (edge_min e m = e \/ edge_min e m = m) /\ edge_le (edge_min e m) e /\ edge_le (edge_min e m) m.
Proof.
  unfold edge_min. destruct (edge_cmp m e) eqn:E.
  - split; auto. split; [apply edge_le_refl|]. apply edge_le_cmp. congruence.
  - split; auto. split; [|apply edge_le_refl]. apply edge_le_cmp. rewrite (tc_anti edge_total m e), E. discriminate.
  - split; auto. split; [apply edge_le_refl|]. apply edge_le_cmp. congruence.
Qed.

Lemma fold_min_spec (f : nat -> edge) l : forall m0,
  let r := fold_left (fun m i => edge_min (f i) m) l m0 in
  (r = m0 \/ exists i, In i l /\ r = f i) /\ edge_le r m0 /\ forall i, In i l -> edge_le r (f i).
Proof.
  induction l as [|i l IH]; intros m0; simpl.
  - split; auto. split; [apply edge_le_refl|intros ? []].
  - destruct (IH (edge_min (f i) m0)) as (A & B & C). destruct (edge_min_spec (f i) m0) as (M1 & M2 & M3).
    split; [|split].
    + destruct A as [->|(k & Hk & ->)]; [destruct M1 as [->| ->]; eauto|right; eauto].
    + eapply edge_le_trans; eauto.
    + intros k [<-|Hk]; auto. eapply edge_le_trans; eauto.
Qed.

Theorem smallest_spec v : (2 <= length v)%nat ->
  loop_edge v (smallest_ordered_edge v) /\ forall e, loop_edge v e -> edge_le (smallest_ordered_edge v) e.
Proof.
  intros L. unfold smallest_ordered_edge.
  destruct (fold_min_spec (fun i => (vat v i, vat v ((i + 1) mod length v))) (seq 0 (length v)) (vat v 0, vat v 1)) as (A & B & C).
  split.
  - destruct A as [->|(i & Hi & ->)].
    + exists 0%nat. split; [lia|]. rewrite Nat.mod_small by lia. reflexivity.
    + apply in_seq in Hi. exists i. split; [lia|reflexivity].
  - intros e (i & Hi & ->). apply C. apply in_seq; lia.
Qed.

Theorem smallest_reverse_spec v : (2 <= length v)%nat ->
  let r := smallest_ordered_edge_reverse v in
  loop_edge v r /\ forall e, loop_edge v e -> edge_le (snd r, fst r) (snd e, fst e).
Proof.
  intros L. unfold smallest_ordered_edge_reverse; simpl.
  destruct (fold_min_spec (fun i => (vat v ((i + 1) mod length v), vat v i)) (seq 0 (length v)) (vat v 1, vat v 0)) as (A & B & C).
  set (r := fold_left _ _ _) in *. clearbody r.
  split.
  - destruct A as [->|(i & Hi & ->)].
    + exists 0%nat. split; [lia|]. rewrite Nat.mod_small by lia. reflexivity.
    + apply in_seq in Hi. exists i. split; [lia|reflexivity].
  - intros e (i & Hi & ->). simpl. replace (fst r, snd r) with r by (destruct r; auto). apply (C i). apply in_seq; lia.
Qed.

Lemma smallest_ext v w : (2 <= length v)%nat -> (2 <= length w)%nat ->
  (forall e, loop_edge v e <-> loop_edge w e) -> smallest_ordered_edge v = smallest_ordered_edge w.
Proof.
  intros Lv Lw H. destruct (smallest_spec v Lv) as [A1 A2], (smallest_spec w Lw) as [B1 B2].
  apply edge_le_antisym; [apply A2, H; auto|apply B2, H; auto].
Qed.

Lemma nth_rotate k v i : (k <= length v)%nat -> (i < length v)%nat -> nth i (rotate k v) 0 = nth ((i + k) mod length v) v 0.
Proof.
  intros Hk Hi. unfold rotate. assert (LF : length (firstn k v) = k) by (rewrite firstn_length; lia).
  assert (LS := skipn_length k v).
  assert (E := firstn_skipn k v). set (a := firstn k v) in *. set (b := skipn k v) in *. clearbody a b. subst v k.
  rewrite app_length in *. destruct (Nat.lt_ge_cases i (length b)).
  - rewrite app_nth1 by lia. rewrite Nat.mod_small by lia. rewrite app_nth2 by lia. f_equal. lia.
  - rewrite app_nth2 by lia.
    replace ((i + length a) mod (length a + length b))%nat with (i - length b)%nat by (apply (Nat.mod_unique _ _ 1); lia).
    rewrite app_nth1 by lia. auto.
Qed.
Lemma rotate_length k v : length (rotate k v) = length v.
Proof. unfold rotate. rewrite app_length, skipn_length, firstn_length. lia. Qed.

Lemma loop_edge_rotate_sub k v e : (k <= length v)%nat -> loop_edge (rotate k v) e -> loop_edge v e.
Proof.
  intros Hk (i & Hi & ->). rewrite rotate_length in *.
  assert (length v <> 0)%nat by lia.
  exists ((i + k) mod length v)%nat. split; [apply Nat.mod_upper_bound; auto|].
  rewrite !nth_rotate by (auto; apply Nat.mod_upper_bound; auto). f_equal. f_equal.
  rewrite !Nat.add_mod_idemp_l by auto. f_equal. lia.
Qed.
Lemma rotate_back k v : (k <= length v)%nat -> rotate (length v - k) (rotate k v) = v.
Proof.
  intros Hk. unfold rotate. rewrite skipn_app, firstn_app, !skipn_length.
  replace (length v - k - (length v - k))%nat with 0%nat by lia. rewrite skipn_O, firstn_O.
  rewrite skipn_all2 by (rewrite skipn_length; lia). rewrite (firstn_all2 (n := length v - k)) by (rewrite skipn_length; lia).
  simpl. rewrite app_nil_r. apply firstn_skipn.
Qed.
Lemma loop_edge_rotate k v e : (k <= length v)%nat -> (loop_edge (rotate k v) e <-> loop_edge v e).
Proof.
  intros Hk. split; [apply loop_edge_rotate_sub; auto|]. intros H.
  rewrite <- (rotate_back k v Hk) in H. apply loop_edge_rotate_sub in H; auto. rewrite rotate_length; lia.
Qed.

Theorem smallest_rotate k v : (2 <= length v)%nat -> (k <= length v)%nat ->
  smallest_ordered_edge (rotate k v) = smallest_ordered_edge v.
Proof. intros L Hk. apply smallest_ext; rewrite ?rotate_length; auto. intros; apply loop_edge_rotate; auto. Qed.

Lemma loop_edge_rev v a b : loop_edge (rev v) (a, b) <-> loop_edge v (b, a).
Proof.
  assert (G : forall v a b, loop_edge (rev v) (a, b) -> loop_edge v (b, a)).
  { intros w x y (i & Hi & E). rewrite rev_length in *. injection E as -> ->.
    assert (HM : ((i + 1) mod length w < length w)%nat) by (apply Nat.mod_upper_bound; lia).
    exists (length w - S ((i + 1) mod length w))%nat. split; [lia|]. rewrite !rev_nth by lia. f_equal. f_equal.
    destruct (Nat.eq_dec (i + 1) (length w)) as [E|E].
    - rewrite E, Nat.mod_same by lia. replace (length w - 1 + 1)%nat with (length w) by lia. rewrite Nat.mod_same by lia. lia.
    - rewrite (Nat.mod_small (i + 1)) by lia. rewrite Nat.mod_small by lia. lia. }
  split; auto. intros H. rewrite <- (rev_involutive v) in H. apply G in H; auto.
Qed.

Theorem reverse_is_swapped v : (2 <= length v)%nat ->
  smallest_ordered_edge_reverse v = (snd (smallest_ordered_edge (rev v)), fst (smallest_ordered_edge (rev v))).
Proof.
  intros L. assert (L' : (2 <= length (rev v))%nat) by (rewrite rev_length; auto).
  destruct (smallest_spec (rev v) L') as [A1 A2]. destruct (smallest_reverse_spec v L) as [B1 B2].
  set (r := smallest_ordered_edge_reverse v) in *. set (q := smallest_ordered_edge (rev v)) in *. clearbody r q.
  assert (E : (snd r, fst r) = q).
  { apply edge_le_antisym.
    - destruct q as [x y]. apply (proj1 (loop_edge_rev v x y)) in A1. apply (B2 _ A1).
    - apply A2. apply loop_edge_rev. destruct r; auto. }
  rewrite <- E. destruct r; auto.
Qed.

(** used as a lookup key for the reversed loop, the reverse variant never matches a simple loop *)
Theorem reverse_key_never_matches v : (2 <= length v)%nat -> NoDup v ->
  smallest_ordered_edge_reverse v <> smallest_ordered_edge (rev v).
Proof.
  intros L HN E. rewrite reverse_is_swapped in E by auto.
  assert (L' : (2 <= length (rev v))%nat) by (rewrite rev_length; auto).
  destruct (smallest_spec (rev v) L') as [(i & Hi & A1) _].
  set (q := smallest_ordered_edge (rev v)) in *. clearbody q. subst q. simpl in E. injection E as E _.
  assert (NR : NoDup (rev v)) by (apply NoDup_rev; auto).
  assert (HM : ((i + 1) mod length (rev v) < length (rev v))%nat) by (apply Nat.mod_upper_bound; lia).
  assert (X := proj1 (NoDup_nth (rev v) 0) NR _ _ HM Hi E).
  destruct (Nat.eq_dec (i + 1) (length (rev v))) as [Q|Q].
  - rewrite Q, Nat.mod_same in X by lia. lia.
  - rewrite Nat.mod_small in X by lia. lia.
Qed.
(** the starting vertex of the key is the smallest vertex of the loop *)
Theorem smallest_starts_min v : (2 <= length v)%nat -> forall x, In x v -> fst (smallest_ordered_edge v) <= x.
Proof.
  intros L x Hx. apply (In_nth _ _ 0) in Hx as (i & Hi & <-).
  destruct (smallest_spec v L) as [_ A]. assert (H := A _ (ex_intro _ i (conj Hi eq_refl))).
  unfold edge_le in H; simpl in H. lia.
Qed.
(** two simple loops with a common key share that directed edge *)
Theorem smallest_key_shares_edge v w : (2 <= length v)%nat -> (2 <= length w)%nat ->
  smallest_ordered_edge v = smallest_ordered_edge w -> exists e, loop_edge v e /\ loop_edge w e.
Proof.
  intros Lv Lw E. exists (smallest_ordered_edge v). split; [apply smallest_spec; auto|]. rewrite E. apply smallest_spec; auto.
Qed.
