(** Index arithmetic of mtao's grids (mtao::geometry::grid::*Indexer, StaggeredGrid), an external
    dependency absent from /repo.  Assumed behaviour: index/unindex are the row-major (last axis fastest) bijection
    between coordinates inside the shape and 0..size-1; valid_index is componentwise 0 <= c < shape;
    a staggered grid of cell shape s has vertex shape s+1.  Theorems use only bijectivity. *)
From Verif Require Import Base CoordMask.
Set Implicit Arguments.
Local Open Scope Z_scope.

(** valid_index *)
Fixpoint in_shape (s c : list Z) : bool :=
  match s, c with
  | [], [] => true
  | n :: s', x :: c' => (0 <=? x) && (x <? n) && in_shape s' c'
  | _, _ => false
  end.
(** size() *)
Fixpoint shape_size (s : list Z) : Z := match s with [] => 1 | n :: s' => n * shape_size s' end.
(** index(coord) *)
Fixpoint ravel (s c : list Z) : Z :=
  match s, c with
  | n :: s', x :: c' => x * shape_size s' + ravel s' c'
  | _, _ => 0
  end.
(** unindex(idx) *)
Fixpoint unravel (s : list Z) (i : Z) : list Z :=
  match s with
  | [] => []
  | n :: s' => (i / shape_size s') :: unravel s' (i mod shape_size s')
  end.
(** all coordinates of the grid in loop order (utils::multi_loop) *)
Fixpoint all_coords (s : list Z) : list coord :=
  match s with
  | [] => [[]]
  | n :: s' => flat_map (fun x => map (cons x) (all_coords s')) (zrange 0 (Z.to_nat n))
  end.

Definition pos_shape (s : list Z) : Prop := Forall (fun n => 0 < n) s.

Lemma in_shape_iff s c : in_shape s c = true <-> Forall2 (fun n x => 0 <= x < n) s c.
Proof.
  revert c; induction s as [|n s IH]; intros [|x c]; simpl; split; intros H; try discriminate; auto.
  - inversion H.
  - inversion H.
  - apply andb_true_iff in H as [H1 H2]. constructor; [lia|apply IH; auto].
  - inversion H; subst. apply andb_true_iff; split; [lia|apply IH; auto].
Qed.

Lemma in_shape_length s c : in_shape s c = true -> length c = length s.
Proof.
  revert c; induction s as [|n s IH]; intros [|x c]; simpl; intros H; try discriminate; auto.
  apply andb_true_iff in H as [H1 H2]. f_equal; auto.
Qed.

Lemma ravel_range s c : in_shape s c = true -> 0 <= ravel s c < shape_size s.
Proof.
  revert c; induction s as [|n s IH]; intros [|x c] H; simpl in *; try discriminate; [lia|].
  apply andb_true_iff in H as [H1 H2]. specialize (IH _ H2). nia.
Qed.

Lemma unravel_ravel s c : in_shape s c = true -> unravel s (ravel s c) = c.
Proof.
  revert c; induction s as [|n s IH]; intros [|x c] H; simpl in *; try discriminate; auto.
  apply andb_true_iff in H as [H1 H2]. assert (HR := ravel_range _ _ H2).
  rewrite Z.div_add_l by lia. rewrite Z.div_small by lia. f_equal; [lia|].
  rewrite Z.add_comm, Z.mod_add by lia. rewrite Z.mod_small by lia. auto.
Qed.

Lemma ravel_inj s c c' : in_shape s c = true -> in_shape s c' = true -> ravel s c = ravel s c' -> c = c'.
Proof. intros H H' E. rewrite <- (unravel_ravel _ _ H), <- (unravel_ravel _ _ H'). congruence. Qed.

Lemma shape_size_pos s : pos_shape s -> 0 < shape_size s.
Proof. induction 1; simpl; [lia|nia]. Qed.

Lemma unravel_in s i : pos_shape s -> 0 <= i < shape_size s ->
  in_shape s (unravel s i) = true /\ ravel s (unravel s i) = i.
Proof.
  revert i; induction s as [|n s IH]; intros i HS Hi; simpl in *; [split; auto; lia|].
  inversion HS; subst. assert (HP := shape_size_pos H2).
  assert (Hm := Z.mod_pos_bound i (shape_size s) HP). destruct (IH (i mod shape_size s) H2 Hm) as [I1 I2].
  rewrite I1, I2. split.
  - rewrite andb_true_r. apply andb_true_iff; split.
    + apply Z.leb_le. apply Z.div_pos; lia.
    + apply Z.ltb_lt. apply Z.div_lt_upper_bound; nia.
  - assert (H := Z.div_mod i (shape_size s) ltac:(lia)). nia.
Qed.

Lemma all_coords_In s c : In c (all_coords s) <-> in_shape s c = true.
Proof.
  revert c; induction s as [|n s IH]; intros c; simpl.
  - split; [intros [<-|[]]; auto|]. destruct c; [auto|discriminate].
  - rewrite in_flat_map. split.
    + intros (x & Hx & Hc). apply in_map_iff in Hc as (c' & <- & Hc'). apply zrange_In in Hx.
      apply IH in Hc'. rewrite Hc', andb_true_r. lia.
    + destruct c as [|x c]; [discriminate|]. intros H; apply andb_true_iff in H as [H1 H2].
      exists x; split; [apply zrange_In; lia|]. apply in_map_iff; exists c; split; auto. apply IH; auto.
Qed.

Lemma NoDup_flat_map (A B : Type) (f : A -> list B) l : NoDup l -> (forall a, In a l -> NoDup (f a)) ->
  (forall a a' b, In a l -> In a' l -> In b (f a) -> In b (f a') -> a = a') -> NoDup (flat_map f l).
Proof.
  induction 1 as [|a l Ha Hl IH]; simpl; intros H1 H2; [constructor|].
  assert (HN : NoDup (flat_map f l)) by (apply IH; [intros; apply H1; auto|intros; eapply H2; eauto]).
  assert (HD : forall b, In b (f a) -> ~ In b (flat_map f l)).
  { intros b Hb Hin. apply in_flat_map in Hin as (a' & Ha' & Hb').
    assert (a = a') by (eapply H2; eauto). subst; auto. }
  specialize (H1 a (or_introl eq_refl)). clear -H1 HN HD. induction (f a) as [|b m IHm]; simpl; auto.
  inversion H1; subst. constructor.
  - rewrite in_app_iff; intros [?|?]; auto. apply (HD b); simpl; auto.
  - apply IHm; auto. intros; apply HD; simpl; auto.
Qed.

Lemma all_coords_NoDup s : NoDup (all_coords s).
Proof.
  induction s as [|n s IH]; simpl; [constructor; [intros []|constructor]|].
  apply NoDup_flat_map.
  - apply NoDup_zrange.
  - intros a _. apply FinFun.Injective_map_NoDup; auto. intros p q [=]; auto.
  - intros a a' b _ _ H1 H2. apply in_map_iff in H1 as (? & <- & _). apply in_map_iff in H2 as (? & [=] & _). auto.
Qed.

(** loop order is index order *)
Lemma map_flat_map (A B C : Type) (g : B -> C) (f : A -> list B) l :
  map g (flat_map f l) = flat_map (fun a => map g (f a)) l.
Proof. induction l; simpl; auto. rewrite map_app, IHl; auto. Qed.

Lemma zrange_app a n m : zrange a (n + m) = zrange a n ++ zrange (a + Z.of_nat n) m.
Proof.
  unfold zrange. rewrite seq_app, map_app. f_equal.
  replace (seq (0 + n) m) with (map (fun k => (n + k)%nat) (seq 0 m)).
  2:{ clear. generalize 0%nat. induction m; intros k; simpl; auto. f_equal; [lia|]. rewrite IHm. f_equal; lia. }
  rewrite !map_map. apply map_ext; intros; lia.
Qed.

Lemma zrange_shift a b n : map (fun x => b + x) (zrange a n) = zrange (b + a) n.
Proof. unfold zrange. rewrite map_map. apply map_ext; intros; lia. Qed.

Lemma flat_map_zrange n m : flat_map (fun x => zrange (x * Z.of_nat m) m) (zrange 0 n) = zrange 0 (n * m).
Proof.
  induction n as [|n IH]; [reflexivity|].
  replace (S n) with (n + 1)%nat by lia. rewrite zrange_app, flat_map_app, IH.
  replace ((n + 1) * m)%nat with (n * m + m)%nat by lia. rewrite zrange_app. f_equal.
  unfold zrange at 2; simpl. rewrite app_nil_r. f_equal. lia.
Qed.

Lemma all_coords_ravel s : pos_shape s ->
  map (ravel s) (all_coords s) = zrange 0 (Z.to_nat (shape_size s)).
Proof.
  induction 1 as [|n s Hn HS IH]; simpl; auto.
  assert (HP := shape_size_pos HS).
  rewrite map_flat_map.
  rewrite (flat_map_ext _ (fun x => zrange (x * Z.of_nat (Z.to_nat (shape_size s))) (Z.to_nat (shape_size s)))).
  - rewrite flat_map_zrange. f_equal. nia.
  - intros x. rewrite map_map. simpl. rewrite <- (map_map (ravel s) (fun y => x * shape_size s + y)), IH.
    rewrite zrange_shift. f_equal. lia.
Qed.
