(** C143, C144: the factorizations of the pressure example's solver. *)
From Coq Require Import Permutation.
From Verif Require Import Base Num CoordMask Vertex VertexProofs Mesh Sparse Boundary3 Hodge3 Laplace PropsPcg PropsLaplace Ldlt.
Set Implicit Arguments.
Local Open Scope Qc_scope.

Lemma zseq_succ n : (0 <= n)%Z -> zseq (n + 1) = zseq n ++ [n].
Proof. intros H. unfold zseq. replace (Z.to_nat (n + 1)) with (S (Z.to_nat n)) by lia. rewrite seq_S, map_app. cbn. rewrite Z2Nat.id by lia. auto. Qed.
Lemma zseq_ind (P : Z -> Prop) : P 0%Z -> (forall n, (0 <= n)%Z -> P n -> P (n + 1)%Z) -> forall n, (0 <= n)%Z -> P n.
Proof. intros H0 HS n H. apply (natlike_ind P); auto. Qed.

(** ** DenseLDLT *)
Lemma put2_same M i j v : put2 M i j v i j = v. Proof. unfold put2. rewrite !Z.eqb_refl. auto. Qed.
Lemma put2_other M i j v a b : (a, b) <> (i, j) -> put2 M i j v a b = M a b.
Proof. intros H. unfold put2. destruct (Z.eqb_spec a i), (Z.eqb_spec b j); cbn; auto. subst. contradiction. Qed.
Lemma triple_ext M M' i j : (forall t, (0 <= t < j)%Z -> M i t = M' i t /\ M j t = M' j t /\ M t t = M' t t) -> triple M i j = triple M' i j.
Proof. intros H. apply lsum_ext. intros t T. apply zseq_in in T. destruct (H t T) as (-> & -> & ->). auto. Qed.
(** row i after its first j entries *)
Lemma row_spec i M j : (0 <= j)%Z -> (j <= i)%Z -> let M' := fold_left (dense_entry i) (zseq j) M in
  (forall a b, a <> i \/ (j <= b)%Z \/ (b < 0)%Z -> M' a b = M a b) /\
  (forall b, (0 <= b < j)%Z -> if qltb tiny (qabs (M b b)) then M' i b * M b b = M i b - triple M' i b else M' i b = 0).
Proof.
  intros J. revert j J. apply (zseq_ind (fun j => (j <= i)%Z -> let M' := fold_left (dense_entry i) (zseq j) M in
    (forall a b, a <> i \/ (j <= b)%Z \/ (b < 0)%Z -> M' a b = M a b) /\
    (forall b, (0 <= b < j)%Z -> if qltb tiny (qabs (M b b)) then M' i b * M b b = M i b - triple M' i b else M' i b = 0))).
  - intros _. cbn. split; auto. intros; lia.
  - intros j J IH L. destruct IH as [U V]; [lia|]. cbv zeta. rewrite zseq_succ, fold_left_app by lia. cbn [fold_left]. set (M' := fold_left (dense_entry i) (zseq j) M) in *.
    assert (Q : M' j j = M j j) by (apply U; lia).
    assert (O : forall a b, (a, b) <> (i, j) -> dense_entry i M' j a b = M' a b). { intros a b NE. unfold dense_entry. destruct (qltb _ _); apply put2_other; auto. }
    split.
    + intros a b H. rewrite O; [apply U; lia|]. intros E. injection E as -> ->. lia.
    + intros b B. destruct (Z.eq_dec b j) as [->|NB].
      * rewrite (@triple_ext (dense_entry i M' j) M' i j). 2:{ intros t T. rewrite !O; auto; intros E; injection E; lia. }
        unfold dense_entry. rewrite Q. destruct (qltb tiny (qabs (M j j))) eqn:T; rewrite put2_same; auto. rewrite (U i j) by lia. field. intros E. rewrite E in T. vm_compute in T. discriminate.
      * rewrite (@triple_ext (dense_entry i M' j) M' i b). 2:{ intros t T. rewrite !O; auto; intros E; injection E; lia. }
        rewrite O by (intros E; injection E; lia). apply V. lia.
Qed.
Lemma dense_spec n A : let LD := dense_ldlt n A in forall i j, (0 <= j <= i)%Z -> (i < Z.of_nat n)%Z ->
  if (j <? i)%Z then (if qltb tiny (qabs (LD j j)) then LD i j * LD j j = A i j - triple LD i j else LD i j = 0) else LD i i = A i i - triple LD i i.
Proof.
  unfold dense_ldlt. set (M0 := fun i j : Z => if (j <=? i)%Z then A i j else 0). cbv zeta. assert (N : (0 <= Z.of_nat n)%Z) by lia. revert N. generalize (Z.of_nat n) as N. intros N HN.
  assert (G : let M := fold_left dense_row (zseq N) M0 in (forall a b, (N <= a)%Z -> M a b = M0 a b) /\
    forall i j, (0 <= j <= i)%Z -> (i < N)%Z -> if (j <? i)%Z then (if qltb tiny (qabs (M j j)) then M i j * M j j = A i j - triple M i j else M i j = 0) else M i i = A i i - triple M i i); [|apply G].
  revert N HN. apply (zseq_ind (fun N => let M := fold_left dense_row (zseq N) M0 in (forall a b, (N <= a)%Z -> M a b = M0 a b) /\
    forall i j, (0 <= j <= i)%Z -> (i < N)%Z -> if (j <? i)%Z then (if qltb tiny (qabs (M j j)) then M i j * M j j = A i j - triple M i j else M i j = 0) else M i i = A i i - triple M i i)).
  { cbn. split; auto. intros; lia. }
  intros k K [U V]. cbv zeta. rewrite zseq_succ, fold_left_app by lia. cbn [fold_left]. set (M := fold_left dense_row (zseq k) M0) in *.
  destruct (@row_spec k M k K ltac:(lia)) as [R1 R2]. set (M1 := fold_left (dense_entry k) (zseq k) M) in *.
  assert (O : forall a b, (a, b) <> (k, k) -> dense_row M k a b = M1 a b) by (intros; unfold dense_row; fold M1; apply put2_other; auto).
  assert (OT : forall i j, (j <= i <= k)%Z -> triple (dense_row M k) i j = triple M1 i j). { intros i j H. apply triple_ext. intros t T. rewrite !O; auto; intros E; injection E; lia. }
  assert (OM : forall i j, (j <= i < k)%Z -> triple M1 i j = triple M i j). { intros i j H. apply triple_ext. intros t T. rewrite !R1; auto; lia. }
  split; [intros a b H; rewrite O by (intros E; injection E; lia); rewrite R1 by lia; apply U; lia|].
  intros i j J I. destruct (Z.eq_dec i k) as [->|NI].
  - destruct (Z.ltb_spec j k).
    + assert (X := R2 j ltac:(lia)). rewrite !O, OT by (try (intros E; injection E); lia). rewrite (R1 j j) by lia. destruct (qltb tiny (qabs (M j j))); auto. rewrite X. rewrite (U k j) by lia. unfold M0. destruct (Z.leb_spec j k); [auto|lia].
    + unfold dense_row at 1. fold M1. rewrite put2_same. rewrite OT by lia. rewrite (R1 k k), (U k k) by lia. unfold M0. rewrite Z.leb_refl. auto.
  - assert (X := V i j J ltac:(lia)). destruct (j <? i)%Z; rewrite !O, OT, OM by (try (intros E; injection E); lia); rewrite !R1 by lia; auto.
Qed.
(** a sum over t < n whose terms above i vanish *)
Lemma lsum_upto n i g : (0 <= i < n)%Z -> (forall t, (i < t < n)%Z -> g t = 0) -> lsum g (zseq n) = lsum g (zseq i) + g i.
Proof.
  intros H Z. assert (E : lsum g (zseq i) + g i = lsum g (zseq (i + 1))) by (rewrite zseq_succ, lsum_app by lia; cbn; ring). rewrite E, (@lsum_below n (i + 1)) by lia. apply lsum_ext. intros t T. apply zseq_in in T. destruct (Z.ltb_spec t (i + 1)); auto. apply Z. lia.
Qed.
(** C144. If no pivot but the last is as small as 1e-4, DenseLDLT::getA() gives the matrix back. *)
Theorem c144_exact n (A : Z -> Z -> Qc) :
  (forall i j, A i j = A j i) -> (forall j, (0 <= j < Z.of_nat n - 1)%Z -> tiny < qabs (dense_ldlt n A j j)) ->
  forall i j, (0 <= i < Z.of_nat n)%Z -> (0 <= j < Z.of_nat n)%Z -> get_A n (dense_ldlt n A) i j = A i j.
Proof.
  intros SY PV. set (LD := dense_ldlt n A) in *.
  assert (G : forall i j, (0 <= j <= i)%Z -> (i < Z.of_nat n)%Z -> get_A n LD i j = A i j).
  { intros i j J I. assert (S := dense_spec n A). cbv zeta in S. specialize (S i j J I). fold LD in S. unfold get_A. rewrite (@lsum_upto _ j); [|lia|].
    2:{ intros t T. unfold unit_lower at 2. destruct (Z.ltb_spec t j); [lia|]. destruct (Z.eqb_spec j t); [lia|ring]. }
    rewrite (@lsum_ext _ _ (fun t => LD i t * LD j t * LD t t)).
    2:{ intros t T. apply zseq_in in T. unfold unit_lower. destruct (Z.ltb_spec t i), (Z.ltb_spec t j); try lia. ring. }
    fold (triple LD i j). unfold unit_lower. rewrite Z.ltb_irrefl, Z.eqb_refl. destruct (Z.ltb_spec j i).
    - assert (T := PV j ltac:(lia)). apply qltb_lt in T. rewrite T in S. replace (LD i j * (LD j j * 1)) with (LD i j * LD j j) by ring. rewrite S. ring.
    - replace j with i in * by lia. rewrite Z.eqb_refl. rewrite S. ring. }
  intros i j I J. destruct (Z.le_ge_cases j i); [apply G; lia|]. rewrite SY, <- (G j i) by lia. apply lsum_ext. intros; ring.
Qed.
(** the substitutions solve (L D L^T) x = b *)
Lemma ldlt_solves n l d dinv b : (forall t, (0 <= t < Z.of_nat n)%Z -> d t * dinv t = 1) ->
  let u i j := if (j <? i)%Z then l i j else if (i =? j)%Z then 1 else 0 in
  forall i, (0 <= i < Z.of_nat n)%Z -> lsum (fun j => lsum (fun t => u i t * (d t * u j t)) (zseq (Z.of_nat n)) * ldlt_apply n l dinv b j) (zseq (Z.of_nat n)) = b i.
Proof.
  intros DI u i I. set (N := Z.of_nat n) in *. set (x := ldlt_apply n l dinv b). set (y := forward l b n).
  assert (SP : forall (g : Z -> Qc) k, (0 <= k < N)%Z -> lsum (fun j => (if (j =? k)%Z then g j else 0)) (zseq N) = g k).
  { intros g k K. rewrite (@lsum_single _ _ _ k); [rewrite Z.eqb_refl; auto|apply zseq_nodup|apply zseq_in; auto|]. intros a _ NA. destruct (Z.eqb_spec a k); [contradiction|auto]. }
  assert (X : forall t, (0 <= t < N)%Z -> lsum (fun j => u j t * x j) (zseq N) = dinv t * y t).
  { intros t T. assert (B := @backward_spec n l (fun i => dinv i * y i) t T). fold N in B. change (backward n l (fun i => dinv i * y i) n) with x in B.
    rewrite (@lsum_ext _ _ (fun j => (if (t <? j)%Z then l j t * x j else 0) + (if (j =? t)%Z then x j else 0))).
    2:{ intros j _. unfold u. destruct (Z.ltb_spec t j), (Z.eqb_spec j t); try lia; ring. }
    rewrite lsum_add, SP by auto. rewrite B at 1. ring. }
  assert (Y : lsum (fun t => u i t * y t) (zseq N) = b i).
  { assert (F := @forward_spec n l b i I). fold N y in F. rewrite (@lsum_ext _ _ (fun j => (if (j <? i)%Z then l i j * y j else 0) + (if (j =? i)%Z then y j else 0))).
    2:{ intros j _. unfold u. destruct (Z.ltb_spec j i), (Z.eqb_spec j i), (Z.eqb_spec i j); try lia; ring. }
    rewrite lsum_add, SP by auto. rewrite F at 1. ring. }
  rewrite <- Y. rewrite (@lsum_ext _ _ (fun j => lsum (fun t => u i t * d t * (u j t * x j)) (zseq N))). 2:{ intros j _. rewrite Qcmult_comm, <- lsum_scale. apply lsum_ext. intros; ring. }
  rewrite lsum_swap. apply lsum_ext. intros t T. apply zseq_in in T. rewrite lsum_scale, X by auto. rewrite Qcmult_assoc, <- (Qcmult_assoc (u i t)), DI by auto. ring.
Qed.
(** C144. ... and solve() returns the solution, if the last pivot is not zero either. *)
Theorem c144_solve n (A : Z -> Z -> Qc) b :
  (forall i j, A i j = A j i) -> (forall j, (0 <= j < Z.of_nat n - 1)%Z -> tiny < qabs (dense_ldlt n A j j)) -> dense_ldlt n A (Z.of_nat n - 1)%Z (Z.of_nat n - 1)%Z <> 0 ->
  exists x, dense_solve n (dense_ldlt n A) b = Some x /\ forall i, (0 <= i < Z.of_nat n)%Z -> lsum (fun j => A i j * x j) (zseq (Z.of_nat n)) = b i.
Proof.
  intros SY PV LP. assert (NZ : forall t, (0 <= t < Z.of_nat n)%Z -> dense_ldlt n A t t <> 0).
  { intros t T. destruct (Z.eq_dec t (Z.of_nat n - 1)) as [->|]; auto. intros E. specialize (PV t ltac:(lia)). rewrite E in PV. apply qltb_lt in PV. vm_compute in PV. discriminate. }
  unfold dense_solve. rewrite (proj2 (forallb_forall _ _)). 2:{ intros t T. apply zseq_in in T. destruct (qeqb _ 0) eqn:E; auto. apply qeqb_eq in E. contradiction (NZ t T). }
  eexists. split; [reflexivity|]. intros i I. rewrite <- (@ldlt_solves n (dense_ldlt n A) (fun t => dense_ldlt n A t t) (fun i => 1 / dense_ldlt n A i i) b) with (i := i); auto.
  2:{ intros t T. field. apply NZ. auto. }
  apply lsum_ext. intros j J. apply zseq_in in J. rewrite <- (@c144_exact n A SY PV i j I J). auto.
Qed.
(** the same matrix in other units: times s *)
Definition two_by_two (s : Qc) : Z -> Z -> Qc := fun i j => if (i =? j)%Z then s * (1 + 1) else s.
(** REFUTED (C144): the threshold on the pivots is absolute; [2 1; 1 2] is factored exactly, the same matrix times 1e-5 loses its off-diagonal entries *)
Theorem c144_units_refuted : (forall i j, (0 <= i < 2)%Z -> (0 <= j < 2)%Z -> get_A 2 (dense_ldlt 2 (two_by_two 1)) i j = two_by_two 1 i j) /\
  get_A 2 (dense_ldlt 2 (two_by_two (Q2Qc (1 # 100000)))) 0%Z 1%Z = 0 /\ two_by_two (Q2Qc (1 # 100000)) 0%Z 1%Z <> 0.
Proof.
  split; [|split; [apply Qc_is_canon; vm_compute; reflexivity|discriminate]]. intros i j I J. apply c144_exact; auto.
  - intros a b. unfold two_by_two. rewrite Z.eqb_sym. destruct (Z.eqb_spec b a); auto.
  - intros a A0. assert (a = 0)%Z as -> by lia. apply qltb_lt. vm_compute. reflexivity.
Qed.

(** ** SparseLDLT *)
Definition rows_of (c : column) : list Z := map fst c.
Definition increasing (l : list Z) : Prop := ssorted Z.compare l.
Lemma at_row_notin c i : ~ In i (rows_of c) -> at_row c i = 0.
Proof. induction c as [|[r v] c IH]; intros H; cbn; auto. unfold at_row. cbn. destruct (Z.eqb_spec r i); [subst; contradiction H; cbn; auto|]. apply IH. intros I. apply H. cbn. auto. Qed.
Lemma at_row_cons r v c i : at_row ((r, v) :: c) i = if (r =? i)%Z then v else at_row c i.
Proof. unfold at_row. cbn. destruct (r =? i)%Z; auto. Qed.
Lemma inc_cons r l : increasing (r :: l) <-> (forall x, In x l -> (r < x)%Z) /\ increasing l.
Proof.
  unfold increasing. split.
  - intros H. inversion H as [|x l' F S E]; subst. rewrite Forall_forall in F. split; auto.
  - intros [H S]. constructor; auto. rewrite Forall_forall. intros x I. apply Z.compare_lt_iff. auto.
Qed.
Lemma inc_col r (v : Qc) c : increasing (rows_of ((r, v) :: c)) <-> (forall x, In x (rows_of c) -> (r < x)%Z) /\ increasing (rows_of c).
Proof. apply inc_cons. Qed.
Lemma at_row_in c i v : increasing (rows_of c) -> In (i, v) c -> at_row c i = v.
Proof.
  induction c as [|[r w] c IH]; intros S I; [destruct I|]. apply inc_col in S as [F S]. rewrite at_row_cons. destruct I as [E|I].
  - injection E as -> ->. rewrite Z.eqb_refl. auto.
  - destruct (Z.eqb_spec r i) as [->|]; [|auto]. assert (X := F i (in_map fst _ _ I)). cbn in X. lia.
Qed.
Lemma lsum_col (f : Z -> Qc) c : increasing (rows_of c) -> lsum (fun '(r, v) => f r * v) c = lsum (fun r => f r * at_row c r) (rows_of c).
Proof.
  intros S. unfold rows_of at 1. rewrite lsum_map. apply lsum_ext. intros [r v] I. cbn. rewrite (at_row_in _ _ _ S I). auto.
Qed.

Lemma advance_above jit r v m : (forall x, In x (rows_of jit) -> (r < x)%Z) -> advance jit r v m = (jit, if jit then m else m + v).
Proof. destruct jit as [|[rj x] t]; intros H; cbn; auto. assert (X := H rj (or_introl eq_refl)). destruct (Z.ltb_spec rj r); [lia|]. destruct (Z.eqb_spec rj r); [lia|auto]. Qed.
Lemma walk_above_spec j kit jit m : increasing (rows_of kit) -> (forall x, In x (rows_of jit) -> (j < x)%Z) ->
  walk_above j kit jit m = (filter (fun '(r, _) => negb (r <? j)%Z) kit, jit, m + (if jit then 0 else lsum snd (filter (fun '(r, _) => (r <? j)%Z) kit))).
Proof.
  revert m. induction kit as [|[r v] t IH]; intros m S H; cbn [walk_above filter].
  - f_equal. destruct jit; cbn; ring.
  - apply inc_col in S as [F S]. destruct (Z.ltb_spec r j); cbn [negb].
    + rewrite advance_above by (intros x I; specialize (H x I); lia). rewrite IH by auto. f_equal. destruct jit; cbn [lsum snd]; ring.
    + assert (E : filter (fun '(r, _) => (r <? j)%Z) t = []). { clear - F H0. induction t as [|[a b] t IH]; cbn; auto. destruct (Z.ltb_spec a j) as [L|L]; [specialize (F a (or_introl eq_refl)); lia|]. apply IH. intros x I. apply F. cbn. auto. }
      assert (E' : filter (fun '(r, _) => negb (r <? j)%Z) t = t). { clear - F H0. induction t as [|[a b] t IH]; cbn; auto. destruct (Z.ltb_spec a j) as [L|L]; [specialize (F a (or_introl eq_refl)); lia|]. cbn. f_equal. apply IH. intros x I. apply F. cbn. auto. }
      rewrite E, E'. f_equal. destruct jit; cbn; ring.
Qed.
Definition zmem (x : Z) (l : list Z) : bool := existsb (Z.eqb x) l.
Lemma zmem_In x l : zmem x l = true <-> In x l.
Proof. unfold zmem. rewrite existsb_exists. split; [intros (y & I & E); apply Z.eqb_eq in E; subst; auto|intros I; exists x; rewrite Z.eqb_refl; auto]. Qed.
Lemma zmem_not x l : ~ In x l -> zmem x l = false.
Proof. intros H. destruct (zmem x l) eqn:E; auto. apply zmem_In in E. contradiction. Qed.
Lemma walk_merge_nil mult jcol m : walk_merge mult [] jcol m = (jcol, [], m). Proof. destruct jcol; auto. Qed.
Lemma walk_merge_nil_r mult rk vk tk m : walk_merge mult ((rk, vk) :: tk) [] m = ([], (rk, vk) :: tk, m). Proof. auto. Qed.
Lemma walk_merge_cons mult rk vk tk rj vj tj m : walk_merge mult ((rk, vk) :: tk) ((rj, vj) :: tj) m =
  if (rj <? rk)%Z then let '(c, k, m) := walk_merge mult ((rk, vk) :: tk) tj m in ((rj, vj) :: c, k, m)
  else if (rj =? rk)%Z then let '(c, k, m) := walk_merge mult tk tj m in ((rj, vj - mult * vk) :: c, k, m)
  else walk_merge mult tk ((rj, vj) :: tj) (m + vk).
Proof. reflexivity. Qed.
Lemma fold_rest (rest : column) m : fold_left (fun m '(_, x) => m + x) rest m = m + lsum snd rest.
Proof. revert m. induction rest as [|[r x] t IH]; intros m; cbn [fold_left lsum snd]; [ring|]. rewrite IH. ring. Qed.
Definition subtract (mult : Qc) (kit : column) (jcol : column) : column := map (fun '(r, x) => (r, x - mult * at_row kit r)) jcol.
Lemma subtract_ext mult kit kit' jcol : (forall r, In r (rows_of jcol) -> at_row kit r = at_row kit' r) -> subtract mult kit jcol = subtract mult kit' jcol.
Proof. intros H. apply map_ext_in. intros [r x] I. rewrite H; auto. apply (in_map fst) in I. auto. Qed.
Lemma subtract_0 mult jcol : subtract mult [] jcol = jcol.
Proof. unfold subtract. rewrite <- (map_id jcol) at 2. apply map_ext. intros [r x]. f_equal. cbn. ring. Qed.
Lemma walk_merge_spec mult kit : increasing (rows_of kit) -> forall jcol m, increasing (rows_of jcol) ->
  let '(c, rest, m') := walk_merge mult kit jcol m in c = subtract mult kit jcol /\ m' + lsum snd rest = m + lsum snd (filter (fun '(r, _) => negb (zmem r (rows_of jcol))) kit).
Proof.
  induction kit as [|[rk vk] tk IHk]; intros SK jcol.
  - intros m _. rewrite walk_merge_nil. rewrite subtract_0. split; auto.
  - destruct (proj1 (inc_col _ _ _) SK) as [FK SK1]. specialize (IHk SK1). induction jcol as [|[rj vj] tj IHj]; intros m SJ.
    + rewrite walk_merge_nil_r. split; [auto|]. cbn [rows_of map zmem existsb negb]. f_equal. assert (E : forall t : column, filter (fun '(_, _) => true) t = t) by (induction t as [|[a b] t I]; cbn; congruence). rewrite E. auto.
    + destruct (proj1 (inc_col _ _ _) SJ) as [FJ SJ1]. rewrite walk_merge_cons. destruct (Z.ltb_spec rj rk).
      * specialize (IHj m SJ1). destruct (walk_merge mult ((rk, vk) :: tk) tj m) as [[c rest] m']. destruct IHj as [-> E2]. split.
        { unfold subtract at 2. cbn [map]. f_equal. f_equal. rewrite at_row_notin; [ring|]. cbn. intros [E|I]; [lia|]. specialize (FK rj I). lia. }
        rewrite E2. f_equal. f_equal. apply filter_ext_in. intros [r x] I. unfold zmem. cbn [rows_of map existsb fst]. assert (rk <= r)%Z. { destruct I as [E|I]; [injection E; lia|]. specialize (FK r (in_map fst _ _ I)). lia. } destruct (Z.eqb_spec r rj); [lia|auto].
      * destruct (Z.eqb_spec rj rk) as [->|NE].
        { assert (X := IHk tj m SJ1). destruct (walk_merge mult tk tj m) as [[c rest] m']. destruct X as [-> E2]. split.
          - unfold subtract at 2. cbn [map]. rewrite at_row_cons, Z.eqb_refl. f_equal. apply subtract_ext. intros r I. rewrite at_row_cons. specialize (FJ r I). destruct (Z.eqb_spec rk r); [lia|auto].
          - rewrite E2. cbn [filter]. replace (zmem rk (rows_of ((rk, vj) :: tj))) with true by (cbn; rewrite Z.eqb_refl; auto). cbn [negb]. f_equal. f_equal. apply filter_ext_in. intros [r x] I. unfold zmem. cbn [rows_of map existsb fst]. specialize (FK r (in_map fst _ _ I)). destruct (Z.eqb_spec r rk); [lia|auto]. }
        { assert (X := IHk ((rj, vj) :: tj) (m + vk) SJ). destruct (walk_merge mult tk ((rj, vj) :: tj) (m + vk)) as [[c rest] m']. destruct X as [-> E2]. split.
          - apply subtract_ext. intros r I. rewrite at_row_cons. destruct (Z.eqb_spec rk r); auto. subst r. exfalso. cbn in I. destruct I as [E|I]; [lia|]. specialize (FJ rk I). lia.
          - rewrite E2. cbn [filter]. rewrite (zmem_not rk). 2:{ cbn. intros [E|I]; [lia|]. specialize (FJ rk I). lia. } cbn [negb lsum snd]. ring. }
Qed.
Lemma at_row_filter (f : Z -> bool) c i : f i = true -> at_row (filter (fun '(r, _) => f r) c) i = at_row c i.
Proof. intros H. induction c as [|[r v] c IH]; cbn [filter]; auto. destruct (f r) eqn:E; rewrite ?at_row_cons; [destruct (r =? i)%Z; auto|]. rewrite IH. destruct (Z.eqb_spec r i); [congruence|auto]. Qed.
Lemma rows_filter (f : Z -> bool) c : rows_of (filter (fun '(r, _) => f r) c) = filter f (rows_of c).
Proof. unfold rows_of. induction c as [|[r v] c IH]; auto. cbn [filter map fst]. destruct (f r); cbn [map fst]; rewrite IH; auto. Qed.
Lemma inc_filter f l : increasing l -> increasing (filter f l).
Proof. induction l as [|a l IH]; intros S; cbn; auto. apply inc_cons in S as [F S]. destruct (f a); auto. apply inc_cons. split; auto. intros x I. apply filter_In in I. apply F. tauto. Qed.
Lemma lsum_snd c : increasing (rows_of c) -> lsum snd c = lsum (at_row c) (rows_of c).
Proof. intros S. unfold rows_of at 1. rewrite lsum_map. apply lsum_ext. intros [r v] I. cbn. rewrite (at_row_in _ _ _ S I). auto. Qed.
Lemma lsum_snd_filter (f : Z -> bool) c : increasing (rows_of c) -> lsum snd (filter (fun '(r, _) => f r) c) = lsum (fun i => if f i then at_row c i else 0) (rows_of c).
Proof.
  intros S. rewrite lsum_snd by (rewrite rows_filter; apply inc_filter; auto). rewrite rows_filter, lsum_if. apply lsum_ext. intros i I. apply filter_In in I as [_ I]. apply at_row_filter. auto.
Qed.
Definition nonempty (l : list Z) : bool := match l with [] => false | _ => true end.
(** the entries of column k that column j has no room for (and those above row j, if column j has an entry) *)
Definition missing (kcol : column) (jrows : list Z) (j : Z) : Qc :=
  lsum (fun i => if (if (i <? j)%Z then nonempty jrows else negb (zmem i jrows)) then at_row kcol i else 0) (rows_of kcol).
Definition loss (stale : Z -> Z -> bool) (k : Z) (kcol : column) (jrows : list Z) (j : Z) : Qc :=
  (if negb (nonempty jrows) && stale k j then at_row kcol j * at_row kcol j else 0) + q97 * missing kcol jrows j * at_row kcol j.
Lemma spread_spec stale k kcol F j v : (k < j)%Z -> increasing (rows_of kcol) -> increasing (rows_of (f_L F j)) -> (forall x, In x (rows_of (f_L F j)) -> (j < x)%Z) -> In (j, v) kcol ->
  spread stale k kcol F (j, v) = mkFac (set_col (f_L F) j (subtract (at_row kcol j) kcol (f_L F j))) (upd (f_dinv F) j (f_dinv F j - loss stale k kcol (rows_of (f_L F j)) j)).
Proof.
  intros KJ SK SJ RJ I. unfold spread. destruct (Z.leb_spec j k); [lia|]. rewrite walk_above_spec by auto. set (kit := filter (fun '(r, _) => negb (r <? j)%Z) kcol).
  assert (SKit : increasing (rows_of kit)) by (unfold kit; rewrite (rows_filter (fun r => negb (r <? j)%Z)); apply inc_filter; auto).
  assert (IK : In (j, v) kit) by (unfold kit; apply filter_In; split; auto; rewrite Z.ltb_irrefl; auto).
  assert (EV : at_row kcol j = v) by (apply at_row_in; auto).
  assert (X := @walk_merge_spec v kit SKit (f_L F j) (0 + (if f_L F j then 0 else lsum snd (filter (fun '(r, _) => (r <? j)%Z) kcol))) SJ).
  destruct (walk_merge v kit (f_L F j) _) as [[c rest] m']. destruct X as [-> E2]. rewrite fold_rest, E2.
  assert (ES : subtract v kit (f_L F j) = subtract (at_row kcol j) kcol (f_L F j)).
  { rewrite EV. apply subtract_ext. intros r R. unfold kit. apply (at_row_filter (fun r => negb (r <? j)%Z)). specialize (RJ r R). destruct (Z.ltb_spec r j); [lia|auto]. }
  rewrite ES. f_equal. f_equal.
  assert (EM : 0 + (if f_L F j then 0 else lsum snd (filter (fun '(r, _) => (r <? j)%Z) kcol)) + lsum snd (filter (fun '(r, _) => negb (zmem r (rows_of (f_L F j)))) kit) = missing kcol (rows_of (f_L F j)) j).
  { rewrite (lsum_snd_filter (fun r => (r <? j)%Z) kcol SK). rewrite (lsum_snd_filter (fun r => negb (zmem r (rows_of (f_L F j)))) kit SKit). unfold kit. rewrite (rows_filter (fun r => negb (r <? j)%Z)). rewrite <- (lsum_if (fun r => negb (r <? j)%Z)). unfold missing.
    assert (EB : (if f_L F j then 0 else lsum (fun i => if (i <? j)%Z then at_row kcol i else 0) (rows_of kcol)) = lsum (fun i => if nonempty (rows_of (f_L F j)) && (i <? j)%Z then at_row kcol i else 0) (rows_of kcol)).
    { destruct (f_L F j); cbn; [symmetry; apply lsum_0; auto|auto]. }
    rewrite EB, Qcplus_0_l, <- lsum_add. apply lsum_ext. intros i _. destruct (Z.ltb_spec i j); cbn [negb]; [destruct (nonempty _); cbn; ring|]. rewrite andb_false_r. rewrite (at_row_filter (fun r => negb (r <? j)%Z)) by (destruct (Z.ltb_spec i j); [lia|auto]). destruct (zmem _ _); cbn; ring. }
  rewrite EM. unfold loss. rewrite EV. destruct kit as [|e kit']; [destruct IK|]. destruct (f_L F j) as [|[rj x] t] eqn:EL; cbn [rows_of map nonempty negb andb fst].
  - destruct (stale k j); ring.
  - assert (Y := RJ rj (or_introl eq_refl)). destruct (Z.eqb_spec rj j); [lia|]. ring.
Qed.
Lemma fold_spread stale k kcol : increasing (rows_of kcol) -> (forall j, In j (rows_of kcol) -> (k < j)%Z) -> forall es, incl es kcol -> NoDup (rows_of es) -> forall F,
  (forall j, In j (rows_of es) -> increasing (rows_of (f_L F j)) /\ forall x, In x (rows_of (f_L F j)) -> (j < x)%Z) ->
  let G := fold_left (spread stale k kcol) es F in forall j,
  f_L G j = (if zmem j (rows_of es) then subtract (at_row kcol j) kcol (f_L F j) else f_L F j) /\
  f_dinv G j = (if zmem j (rows_of es) then f_dinv F j - loss stale k kcol (rows_of (f_L F j)) j else f_dinv F j).
Proof.
  intros SK KK. induction es as [|[r v] es IH]; intros IN ND F HF G j; unfold G; [cbn; auto|]. cbn [fold_left]. cbn [rows_of map fst] in ND. apply NoDup_cons_iff in ND as [NI ND].
  assert (HI : In (r, v) kcol) by (apply IN; cbn; auto). destruct (HF r (or_introl eq_refl)) as [SR RR].
  rewrite (@spread_spec stale k kcol F r v (KK r (in_map fst _ _ HI)) SK SR RR HI). set (F1 := mkFac _ _). destruct (IH ltac:(intros e E; apply IN; cbn; auto) ND F1) with (j := j) as [A B].
  { intros a I. unfold F1. cbn [f_L]. unfold set_col. destruct (Z.eqb_spec a r) as [->|]; [contradiction|]. apply HF. cbn. auto. }
  rewrite A, B. unfold F1. cbn [f_L f_dinv]. unfold set_col, upd. replace (zmem j (rows_of ((r, v) :: es))) with ((j =? r)%Z || zmem j (rows_of es)) by reflexivity. destruct (Z.eqb_spec j r) as [->|]; cbn [orb]; [rewrite zmem_not by auto; auto|]. auto.
Qed.
Lemma rows_subtract m c c' : rows_of (subtract m c c') = rows_of c'.
Proof. unfold rows_of, subtract. rewrite map_map. apply map_ext. intros [r x]; auto. Qed.
Lemma at_row_subtract m c c' i : In i (rows_of c') -> at_row (subtract m c c') i = at_row c' i - m * at_row c i.
Proof.
  induction c' as [|[r x] t IH]; intros I; [destruct I|]. cbn [subtract map]. rewrite !at_row_cons. destruct (Z.eqb_spec r i) as [->|]; auto. apply IH. cbn in I. destruct I; [contradiction|auto].
Qed.
Lemma rows_scale s (c : column) : rows_of (map (fun '(r, v) => (r, v * s)) c) = rows_of c.
Proof. unfold rows_of. rewrite map_map. apply map_ext. intros [r x]; auto. Qed.
Lemma at_row_scale s (c : column) i : at_row (map (fun '(r, v) => (r, v * s)) c) i = at_row c i * s.
Proof. induction c as [|[r v] c IH]; [cbn; ring|]. cbn [map]. rewrite !at_row_cons. destruct (r =? i)%Z; auto. Qed.
Lemma zseq_inc n : increasing (zseq n).
Proof.
  unfold zseq. generalize 0%nat. induction (Z.to_nat n) as [|m IH]; intros a; cbn [seq map]; [constructor|]. apply inc_cons. split; [|apply IH]. intros x I. apply in_map_iff in I as (y & <- & I). apply in_seq in I. lia.
Qed.

(** ** specification: the recurrences the factors satisfy *)
(** the stored rows below the diagonal in column k *)
Definition pattern (A : matrix) (k : Z) : list Z := filter (fun r => (k <? r)%Z && stored A r k) (zseq (mat_rows A)).
Section Factor.
  Variables (stale : Z -> Z -> bool) (A : matrix).
  Notation a := (coeff (mat_entries A)).
  Notation n := (mat_rows A).
  Definition used (k j : Z) : bool := negb (qeqb (a k k) 0) && zmem j (pattern A k).
  (** what the columns before K subtract from entry (i, j), and from pivot j *)
  Definition taken (F : factors) (K i j : Z) : Qc := lsum (fun k => if used k j then f_l F j k * f_l F i k else 0) (zseq K).
  Definition eaten (F : factors) (K j : Z) : Qc := lsum (fun k => if used k j then loss stale k (f_L F k) (pattern A j) j else 0) (zseq K).
  Definition done_col (F : factors) (j : Z) : Prop :=
    let e := a j j - eaten F j j in
    if qeqb (a j j) 0 then f_dinv F j = e /\ forall i, In i (pattern A j) -> f_l F i j = a i j - taken F j i j
    else exists p, p = (if qltb e (quarter * a j j) then a j j else e) /\ p <> 0 /\ f_dinv F j = 1 / p /\ forall i, In i (pattern A j) -> f_l F i j = (a i j - taken F j i j) / p.
  Definition Inv (K : Z) (F : factors) : Prop :=
    (forall j, rows_of (f_L F j) = pattern A j) /\ (forall j, (0 <= j < K)%Z -> done_col F j) /\
    (forall j, (K <= j)%Z -> f_dinv F j = a j j - eaten F K j /\ forall i, In i (pattern A j) -> f_l F i j = a i j - taken F K i j).
  Lemma pattern_inc j : increasing (pattern A j). Proof. apply inc_filter, zseq_inc. Qed.
  Lemma pattern_above j x : In x (pattern A j) -> (j < x < n)%Z.
  Proof. intros I. apply filter_In in I as [I P]. apply zseq_in in I. apply andb_true_iff in P as [P _]. apply Z.ltb_lt in P. lia. Qed.
  Lemma inv_init : Inv 0 (mkFac (lower_column A) (diagonal A)).
  Proof.
    split; [|split]; cbn [f_L f_dinv].
    - intros j. unfold rows_of, lower_column. rewrite map_map. cbn. apply map_id.
    - intros; lia.
    - intros j J. split; [unfold eaten; cbn; unfold diagonal; ring|]. intros i I. unfold f_l. cbn [f_L]. unfold lower_column. fold (pattern A j).
      replace (taken _ 0 i j) with 0 by reflexivity. assert (G : forall l, In i l -> at_row (map (fun r => (r, a r j)) l) i = a i j); [|rewrite G; auto; ring].
      induction l as [|r l IH]; intros []; cbn [map]; rewrite at_row_cons; [subst; rewrite Z.eqb_refl; auto|]. destruct (Z.eqb_spec r i); [subst; auto|auto].
  Qed.
  (** the sums only read the columns before K *)
  Lemma taken_ext F F' K i j : (forall k, (0 <= k < K)%Z -> f_L F k = f_L F' k) -> taken F K i j = taken F' K i j.
  Proof. intros H. apply lsum_ext. intros k I. apply zseq_in in I. unfold f_l. rewrite (H k I). auto. Qed.
  Lemma eaten_ext F F' K j : (forall k, (0 <= k < K)%Z -> f_L F k = f_L F' k) -> eaten F K j = eaten F' K j.
  Proof. intros H. apply lsum_ext. intros k I. apply zseq_in in I. rewrite (H k I). auto. Qed.
  Lemma done_ext F F' j : (forall k, (0 <= k <= j)%Z -> f_L F k = f_L F' k) -> f_dinv F j = f_dinv F' j -> (0 <= j)%Z -> done_col F j -> done_col F' j.
  Proof.
    intros H E J. unfold done_col. cbv zeta. rewrite (@eaten_ext F F' j j) by (intros; apply H; lia). rewrite E. assert (EL : forall i, f_l F i j = f_l F' i j) by (intros; unfold f_l; rewrite (H j) by lia; auto).
    destruct (qeqb (a j j) 0).
    - intros [D L]. split; auto. intros i I. rewrite <- EL, <- (@taken_ext F F' j i j) by (intros; apply H; lia). auto.
    - intros (p & P & NP & D & L). exists p. do 3 (split; auto). intros i I. rewrite <- EL, <- (@taken_ext F F' j i j) by (intros; apply H; lia). auto.
  Qed.
  Lemma inv_step K F F' : (0 <= K)%Z -> Inv K F -> factor_step stale (diagonal A) (Some F) K = Some F' -> Inv (K + 1) F'.
  Proof.
    intros HK (IP & ID & IR). unfold factor_step, diagonal. destruct (qeqb (a K K) 0) eqn:EZ.
    - intros E. apply Some_inj in E. subst F'. assert (ZU : forall j, used K j = false) by (intros; unfold used; rewrite EZ; auto). split; [auto|split].
      + intros j J. destruct (Z.eq_dec j K) as [->|]; [|apply ID; lia]. unfold done_col. cbv zeta. rewrite EZ. apply IR. lia.
      + intros j J. destruct (IR j) as [D L]; [lia|]. unfold eaten, taken. rewrite zseq_succ by lia. rewrite lsum_app. cbn [lsum]. rewrite ZU. split; [rewrite D; unfold eaten; ring|]. intros i I. rewrite lsum_app. cbn [lsum]. rewrite ZU, L by auto. unfold taken. ring.
    - destruct (IR K) as [DK LK]; [lia|]. set (p := if qltb (f_dinv F K) (quarter * a K K) then a K K else f_dinv F K). destruct (qeqb p 0) eqn:EP; [discriminate|]. apply qeqb_neq in EP. intros E. apply Some_inj in E. set (s := 1 / p) in *. set (kcol := map (fun '(r, v) => (r, v * s)) (f_L F K)) in *.
      assert (RK : rows_of kcol = pattern A K) by (unfold kcol; rewrite rows_scale; apply IP).
      set (F1 := mkFac (set_col (f_L F) K kcol) (upd (f_dinv F) K s)) in *.
      assert (P1 : forall j, rows_of (f_L F1 j) = pattern A j). { intros j. unfold F1. cbn [f_L]. unfold set_col. destruct (Z.eqb_spec j K) as [->|]; auto. }
      assert (FS := @fold_spread stale K kcol). rewrite RK in FS. specialize (FS (pattern_inc K) (fun j I => proj1 (pattern_above _ _ I)) kcol (incl_refl _)). rewrite RK in FS. specialize (FS (ssorted_NoDup Zcompare_total (pattern_inc K)) F1).
      cbv zeta in FS. rewrite E in FS. assert (FS' : forall j, f_L F' j = (if zmem j (pattern A K) then subtract (at_row kcol j) kcol (f_L F1 j) else f_L F1 j) /\ f_dinv F' j = (if zmem j (pattern A K) then f_dinv F1 j - loss stale K kcol (pattern A j) j else f_dinv F1 j)).
      { intros j. destruct (FS ltac:(intros a0 I0; rewrite P1; split; [apply pattern_inc|intros x X; apply (pattern_above _ _ X)]) j) as [A1 A2]. rewrite P1 in A2. auto. } clear FS.
      assert (LO : forall j, (0 <= j <= K)%Z -> f_L F' j = f_L F1 j /\ f_dinv F' j = f_dinv F1 j). { intros j J. destruct (FS' j) as [A1 A2]. rewrite zmem_not in A1, A2 by (intros I; apply pattern_above in I; lia). auto. }
      assert (LO' : forall j, (0 <= j < K)%Z -> f_L F' j = f_L F j /\ f_dinv F' j = f_dinv F j). { intros j J. destruct (LO j) as [-> ->]; [lia|]. unfold F1. cbn [f_L f_dinv]. unfold set_col, upd. destruct (Z.eqb_spec j K); [lia|auto]. }
      assert (LK' : f_L F' K = kcol /\ f_dinv F' K = s). { destruct (LO K) as [-> ->]; [lia|]. unfold F1. cbn [f_L f_dinv]. unfold set_col, upd. rewrite Z.eqb_refl. auto. }
      split; [|split].
      + intros j. destruct (FS' j) as [-> _]. destruct (zmem j (pattern A K)); rewrite ?rows_subtract; apply P1.
      + intros j J. destruct (Z.eq_dec j K) as [->|].
        * unfold done_col. cbv zeta. rewrite EZ. exists p. rewrite (@eaten_ext F' F K K) by (intros; apply LO'; lia). split; [unfold p; rewrite DK; auto|]. split; auto. split; [apply LK'|]. intros i I. rewrite (@taken_ext F' F K i K) by (intros; apply LO'; lia). rewrite <- LK by auto. unfold f_l. destruct LK' as [-> _]. unfold kcol. rewrite at_row_scale. unfold s. field. auto.
        * apply (@done_ext F); [intros k KK; symmetry; apply LO'; lia|symmetry; apply LO'; lia|lia|apply ID; lia].
      + intros j J. destruct (IR j) as [D L]; [lia|]. destruct (FS' j) as [A1 A2]. assert (E1 : f_L F1 j = f_L F j /\ f_dinv F1 j = f_dinv F j) by (unfold F1; cbn [f_L f_dinv]; unfold set_col, upd; destruct (Z.eqb_spec j K); [lia|auto]). destruct E1 as [E1 E2]. rewrite E1 in A1. rewrite E2 in A2.
        assert (UU : used K j = zmem j (pattern A K)) by (unfold used; rewrite EZ; auto).
        assert (TE : eaten F' (K + 1) j = eaten F K j + (if zmem j (pattern A K) then loss stale K kcol (pattern A j) j else 0)).
        { unfold eaten at 1. rewrite zseq_succ, lsum_app by lia. cbn [lsum]. fold (eaten F' K j). rewrite (@eaten_ext F' F K j) by (intros; apply LO'; lia). destruct LK' as [-> _]. rewrite UU. ring. }
        assert (TT : forall i, taken F' (K + 1) i j = taken F K i j + (if zmem j (pattern A K) then at_row kcol j * at_row kcol i else 0)).
        { intros i. unfold taken at 1. rewrite zseq_succ, lsum_app by lia. cbn [lsum]. fold (taken F' K i j). rewrite (@taken_ext F' F K i j) by (intros; apply LO'; lia). unfold f_l. destruct LK' as [-> _]. rewrite UU. ring. }
        rewrite A2, TE, D. split; [destruct (zmem _ _); ring|]. intros i I. rewrite TT. unfold f_l. rewrite A1. assert (L' := L i I). unfold f_l in L'. destruct (zmem j (pattern A K)); [rewrite at_row_subtract by (rewrite IP; auto)|]; rewrite L'; ring.
  Qed.
  Lemma factor_prefix K F : (0 <= K)%Z -> fold_left (factor_step stale (diagonal A)) (zseq K) (Some (mkFac (lower_column A) (diagonal A))) = Some F -> Inv K F.
  Proof.
    intros HK. revert K HK F. apply (zseq_ind (fun K => forall F, fold_left (factor_step stale (diagonal A)) (zseq K) (Some (mkFac (lower_column A) (diagonal A))) = Some F -> Inv K F)).
    - intros F E. apply Some_inj in E. subst F. apply inv_init.
    - intros K HK IH F. rewrite zseq_succ, fold_left_app by lia. cbn [fold_left]. destruct (fold_left _ (zseq K) _) as [F0|] eqn:E0; [|discriminate]. apply inv_step; auto.
  Qed.
End Factor.

Lemma factor_inv stale A F : factor stale A = Some F -> (forall j, rows_of (f_L F j) = pattern A j) /\ forall j, (0 <= j < mat_rows A)%Z -> done_col stale A F j.
Proof.
  intros E. assert (I : exists K, Inv stale A K F /\ (mat_rows A <= K)%Z).
  { destruct (Z.le_ge_cases 0 (mat_rows A)) as [H|H]; [exists (mat_rows A); split; [apply factor_prefix; auto|lia]|]. exists 0%Z. split; auto. apply factor_prefix; [lia|]. rewrite <- E. unfold factor, zseq. replace (Z.to_nat (mat_rows A)) with O by lia. auto. }
  destruct I as (K & (P & D & _) & HK). split; auto. intros; apply D; lia.
Qed.
Lemma factor_recurrence stale A F : factor stale A = Some F -> (forall j i, In i (map fst (f_L F j)) <-> (j < i < mat_rows A)%Z /\ (0 <= i)%Z /\ stored A i j = true) /\ forall j, (0 <= j < mat_rows A)%Z -> done_col stale A F j.
Proof.
  intros E. destruct (factor_inv _ _ E) as [P D]. split; auto. intros j i. fold (rows_of (f_L F j)). rewrite P. unfold pattern. rewrite filter_In, zseq_in, andb_true_iff, Z.ltb_lt. (lia || tauto).
Qed.
(** C143. The preconditioner's factors satisfy the recurrences [done_col]: entry (i, j) of L is what is left of A(i, j) after the products of the earlier columns stored in both rows, divided by the pivot;
    the pivot is what is left of A(j, j) after 0.97 times the products with no place in column j (the diagonal's own among them), or A(j, j) itself when less than a quarter is left; an empty diagonal skips the column.
    L is stored exactly where A is, strictly below the diagonal. *)
Theorem c143_recurrence stale A F : factor stale A = Some F -> (forall j i, In i (map fst (f_L F j)) <-> (j < i < mat_rows A)%Z /\ (0 <= i)%Z /\ exists v, In (i, j, v) (mat_entries A)) /\ forall j, (0 <= j < mat_rows A)%Z -> done_col stale A F j.
Proof.
  intros E. destruct (factor_recurrence _ _ E) as [P D]. split; auto. intros j i. rewrite P. assert (S : stored A i j = true <-> exists v, In (i, j, v) (mat_entries A)); [|rewrite S; reflexivity].
  unfold stored. rewrite existsb_exists. split.
  - intros ([[r c] v] & I & T). apply andb_true_iff in T as [T1 T2]. apply Z.eqb_eq in T1, T2. subst. eauto.
  - intros (v & I). exists (i, j, v). split; auto. rewrite !Z.eqb_refl. auto.
Qed.
Lemma inv_pos p : 0 < p -> 0 < 1 / p.
Proof.
  intros H. destruct (Qclt_le_dec 0 (1 / p)) as [X|X]; auto. exfalso. assert (E : 1 / p * p = 1) by (field; intros E; rewrite E in H; discriminate).
  assert (Y : 1 / p * p <= 0 * p) by (apply Qcmult_le_compat_r; [exact X|apply Qclt_le_weak; auto]). rewrite E, Qcmult_0_l in Y. apply Y. reflexivity.
Qed.
Lemma quarter_of q : 0 < q -> 0 < quarter * q /\ quarter * q <= q.
Proof.
  intros H. assert (P : 0 < quarter * q) by (replace 0 with (0 * q) by ring; apply Qcmult_lt_compat_r; [exact H|reflexivity]). split; auto.
  assert (E : q = quarter * q + quarter * q + quarter * q + quarter * q). { transitivity ((quarter + quarter + quarter + quarter) * q); [|ring]. replace (quarter + quarter + quarter + quarter) with 1 by (apply Qc_is_canon; reflexivity). ring. }
  rewrite E at 2. revert P. generalize (quarter * q). intros. qc_lra.
Qed.
(** C143. A positive diagonal entry gives a positive pivot, at least a quarter of it. *)
Theorem c143_pivots stale A F j : factor stale A = Some F -> (0 <= j < mat_rows A)%Z -> 0 < coeff (mat_entries A) j j -> 0 < f_dinv F j /\ f_dinv F j * (quarter * coeff (mat_entries A) j j) <= 1.
Proof.
  intros E J P. destruct (factor_recurrence _ _ E) as [_ D]. specialize (D j J). unfold done_col in D. cbv zeta in D. destruct (qeqb (coeff (mat_entries A) j j) 0) eqn:Z; [apply qeqb_eq in Z; rewrite Z in P; discriminate|]. destruct D as (p & EP & NP & -> & _).
  assert (Q : quarter * coeff (mat_entries A) j j <= p /\ 0 < p).
  { assert (Q0 : 0 < quarter * coeff (mat_entries A) j j /\ quarter * coeff (mat_entries A) j j <= coeff (mat_entries A) j j) by (apply quarter_of; auto).
    rewrite EP. destruct (qltb _ _) eqn:L; [tauto|]. apply qltb_ge in L. split; [exact L|]. eapply Qclt_le_trans; [apply Q0|exact L]. }
  destruct Q as [Q1 Q2]. split; [apply inv_pos; auto|]. assert (I := inv_pos Q2). replace 1 with (1 / p * p) at 2 by (field; auto). rewrite !(Qcmult_comm (1 / p)). apply Qcmult_le_compat_r; [exact Q1|apply Qclt_le_weak; auto].
Qed.
(** C143. With no negative diagonal entry the constructor divides by no zero. *)
Theorem c143_defined stale A : (forall j, (0 <= j < mat_rows A)%Z -> 0 <= coeff (mat_entries A) j j) -> exists F, factor stale A = Some F.
Proof.
  intros H. unfold factor. destruct (Z.le_ge_cases 0 (mat_rows A)) as [N|N]; [|exists (mkFac (lower_column A) (diagonal A)); unfold zseq; replace (Z.to_nat (mat_rows A)) with O by lia; reflexivity].
  assert (G : forall K, (0 <= K)%Z -> (K <= mat_rows A)%Z -> exists F, fold_left (factor_step stale (diagonal A)) (zseq K) (Some (mkFac (lower_column A) (diagonal A))) = Some F); [|apply G; lia].
  apply (zseq_ind (fun K => (K <= mat_rows A)%Z -> exists F, fold_left (factor_step stale (diagonal A)) (zseq K) (Some (mkFac (lower_column A) (diagonal A))) = Some F)); [intros; eexists; reflexivity|].
  intros K HK IH L. destruct IH as [F E]; [lia|]. rewrite zseq_succ, fold_left_app by lia. cbn [fold_left]. rewrite E. unfold factor_step, diagonal at 1. destruct (qeqb (coeff (mat_entries A) K K) 0) eqn:Z; [eauto|]. apply qeqb_neq in Z. assert (P := H K ltac:(lia)). apply Qcle_lt_or_eq in P as [P|P]; [|contradiction Z; auto].
  destruct (qeqb _ 0) eqn:Q; [|eauto]. exfalso. apply qeqb_eq in Q. unfold diagonal in Q. destruct (qltb _ _) eqn:X; [contradiction|]. apply qltb_ge in X. rewrite Q in X. destruct (quarter_of P) as [Y _]. qc_lra.
Qed.
(** C143. So on a matrix with a positive diagonal, applying the preconditioner is a symmetric positive definite map, whatever the entries off the diagonal and whatever is read past the end of a column. *)
Theorem c143_definite stale A F : (0 <= mat_rows A)%Z -> (forall j, (0 <= j < mat_rows A)%Z -> 0 < coeff (mat_entries A) j j) -> factor stale A = Some F ->
  symmetric (zseq (mat_rows A)) (precondition F (mat_rows A)) /\ definite (zseq (mat_rows A)) (precondition F (mat_rows A)).
Proof.
  intros N P E. unfold precondition. destruct (c141_preconditioner (Z.to_nat (mat_rows A)) (f_l F) (f_dinv F)) as [S D]. rewrite Z2Nat.id in S, D by auto. split; auto. apply D. intros i I. apply (c143_pivots _ _ E I). auto.
Qed.
(** C143. A row that is zero, diagonal included, keeps pivot 0 and leaves no trace in L. *)
Theorem c143_zero_row stale A F j : factor stale A = Some F -> (0 <= j < mat_rows A)%Z -> (forall i, (0 <= i < mat_rows A)%Z -> coeff (mat_entries A) j i = 0 /\ coeff (mat_entries A) i j = 0) ->
  f_dinv F j = 0 /\ (forall k, (0 <= k < j)%Z -> f_l F j k = 0) /\ forall i, f_l F i j = 0.
Proof.
  intros E J ZR. destruct (factor_recurrence _ _ E) as [PT D].
  assert (R : forall k, (0 <= k)%Z -> forall k', (0 <= k' < k)%Z -> (k' < j)%Z -> f_l F j k' = 0).
  { apply (zseq_ind (fun k => forall k', (0 <= k' < k)%Z -> (k' < j)%Z -> f_l F j k' = 0)); [intros; lia|]. intros k HK IH k' K' KJ. destruct (Z.eq_dec k' k) as [->|]; [|apply IH; lia].
    destruct (in_dec Z.eq_dec j (rows_of (f_L F k))) as [I|I]; [|apply at_row_notin; auto]. assert (DK := D k ltac:(lia)). assert (IP : In j (pattern A k)). { apply PT in I. unfold pattern. rewrite filter_In, zseq_in, andb_true_iff, Z.ltb_lt. (lia || tauto). }
    assert (T : taken A F k j k = 0). { apply lsum_0. intros t T. apply zseq_in in T. destruct (used A t k); auto. rewrite (IH t) by lia. ring. }
    unfold done_col in DK. cbv zeta in DK. destruct (ZR k ltac:(lia)) as [Z1 Z2]. destruct (qeqb _ 0).
    - destruct DK as [_ L]. rewrite (L j IP), T, Z1. ring.
    - destruct DK as (p & _ & NP & _ & L). rewrite (L j IP), T, Z1. field. auto. }
  assert (RJ : forall k, (0 <= k < j)%Z -> f_l F j k = 0) by (intros k K; apply (R j); lia).
  assert (DJ := D j J). unfold done_col in DJ. cbv zeta in DJ. destruct (ZR j J) as [Z1 _]. rewrite Z1 in DJ. change (qeqb 0 0) with true in DJ. cbv iota in DJ. destruct DJ as [DV L].
  split; [|split; auto].
  - rewrite DV. unfold eaten. rewrite lsum_0; [ring|]. intros k K. apply zseq_in in K. destruct (used A k j); auto. unfold loss. fold (f_l F j k). rewrite RJ by auto. destruct (_ && _); ring.
  - intros i. destruct (in_dec Z.eq_dec i (rows_of (f_L F j))) as [I|I]; [|apply at_row_notin; auto]. assert (IP : In i (pattern A j)). { apply PT in I. unfold pattern. rewrite filter_In, zseq_in, andb_true_iff, Z.ltb_lt. (lia || tauto). }
    rewrite L by auto. assert (RI := pattern_above _ _ _ IP). destruct (ZR i ltac:(lia)) as [_ ->]. unfold taken. rewrite lsum_0; [ring|]. intros k K. apply zseq_in in K. rewrite RJ by auto. destruct (used _ _ _); ring.
Qed.
(** C143. The solver as the example calls it: symmetric, positive semidefinite, positive diagonal, at most nine unknowns and a solvable system. *)
Theorem c143_solver stale A b y : (0 <= mat_rows A <= 9)%Z -> symmetric (zseq (mat_rows A)) (mulv (mat_entries A)) -> semidefinite (zseq (mat_rows A)) (mulv (mat_entries A)) ->
  (forall j, (0 <= j < mat_rows A)%Z -> 0 < coeff (mat_entries A) j j) -> (forall i, (0 <= i < mat_rows A)%Z -> mulv (mat_entries A) y i = b i) ->
  exists x, ldlt_pcg_solve stale A b = Some x /\ forall e, below (zseq (mat_rows A)) b e -> below (zseq (mat_rows A)) (fun i => b i - mulv (mat_entries A) x i) (e * Q2Qc (1 # 100000)).
Proof.
  intros N SY PSD PD SOL. destruct (@c143_defined stale A) as [F E]; [intros j J; apply Qclt_le_weak; auto|]. unfold ldlt_pcg_solve. rewrite E. destruct (@c143_definite stale A F (proj1 N) PD E) as [SP DP].
  apply (@c141_small _ _ _ _ SY SP PSD DP y); [intros i I; apply zseq_in in I; auto|]. unfold zseq. rewrite map_length, List.seq_length. lia.
Qed.
(** C143. Two unknowns with everything stored: where A = L D L^T would need the pivot c - b^2 / a, the code takes (0.97 or 1.97) (b / a)^2 from c. *)
Definition full2 (a b c : Qc) : matrix := mkMat 2 2 [(0, 0, a); (0, 1, b); (1, 0, b); (1, 1, c)]%Z.
Theorem c143_two stale a b c F : 0 < a -> 0 < c -> factor stale (full2 a b c) = Some F ->
  let e := c - (b / a) * (b / a) * (if stale 0%Z 1%Z then 1 + q97 else q97) in
  f_dinv F 0%Z = 1 / a /\ f_l F 1%Z 0%Z = b / a /\ f_dinv F 1%Z = (if qltb e (quarter * c) then 1 / c else 1 / e).
Proof.
  intros PA PC E e. destruct (factor_inv _ _ E) as [PT D].
  assert (C00 : coeff (mat_entries (full2 a b c)) 0 0 = a) by (unfold coeff; cbn; ring). assert (C10 : coeff (mat_entries (full2 a b c)) 1 0 = b) by (unfold coeff; cbn; ring). assert (C11 : coeff (mat_entries (full2 a b c)) 1 1 = c) by (unfold coeff; cbn; ring).
  assert (NA : qeqb a 0 = false) by (apply qeqb_neq; intros X; rewrite X in PA; discriminate). assert (NC : qeqb c 0 = false) by (apply qeqb_neq; intros X; rewrite X in PC; discriminate).
  assert (P0 : pattern (full2 a b c) 0 = [1%Z]) by reflexivity. assert (P1 : pattern (full2 a b c) 1 = []) by reflexivity.
  assert (D0 := D 0%Z ltac:(cbn; lia)). assert (D1 := D 1%Z ltac:(cbn; lia)). unfold done_col in D0, D1. cbv zeta in D0, D1. rewrite C00, NA in D0. rewrite C11, NC in D1. rewrite P0 in D0.
  destruct D0 as (p & EP & NP & V0 & L0). replace (eaten stale (full2 a b c) F 0 0) with 0 in EP by reflexivity. assert (HP : p = a). { rewrite EP. destruct (quarter_of PA) as [_ Q]. destruct (qltb (a - 0) (quarter * a)) eqn:X; [auto|ring]. } clear EP. rewrite HP in NP, V0, L0. clear HP.
  assert (L : f_l F 1 0 = b / a). { rewrite (L0 1%Z) by (cbn; auto). rewrite C10. replace (taken (full2 a b c) F 0 1 0) with 0 by reflexivity. field. auto. }
  split; [auto|]. split; [auto|]. destruct D1 as (q & EQ & NQ & -> & _).
  assert (EE : c - eaten stale (full2 a b c) F 1 1 = e).
  { unfold eaten. change (zseq 1) with [0%Z]. cbn [lsum]. unfold used. rewrite C00, NA, P0, P1. cbn [negb zmem existsb Z.eqb andb orb]. unfold loss, missing. cbn [nonempty negb andb]. rewrite PT, P0. cbn [lsum Z.ltb Z.compare zmem existsb negb]. change (at_row (f_L F 0) 1) with (f_l F 1 0). rewrite L. unfold e. change ((1 =? 1)%positive || false) with true. change (1 <? 1)%Z with false. cbv iota. destruct (stale 0%Z 1%Z); ring. }
  rewrite EE in EQ. rewrite EQ. destruct (qltb e (quarter * c)); auto.
Qed.
(** REFUTED (C143): so even with room for every entry the preconditioner is not the inverse: not for [4 2; 2 3], whatever is read past the end of a column *)
Theorem c143_exact_refuted : forall stale, exists F, factor stale (full2 (Z2Qc 4) (Z2Qc 2) (Z2Qc 3)) = Some F /\
  precondition F 2 (mulv (mat_entries (full2 (Z2Qc 4) (Z2Qc 2) (Z2Qc 3))) (fun i => if (i =? 1)%Z then 1 else 0)) 1%Z <> 1.
Proof.
  intros stale. destruct (@c143_defined stale (full2 (Z2Qc 4) (Z2Qc 2) (Z2Qc 3))) as [F E]; [intros j J; assert (j = 0 \/ j = 1)%Z as [ -> | -> ] by (cbn in J; lia); discriminate|]. exists F. split; auto.
  destruct (@c143_two stale (Z2Qc 4) (Z2Qc 2) (Z2Qc 3) F) as (_ & L & V); [reflexivity|reflexivity|auto|]. cbv zeta in V.
  set (x := mulv _ _). assert (X0 : x 0%Z = Z2Qc 2) by (apply Qc_is_canon; reflexivity). assert (X1 : x 1%Z = Z2Qc 3) by (apply Qc_is_canon; reflexivity). clearbody x.
  assert (P : precondition F 2 x 1%Z = f_dinv F 1%Z * (x 1%Z - f_l F 1%Z 0%Z * x 0%Z)).
  { unfold precondition, ldlt_apply. change (Z.to_nat 2) with 2%nat. cbn [backward forward]. unfold upd. cbn. change (seq 0 (Pos.to_nat 1)) with [0%nat]. cbn [map lsum]. change (Z.of_nat 0) with 0%Z. cbn [Z.eqb]. ring. }
  rewrite P, V, L, X0, X1. clear. destruct (stale 0%Z 1%Z); intros X; apply (f_equal this) in X; vm_compute in X; discriminate.
Qed.
Example c143_sample : exists F, factor (fun _ _ => false) (full2 (Z2Qc 4) (Z2Qc 2) (Z2Qc 3)) = Some F /\ this (f_l F 1%Z 0%Z) = (1 # 2)%Q /\ this (f_dinv F 0%Z) = (1 # 4)%Q /\ this (f_dinv F 1%Z) = (400 # 1103)%Q.
Proof.
  destruct (@c143_defined (fun _ _ => false) (full2 (Z2Qc 4) (Z2Qc 2) (Z2Qc 3))) as [F E]; [intros j J; assert (j = 0 \/ j = 1)%Z as [ -> | -> ] by (cbn in J; lia); discriminate|]. exists F. split; auto.
  destruct (@c143_two (fun _ _ => false) (Z2Qc 4) (Z2Qc 2) (Z2Qc 3) F) as (-> & -> & ->); [reflexivity|reflexivity|auto|]. repeat split; vm_compute; reflexivity.
Qed.
(** C143, C141. The pressure example as a whole, with the factors it computes: nonnegative Hodge weights, every cell with a face that is open and has a positive weight, and a solvable system. *)
Theorem c143_example stale m cubes0 h2 dir : PropsBoundary3.generated m cubes0 -> Z.of_nat (length h2) = face_size m -> (forall k, 0 <= nth k h2 0) ->
  forall B L D y, Boundary3.boundary3 m false = Some B -> example_laplacian m h2 = Some L -> example_divergence m dir = Some D ->
  (forall i, (0 <= i < cell_size m)%Z -> exists f, (0 <= f < face_size m)%Z /\ 0 < open_weight m h2 f /\ coeff B f i <> 0) ->
  (forall i, (0 <= i < cell_size m)%Z -> mulv (mat_entries L) y i = nth (Z.to_nat i) D 0) ->
  exists F p, factor stale L = Some F /\ example_pressure m h2 dir (f_l F) (f_dinv F) = Some p /\
    ((cell_size m <= 9)%Z -> below (zseq (cell_size m)) (fun i => nth (Z.to_nat i) D 0 - mulv (mat_entries L) p i) (Q2Qc (1 # 100000))).
Proof.
  intros OK LEN H B L D y HB HL HD OPEN S. destruct (@c139_matrix m cubes0 h2 OK LEN) as (B' & L' & HB' & HL' & R & C & EN & _). rewrite HB in HB'. rewrite HL in HL'. apply Some_inj in HB', HL'. subst B' L'.
  assert (PD : forall j, (0 <= j < mat_rows L)%Z -> 0 < coeff (mat_entries L) j j).
  { intros j J. rewrite R in J. rewrite EN by auto. destruct (OPEN j J) as (f & RF & W & NB). assert (T : forall g, 0 <= open_weight m h2 g * (coeff B g j * coeff B g j)). { intros g. assert (W' := weight_nonneg m h2 g H). assert (Q := square_nonneg (coeff B g j)). replace 0 with (0 * (coeff B g j * coeff B g j)) by ring. apply Qcmult_le_compat_r; auto. }
    assert (X := @lsum_nonneg _ (fun g => open_weight m h2 g * (coeff B g j * coeff B g j)) (zseq (face_size m)) ltac:(intros; apply T)). apply Qcle_lt_or_eq in X as [X|X]; auto. exfalso. symmetry in X. apply lsum_zero_all with (a := f) in X; [|intros; apply T|apply zseq_in; auto]. apply Qcmult_integral in X as [X|X]; [rewrite X in W; discriminate|]. apply Qcmult_integral in X as [X|X]; auto. }
  destruct (@c143_defined stale L) as [F E]; [intros j J; apply Qclt_le_weak; auto|]. exists F. assert (V : forall i, (0 <= i < cell_size m)%Z -> 0 < f_dinv F i) by (intros i I; rewrite <- R in I; apply (c143_pivots _ _ E I); auto).
  destruct (@c141_example m cubes0 h2 dir (f_l F) (f_dinv F) OK LEN H V L D y HL HD S) as (p & P & A). exists p. auto.
Qed.
Example c143_nonvacuous : option_map (fun L => option_map (fun F => this (f_dinv F 0%Z)) (factor (fun _ _ => false) L)) (example_laplacian pair3 (ones pair3)) = Some (Some (1 # 1)%Q) /\
  option_map (fun L => match factor (fun _ _ => false) L with Some F => option_map (fun p => this (p 0%Z - p 1%Z)) (example_pressure pair3 (ones pair3) (1, 0, 0) (f_l F) (f_dinv F)) | None => None end) (example_laplacian pair3 (ones pair3)) = Some (Some (this 1)).
Proof. split; vm_compute; reflexivity. Qed.
