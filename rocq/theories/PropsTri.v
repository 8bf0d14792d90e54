(** C78: the boundary loop of a triangle; C79: barycentric coordinates; C80: the segments cut out by grid planes; C81: condensation. *)
From Verif Require Import Base Num CoordMask CoordMaskSpec Vertex VertexSpec VertexTypes VertexProofs EdgeBake EdgeBakeProofs PropsEdgeBake TriBake.
From Coq Require Import Sorting.Sorted Permutation.
Set Implicit Arguments.
Local Open Scope Qc_scope.

(** ** specification *)
Definition joins (e : tedge) (i j : nat) : Prop := (te_a e = i /\ te_b e = j) \/ (te_a e = j /\ te_b e = i).
(** the crossings of edge e from its end i to the other end *)
Definition along (e : tedge) (i : nat) : list crossing := map CE (if (te_a e =? i)%nat then te_isects e else rev (te_isects e)).
(** a triangle with its three edges, in any order and orientation, each baked against the grid *)
Record baked (D : nat) (grid : option (list Z)) (T : tri) (e01 e12 e20 : tedge) : Prop := {
  bk_v : length (t_v T) = 3%nat;
  bk_in : forall i, (i < 3)%nat -> input_vertex D (tv T i);
  bk_perm : Permutation (t_edges T) [e01; e12; e20];
  bk_01 : joins e01 0 1; bk_12 : joins e12 1 2; bk_20 : joins e20 2 0;
  bk_isects : forall e, In e (t_edges T) -> exists idx, te_isects e = bake_edge grid (tv T (te_a e)) (tv T (te_b e)) idx }.

Section Tri.
Variables (D : nat) (grid : option (list Z)) (T : tri) (e01 e12 e20 : tedge).
Hypothesis (B : baked D grid T e01 e12 e20).

Lemma edge_ends e : In e (t_edges T) -> (te_a e < 3 /\ te_b e < 3 /\ te_a e <> te_b e)%nat.
Proof.
  intros H. apply (Permutation_in _ (bk_perm B)) in H.
  destruct H as [<-|[<-|[<-|[]]]]; [destruct (bk_01 B)|destruct (bk_12 B)|destruct (bk_20 B)]; lia.
Qed.
Lemma gv_edge e : In e (t_edges T) -> te_gv T e = CV (tv T (te_a e)) :: map CE (te_isects e) ++ [CV (tv T (te_b e))].
Proof.
  intros H. destruct (bk_isects B e H) as [idx E]. unfold te_gv. rewrite E. destruct (edge_ends e H) as (Ha & Hb & _).
  apply (c75_gvertices grid idx (bk_in B Ha) (bk_in B Hb)).
Qed.
Lemma find_unique A (f : A -> bool) l x : In x l -> f x = true -> (forall y, In y l -> f y = true -> y = x) -> find f l = Some x.
Proof.
  induction l as [|y l IH]; intros [] F U; simpl.
  - subst. rewrite F. auto.
  - destruct (f y) eqn:E; [f_equal; apply U; simpl; auto|]. apply IH; auto. intros; apply U; simpl; auto.
Qed.
Lemma slots : te_slot e12 = 0%nat /\ te_slot e01 = 1%nat /\ te_slot e20 = 2%nat.
Proof.
  unfold te_slot, te_reverse.
  destruct (bk_01 B) as [[-> ->]|[-> ->]], (bk_12 B) as [[-> ->]|[-> ->]], (bk_20 B) as [[-> ->]|[-> ->]]; repeat split.
Qed.
Lemma slot_edges : slot_edge T 0 = Some e12 /\ slot_edge T 1 = Some e01 /\ slot_edge T 2 = Some e20.
Proof.
  destruct slots as (S0 & S1 & S2).
  assert (I : forall x, In x (rev (t_edges T)) <-> x = e01 \/ x = e12 \/ x = e20).
  { intros x. rewrite <- in_rev. split; intros H.
    - apply (Permutation_in _ (bk_perm B)) in H. simpl in H. intuition.
    - apply (Permutation_in _ (Permutation_sym (bk_perm B))). simpl. intuition. }
  unfold slot_edge. repeat split; apply find_unique.
  all: try (apply I; auto; fail).
  all: try (apply Nat.eqb_eq; auto; fail).
  all: intros y Hy E; apply Nat.eqb_eq in E; apply I in Hy as [->|[->| ->]]; congruence.
Qed.
Lemma in_edges : In e01 (t_edges T) /\ In e12 (t_edges T) /\ In e20 (t_edges T).
Proof. repeat split; apply (Permutation_in _ (Permutation_sym (bk_perm B))); simpl; auto. Qed.
Lemma part_spec e (i j : nat) : In e (t_edges T) -> joins e i j -> i <> j -> te_reverse e = (te_b e =? i)%nat ->
  (if te_reverse e then tl (rev (te_gv T e)) else tl (te_gv T e)) = along e i ++ [CV (tv T j)].
Proof.
  intros H J N R. rewrite R, (gv_edge e H). unfold along. destruct J as [[-> ->]|[-> ->]].
  - rewrite Nat.eqb_refl. destruct (Nat.eqb_spec j i); [congruence|]. reflexivity.
  - rewrite Nat.eqb_refl. destruct (Nat.eqb_spec j i); [congruence|]. cbn [rev]. rewrite rev_app_distr. cbn [rev app tl]. rewrite map_rev. reflexivity.
Qed.
(** C78: the loop runs around the triangle in the order 2, 1, 0, through all the crossings of each side *)
Lemma loop_spec : boundary_loop T =
  Some ((along e12 2 ++ [CV (tv T 1)]) ++ (along e01 1 ++ [CV (tv T 0)]) ++ (along e20 0 ++ [CV (tv T 2)])).
Proof.
  destruct slot_edges as (S0 & S1 & S2). destruct in_edges as (I1 & I2 & I3). unfold boundary_loop, slot_part. rewrite S0, S1, S2.
  rewrite (@part_spec e12 2 1), (@part_spec e01 1 0), (@part_spec e20 0 2).
  1: reflexivity.
  all: first [assumption|lia|unfold te_reverse|idtac].
  all: destruct (bk_20 B) as [[E1 E2]|[E1 E2]], (bk_01 B) as [[E3 E4]|[E3 E4]], (bk_12 B) as [[E5 E6]|[E5 E6]]; unfold joins;
    rewrite ?E1, ?E2, ?E3, ?E4, ?E5, ?E6; auto.
Qed.
End Tri.

Theorem c78_loop D grid T e01 e12 e20 : baked D grid T e01 e12 e20 ->
  boundary_loop T = Some ((along e12 2 ++ [CV (tv T 1)]) ++ (along e01 1 ++ [CV (tv T 0)]) ++ (along e20 0 ++ [CV (tv T 2)])).
Proof. intros B. exact (loop_spec B). Qed.
(** consecutive entries of the closed loop are consecutive points of one of the triangle's edges *)
Definition cyclic (A : Type) (l : list A) : list (A * A) := match l with [] => [] | x :: _ => consecutive (l ++ [x]) end.
Lemma consecutive_app A (l : list A) x r : consecutive (l ++ x :: r) = consecutive (l ++ [x]) ++ consecutive (x :: r).
Proof. induction l as [|y [|z l] IH]; [destruct r; reflexivity|destruct r; reflexivity|]. cbn [app consecutive] in *. rewrite IH. reflexivity. Qed.
Lemma consecutive_rev A (l : list A) x y : In (x, y) (consecutive (rev l)) <-> In (y, x) (consecutive l).
Proof.
  rewrite !consecutive_split. split; intros (l1 & l2 & E).
  - exists (rev l2), (rev l1). rewrite <- (rev_involutive l), E. rewrite rev_app_distr. cbn [rev]. rewrite <- !app_assoc. reflexivity.
  - exists (rev l2), (rev l1). rewrite E. rewrite rev_app_distr. cbn [rev]. rewrite <- !app_assoc. reflexivity.
Qed.
(** the whole side from vertex i to vertex j *)
Definition side (T : tri) (e : tedge) (i j : nat) : list crossing := CV (tv T i) :: along e i ++ [CV (tv T j)].
Lemma side_gv D grid T e01 e12 e20 e i j x y : baked D grid T e01 e12 e20 -> In e (t_edges T) -> joins e i j -> i <> j ->
  (In (x, y) (consecutive (side T e i j)) <-> if (te_a e =? i)%nat then In (x, y) (consecutive (te_gv T e)) else In (y, x) (consecutive (te_gv T e))).
Proof.
  intros B H J N. rewrite (gv_edge B e H). unfold side, along. destruct J as [[-> ->]|[-> ->]].
  - rewrite Nat.eqb_refl. tauto.
  - destruct (Nat.eqb_spec j i); [congruence|]. rewrite <- (consecutive_rev _ x y). cbn [rev]. rewrite rev_app_distr. cbn [rev app]. rewrite map_rev. tauto.
Qed.
Lemma cyclic_app3 A (s1 s2 s3 : list A) x1 x2 x3 p : In p (cyclic ((s1 ++ [x1]) ++ (s2 ++ [x2]) ++ (s3 ++ [x3]))) <->
  In p (consecutive (x3 :: s1 ++ [x1])) \/ In p (consecutive (x1 :: s2 ++ [x2])) \/ In p (consecutive (x2 :: s3 ++ [x3])).
Proof.
  assert (E : forall f, (exists r, (s1 ++ [x1]) = f :: r) -> cyclic ((s1 ++ [x1]) ++ (s2 ++ [x2]) ++ (s3 ++ [x3])) =
     consecutive (s1 ++ [x1]) ++ consecutive (x1 :: s2 ++ [x2]) ++ consecutive (x2 :: s3 ++ [x3]) ++ [(x3, f)]).
  { intros f [r Er]. unfold cyclic. rewrite Er at 1. cbn [app]. rewrite Er at 1. cbn [app].
    change (f :: (r ++ (s2 ++ [x2]) ++ s3 ++ [x3]) ++ [f]) with (((f :: r) ++ (s2 ++ [x2]) ++ s3 ++ [x3]) ++ [f]). rewrite <- Er.
    rewrite <- !app_assoc. cbn [app]. rewrite consecutive_app. f_equal.
    change (x1 :: s2 ++ x2 :: s3 ++ x3 :: [f]) with ((x1 :: s2) ++ x2 :: s3 ++ x3 :: [f]). rewrite consecutive_app. f_equal.
    change (x2 :: s3 ++ x3 :: [f]) with ((x2 :: s3) ++ x3 :: [f]). rewrite consecutive_app. reflexivity. }
  destruct s1 as [|f s1].
  - rewrite (E x1) by (exists []; auto). cbn [app consecutive]. rewrite !in_app_iff. cbn [In]. tauto.
  - rewrite (E f) by (eexists; reflexivity). rewrite !in_app_iff. cbn [app consecutive In]. tauto.
Qed.
Theorem c78_steps D grid T e01 e12 e20 loop x y : baked D grid T e01 e12 e20 -> boundary_loop T = Some loop ->
  (In (x, y) (cyclic loop) <->
   exists e i j, In e (t_edges T) /\ joins e i j /\ (j + 1 = i \/ (i = 0 /\ j = 2))%nat /\ In (x, y) (consecutive (side T e i j))).
Proof.
  intros B E. rewrite (loop_spec B) in E. apply Some_inj in E. subst loop.
  destruct (in_edges B) as (I1 & I2 & I3). rewrite cyclic_app3. fold (side T e12 2 1) (side T e01 1 0) (side T e20 0 2). split.
  - intros [H|[H|H]].
    + exists e12, 2%nat, 1%nat. split; auto. split; [destruct (bk_12 B); [right|left]; auto|]. split; [lia|auto].
    + exists e01, 1%nat, 0%nat. split; auto. split; [destruct (bk_01 B); [right|left]; auto|]. split; [lia|auto].
    + exists e20, 0%nat, 2%nat. split; auto. split; [destruct (bk_20 B); [right|left]; auto|]. split; [lia|auto].
  - intros (e & i & j & He & J & Hij & H). assert (He' := Permutation_in _ (bk_perm B) He).
    assert (X : forall i' j', joins e i' j' -> (j' + 1 = i' \/ (i' = 0 /\ j' = 2))%nat -> i = i' /\ j = j').
    { intros i' j' J' H'. destruct J as [[<- <-]|[<- <-]], J' as [[<- <-]|[<- <-]]; lia. }
    destruct He' as [<-|[<-|[<-|[]]]].
    + destruct (X 1%nat 0%nat) as [-> ->]; [destruct (bk_01 B); [right|left]; auto|lia|]. auto.
    + destruct (X 2%nat 1%nat) as [-> ->]; [destruct (bk_12 B); [right|left]; auto|lia|]. auto.
    + destruct (X 0%nat 2%nat) as [-> ->]; [destruct (bk_20 B); [right|left]; auto|lia|]. auto.
Qed.
(** the edge used to recognise the outer face is a step of the loop *)
Theorem c78_boundary_edge D grid T e01 e12 e20 loop p : baked D grid T e01 e12 e20 -> boundary_loop T = Some loop ->
  boundary_edge T = Some p -> In p (cyclic loop).
Proof.
  intros B E H. unfold boundary_edge in H. destruct (t_edges T) as [|e es] eqn:EE; [discriminate|].
  assert (He : In e (t_edges T)) by (rewrite EE; left; auto).
  destruct (te_gv T e) as [|x [|y g]] eqn:EG; try discriminate. apply Some_inj in H. subst p.
  assert (X : exists i j, joins e i j /\ (j + 1 = i \/ (i = 0 /\ j = 2))%nat /\ te_reverse e = negb (te_a e =? i)%nat).
  { assert (He' := Permutation_in _ (bk_perm B) He). unfold te_reverse. destruct He' as [<-|[<-|[<-|[]]]].
    - exists 1%nat, 0%nat. destruct (bk_01 B) as [[E1 E2]|[E1 E2]]; rewrite E1, E2; unfold joins; rewrite E1, E2; repeat split; auto.
    - exists 2%nat, 1%nat. destruct (bk_12 B) as [[E1 E2]|[E1 E2]]; rewrite E1, E2; unfold joins; rewrite E1, E2; repeat split; auto.
    - exists 0%nat, 2%nat. destruct (bk_20 B) as [[E1 E2]|[E1 E2]]; rewrite E1, E2; unfold joins; rewrite E1, E2; repeat split; auto. }
  destruct X as (i & j & J & Hij & R).
  assert (G : forall x y, In (x, y) (consecutive (side T e i j)) -> In (x, y) (cyclic loop)).
  { intros x' y' H. apply (c78_steps x' y' B E). exists e, i, j. auto. }
  assert (N : i <> j) by lia. rewrite R.
  destruct (te_a e =? i)%nat eqn:Ea; cbn [negb]; apply G; apply (side_gv _ _ B He J N); rewrite Ea, EG; left; auto.
Qed.

(** ** C79 *)
Definition valid_bary (v : list Qc) : Prop := length v = 3%nat /\ (forall i, (i < 3)%nat -> 0 <= qat v i) /\ qat v 0 + qat v 1 + qat v 2 = 1.
(** the point of the triangle with these coordinates *)
Definition bary_point (T : tri) (v : list Qc) (d : nat) : Qc :=
  qat v 0 * qat (pos (tv T 0)) d + qat v 1 * qat (pos (tv T 1)) d + qat v 2 * qat (pos (tv T 2)) d.
Lemma valid3 x y z : valid_bary [x; y; z] <-> 0 <= x /\ 0 <= y /\ 0 <= z /\ x + y + z = 1.
Proof.
  unfold valid_bary. split.
  - intros (_ & H & E). cbn in E. assert (H0 := H 0%nat ltac:(lia)). assert (H1 := H 1%nat ltac:(lia)). assert (H2 := H 2%nat ltac:(lia)). auto.
  - intros (H0 & H1 & H2 & E). split; auto. split; auto. intros [|[|[|i]]] Hi; auto. lia.
Qed.
Lemma unit_valid i : (i < 3)%nat -> valid_bary (unit_bary i).
Proof. intros H. destruct i as [|[|[|i]]]; [| | |lia]; apply valid3; repeat split; try discriminate; apply Qc_is_canon; reflexivity. Qed.
Lemma edge_bary_valid i j t : (i < 3)%nat -> (j < 3)%nat -> i <> j -> 0 <= t -> t <= 1 -> valid_bary (edge_bary i j t).
Proof.
  intros Hi Hj N H0 H1. destruct i as [|[|[|i]]]; try lia; destruct j as [|[|[|j]]]; try lia; try congruence; apply valid3;
    repeat split; try discriminate; try qc_lra; ring.
Qed.
Lemma edge_bary_point T i j t d : (i < 3)%nat -> (j < 3)%nat -> i <> j -> bary_point T (edge_bary i j t) d = on_segment (tv T i) (tv T j) t d.
Proof.
  intros Hi Hj N. unfold bary_point, on_segment. destruct i as [|[|[|i]]]; try lia; destruct j as [|[|[|j]]]; try lia; try congruence; cbn; ring.
Qed.
Lemma lerp_valid t x y : valid_bary x -> valid_bary y -> 0 <= t -> t <= 1 -> valid_bary (bary_lerp t x y).
Proof.
  intros Hx Hy H0 H1. destruct x as [|x0 [|x1 [|x2 [|]]]], Hx as (Lx & Hx); try discriminate Lx. destruct y as [|y0 [|y1 [|y2 [|]]]], Hy as (Ly & Hy); try discriminate Ly.
  assert (X := proj1 (valid3 x0 x1 x2) (conj Lx Hx)). assert (Y := proj1 (valid3 y0 y1 y2) (conj Ly Hy)). cbn. apply valid3. clear Lx Hx Ly Hy.
  destruct X as (X0 & X1 & X2 & EX), Y as (Y0 & Y1 & Y2 & EY). unfold Qcle in *.
  split; [q_push; nra|]. split; [q_push; nra|]. split; [q_push; nra|].
  replace ((1 - t) * x0 + t * y0 + ((1 - t) * x1 + t * y1) + ((1 - t) * x2 + t * y2)) with ((1 - t) * (x0 + x1 + x2) + t * (y0 + y1 + y2)) by ring.
  rewrite EX, EY. ring.
Qed.
Lemma lerp_point T t x y d : length x = 3%nat -> length y = 3%nat ->
  bary_point T (bary_lerp t x y) d = (1 - t) * bary_point T x d + t * bary_point T y d.
Proof.
  intros Lx Ly. destruct x as [|x0 [|x1 [|x2 [|]]]]; try discriminate Lx. destruct y as [|y0 [|y1 [|y2 [|]]]]; try discriminate Ly.
  unfold bary_point. cbn. ring.
Qed.
(** the clamping repairs any triple that sums to one, and leaves a valid one alone *)
Lemma div_nonneg x d : 0 <= x -> 0 < d -> 0 <= x / d.
Proof. intros Hx Hd. apply (Qcle_div x 0 Hd). replace (0 * d) with (0 : Qc) by ring. exact Hx. Qed.
Lemma div_sum x y d : 0 < d -> x + y = d -> x / d + y / d = 1.
Proof. intros Hd E. subst d. field. intros F. rewrite F in Hd. discriminate. Qed.
Lemma qabs_lt x h : qabs x < h <-> - h < x /\ x < h.
Proof.
  unfold qabs. destruct (qltb x 0) eqn:E.
  - apply qltb_lt in E. split; [intros; split; qc_lra|intros [? ?]; qc_lra].
  - assert (0 <= x) by (apply Qcnot_lt_le; intros F; apply qltb_lt in F; congruence). split; [intros; split; qc_lra|intros [? ?]; qc_lra].
Qed.
Theorem c79_clamp_valid x y z : x + y + z = 1 -> valid_bary (clamp_bary [x; y; z]).
Proof.
  intros E.
  assert (STEP2 : forall x y z, 0 <= x -> 0 <= y -> x <= 1 -> y <= 1 -> x + y + z = 1 -> valid_bary (clamp_loop [2%nat] [x; y; z])).
  { clear. intros x y z H0 H1 H2 H3 E. cbn [clamp_loop]. unfold clamp_step at 1. cbn [Nat.add Nat.modulo Nat.divmod fst snd Nat.sub]. unfold qat; cbn [nth put].
    destruct (qltb z 0) eqn:Ez.
    - apply qltb_lt in Ez. assert (D : 0 < x + y) by qc_lra. apply valid3. repeat split; try apply div_nonneg; auto; try discriminate.
      replace (x / (x + y) + y / (x + y) + 0) with (x / (x + y) + y / (x + y)) by ring. apply div_sum; auto.
    - apply not_true_iff_false in Ez. destruct (qltb 1 z) eqn:Ez'; [apply qltb_lt in Ez'; qc_lra|]. apply valid3.
      repeat split; auto. apply Qcnot_lt_le. intros F. apply Ez. apply qltb_lt. auto. }
  assert (STEP1 : forall x y z, 0 <= x -> x <= 1 -> x + y + z = 1 -> valid_bary (clamp_loop [1; 2]%nat [x; y; z])).
  { clear - STEP2. intros x y z H0 H1 E. cbn [clamp_loop]. unfold clamp_step at 1. cbn [Nat.add Nat.modulo Nat.divmod fst snd Nat.sub]. unfold qat; cbn [nth put].
    destruct (qltb y 0) eqn:Ey.
    - apply qltb_lt in Ey. assert (D : 0 < z + x) by qc_lra. assert (Z : 0 <= z) by qc_lra. apply STEP2.
      + apply div_nonneg; auto.
      + discriminate.
      + apply Qcdiv_le; auto. replace (1 * (z + x)) with (z + x) by ring. qc_lra.
      + discriminate.
      + replace (x / (z + x) + 0 + z / (z + x)) with (z / (z + x) + x / (z + x)) by ring. apply div_sum; auto.
    - apply not_true_iff_false in Ey. destruct (qltb 1 y) eqn:Ey'; [apply (@unit_valid 1%nat); lia|].
      apply not_true_iff_false in Ey'. apply STEP2; auto; apply Qcnot_lt_le; intros F; [apply Ey|apply Ey']; apply qltb_lt; auto. }
  unfold clamp_bary. cbn [clamp_loop]. unfold clamp_step at 1. cbn [Nat.add Nat.modulo Nat.divmod fst snd Nat.sub]. unfold qat; cbn [nth put].
  destruct (qltb x 0) eqn:Ex.
  - apply qltb_lt in Ex. assert (D : 0 < y + z) by qc_lra. apply STEP1; [discriminate|discriminate|].
    replace (0 + y / (y + z) + z / (y + z)) with (y / (y + z) + z / (y + z)) by ring. apply div_sum; auto.
  - apply not_true_iff_false in Ex. destruct (qltb 1 x) eqn:Ex'; [apply (@unit_valid 0%nat); lia|].
    apply not_true_iff_false in Ex'. apply STEP1; auto; apply Qcnot_lt_le; intros F; [apply Ex|apply Ex']; apply qltb_lt; auto.
Qed.
Theorem c79_clamp_id v : valid_bary v -> clamp_bary v = v.
Proof.
  intros H. destruct v as [|x [|y [|z [|]]]], H as (L & H); try discriminate L. assert (X := proj1 (valid3 x y z) (conj L H)). clear L H.
  destruct X as (X & Y & Z & E).
  assert (N : forall q, 0 <= q -> qltb q 0 = false) by (intros q Hq; apply not_true_iff_false; intros F; apply qltb_lt in F; qc_lra).
  assert (M : forall q, q <= 1 -> qltb 1 q = false) by (intros q Hq; apply not_true_iff_false; intros F; apply qltb_lt in F; qc_lra).
  unfold clamp_bary. cbn [clamp_loop]. unfold clamp_step. cbn [Nat.add Nat.modulo Nat.divmod fst snd Nat.sub]. unfold qat; cbn [nth put].
  do 3 (rewrite N, M by (auto; qc_lra); cbn [nth put]). reflexivity.
Qed.
(** every boundary point: valid coordinates, and the point they name is (up to snapping) the point *)
Definition is_point (T : tri) (p : tpoint) : Prop := In p (boundary_points T).
Lemma point_cases D grid T e01 e12 e20 p : baked D grid T e01 e12 e20 -> is_point T p ->
  (exists i, p = TV i /\ (i < 3)%nat) \/ (exists s ed e, p = TE s e /\ nth_error (t_edges T) s = Some ed /\ In e (te_isects ed)).
Proof.
  intros B H. unfold is_point, boundary_points in H. apply in_app_or in H as [H|H].
  - right. apply in_flat_map in H as ([s ed] & H1 & H2). apply in_map_iff in H2 as (e & <- & He). exists s, ed, e. split; auto. split; auto.
    clear - H1. revert H1. generalize (t_edges T). intros l. assert (G : forall k, In (s, ed) (combine (seq k (length l)) l) -> (k <= s)%nat /\ nth_error l (s - k) = Some ed).
    { induction l as [|x l IH]; intros k [].
      - apply pair_equal_spec in H as [<- <-]. split; auto. rewrite Nat.sub_diag. auto.
      - destruct (IH (S k) H) as [L E]. split; [lia|]. replace (s - k)%nat with (S (s - S k)) by lia. auto. }
    intros H. destruct (G 0%nat H) as [_ E]. rewrite Nat.sub_0_r in E. auto.
  - left. apply in_map_iff in H as (i & <- & Hi). apply in_seq in Hi. rewrite (bk_v B) in Hi. exists i. split; auto. lia.
Qed.
Theorem c79_boundary D grid T e01 e12 e20 p : baked D grid T e01 e12 e20 -> is_point T p ->
  valid_bary (tp_bary T p) /\ input_vertex D (tp_vertex T p) /\
  forall d, (d < D)%nat -> qabs (qat (pos (tp_vertex T p)) d - bary_point T (tp_bary T p) d) < bake_threshold grid + bake_threshold grid.
Proof.
  intros B H. destruct (point_cases _ B H) as [(i & -> & Hi)|(s & ed & e & -> & Hs & He)]; cbn [tp_bary tp_vertex].
  - split; [apply unit_valid; auto|]. split; [apply (bk_in B Hi)|]. intros d Hd.
    replace (bary_point T (unit_bary i) d) with (qat (pos (tv T i)) d).
    + replace (qat (pos (tv T i)) d - qat (pos (tv T i)) d) with 0 by ring. assert (X := bake_threshold_pos grid). change (qabs 0) with 0. qc_lra.
    + unfold bary_point. destruct i as [|[|[|i]]]; try lia; cbn; ring.
  - rewrite Hs. assert (Hed := nth_error_In _ _ Hs). destruct (edge_ends B ed Hed) as (Ha & Hb & N).
    destruct (bk_isects B ed Hed) as [idx E]. rewrite E in He.
    destruct (@c74_points _ _ _ _ _ _ (bk_in B Ha) (bk_in B Hb) He) as (T0 & T1 & _ & W & Nm & _ & P & _).
    split; [apply edge_bary_valid; auto; apply Qclt_le_weak; auto|]. split; [split; auto|]. intros d Hd.
    rewrite edge_bary_point by auto. apply P; auto.
Qed.
(** and every crossing inside the triangle *)
Theorem c79_interior D grid T e01 e12 e20 p q e : baked D grid T e01 e12 e20 -> is_point T p -> is_point T q -> In e (segment_isects grid T p q) ->
  valid_bary (isect_bary T p q e) /\
  forall d, (d < D)%nat -> qabs (qat (pos (ei_v e)) d - bary_point T (isect_bary T p q e) d) <
    bake_threshold grid + bake_threshold grid + (bake_threshold grid + bake_threshold grid).
Proof.
  intros B Hp Hq He. destruct (c79_boundary _ B Hp) as (V1 & I1 & P1). destruct (c79_boundary _ B Hq) as (V2 & I2 & P2).
  destruct (@c74_points _ _ _ _ _ _ I1 I2 He) as (T0 & T1 & _ & _ & _ & _ & P & _).
  assert (V : valid_bary (bary_lerp (ei_coord e) (tp_bary T p) (tp_bary T q))) by (apply lerp_valid; auto; apply Qclt_le_weak; auto).
  unfold isect_bary. rewrite (c79_clamp_id V). split; auto. intros d Hd.
  rewrite lerp_point by (try apply V1; apply V2). assert (X := P d Hd). assert (X1 := P1 d Hd). assert (X2 := P2 d Hd). unfold on_segment in X.
  set (x := qat (pos (ei_v e)) d) in *. set (u := qat (pos (tp_vertex T p)) d) in *. set (v := qat (pos (tp_vertex T q)) d) in *.
  set (u' := bary_point T (tp_bary T p) d) in *. set (v' := bary_point T (tp_bary T q) d) in *. set (t := ei_coord e) in *. set (h := bake_threshold grid + bake_threshold grid) in *.
  clearbody x u v u' v' t h. clear - X X1 X2 T0 T1. apply qabs_lt in X, X1, X2. apply qabs_lt. destruct X, X1, X2. unfold Qclt in *. split; q_push; nra.
Qed.

(** ** C80 *)
(** an input vertex whose flags say exactly which of its coordinates are integers *)
Definition flagged (D : nat) (T : tri) : Prop := forall i, (i < 3)%nat -> flags_exact (tv T i).
(** the crossings of an edge stay clear of the snapping distance *)
Definition edge_clear (D : nat) (grid : option (list Z)) (a b : vertex) : Prop :=
  forall d k i, (d < D)%nat -> (i < D)%nat -> crosses a b d k -> clear_of (bake_threshold grid) (on_segment a b (cross_param a b d k) i).
Definition inbin (d : nat) (k : Z) (v : vertex) : bool := nth d (v_clamped v) false && (zat (v_coord v) d =? k)%Z.
Lemma inbin_spec D v d k : v_wf D v -> normalised v -> flags_exact v -> (d < D)%nat -> (inbin d k v = true <-> qat (pos v) d = Z2Qc k).
Proof.
  intros W N F Hd. destruct (pos_nth_wf _ _ _ W Hd) as (c & q & b & Hc & Hq & Hb & Hp). unfold inbin, zat, qat.
  rewrite (nth_error_nth _ _ _ Hc), (nth_error_nth _ _ _ Hb), (nth_error_nth _ _ _ Hp).
  assert (FB : b = true <-> q = 0).
  { unfold flags_exact in F. revert Hb Hq. revert F. generalize (v_clamped v), (v_quot v). clear. intros l l' F. revert d. induction F; intros [|d] Hb Hq; try discriminate.
    - apply Some_inj in Hb, Hq. subst. auto.
    - eauto. }
  rewrite andb_true_iff, Z.eqb_eq, FB. split.
  - intros [-> ->]. ring.
  - intros E. destruct (normalised_integral _ _ _ _ _ N Hc Hq E) as [E1 E2]. auto.
Qed.
Lemma filter_one A (f : A -> bool) l x : NoDup l -> In x l -> f x = true -> (forall y, In y l -> f y = true -> y = x) -> length (filter f l) = 1%nat.
Proof.
  induction 1 as [|y l NI N IH]; [intros []|]. intros [<-|H] F U; simpl.
  - rewrite F. simpl. f_equal. destruct (filter f l) as [|z r] eqn:E; auto. exfalso. apply NI.
    assert (Z : In z (filter f l)) by (rewrite E; left; auto). apply filter_In in Z as [Z1 Z2]. rewrite <- (U z); simpl; auto.
  - destruct (f y) eqn:E; [exfalso; apply NI; rewrite (U y); simpl; auto|]. apply IH; auto. intros; apply U; simpl; auto.
Qed.
Lemma edge_bin D grid a b idx d k : input_vertex D a -> input_vertex D b -> edge_clear D grid a b -> (d < D)%nat ->
  let n := length (filter (fun e => inbin d k (ei_v e)) (bake_edge grid a b idx)) in
  (crosses a b d k -> n = 1%nat) /\ (~ crosses a b d k -> ~ (qat (pos a) d = Z2Qc k /\ qat (pos b) d = Z2Qc k) -> n = 0%nat).
Proof.
  intros Ia Ib HC Hd n. destruct (@c74_exact D grid a b idx Ia Ib HC) as [EX EP].
  assert (BI : forall e, In e (bake_edge grid a b idx) -> (inbin d k (ei_v e) = true <-> on_segment a b (ei_coord e) d = Z2Qc k)).
  { intros e He. destruct (@c74_points _ _ _ _ _ _ Ia Ib He) as (_ & _ & _ & W & N & F & _). rewrite (@inbin_spec D) by auto. rewrite (EP e d He Hd). tauto. }
  split.
  - intros Cr. destruct (@c74_complete D grid a b idx d k Ia Ib Hd Cr) as (e & He & _ & Pe).
    assert (Ee : on_segment a b (ei_coord e) d = Z2Qc k) by (rewrite <- (EP e d He Hd); auto).
    destruct (c74_sorted grid idx Ia Ib) as (_ & ND & _). apply NoDup_map_inv in ND.
    apply filter_one with e; auto; [apply BI; auto|]. intros f Hf Ff. apply BI in Ff; auto.
    destruct (c74_sorted grid idx Ia Ib) as (SS & _). apply (@sorted_coord_inj _ f e SS); auto.
    assert (Nw := between_neq Cr). unfold on_segment in *.
    assert (X : ei_coord f * (qat (pos b) d - qat (pos a) d) = ei_coord e * (qat (pos b) d - qat (pos a) d)) by (rewrite <- Ee in Ff; qc_lra).
    replace (ei_coord f) with (ei_coord f * (qat (pos b) d - qat (pos a) d) / (qat (pos b) d - qat (pos a) d)) by (field; auto). rewrite X. field; auto.
  - intros NC NB. unfold n. destruct (filter _ _) as [|e r] eqn:E; auto. exfalso.
    assert (He : In e (filter (fun e => inbin d k (ei_v e)) (bake_edge grid a b idx))) by (rewrite E; left; auto).
    apply filter_In in He as [He Fe]. apply BI in Fe; auto. destruct (@c74_points _ _ _ _ _ _ Ia Ib He) as (T0 & T1 & _).
    unfold on_segment, crosses in *. set (x := qat (pos a) d) in *. set (y := qat (pos b) d) in *. set (t := ei_coord e) in *. set (z := Z2Qc k) in *. clearbody x y t z.
    destruct (Qclt_le_dec x y) as [L|L]; [|destruct (Qcle_lt_or_eq _ _ L) as [L'|L']].
    + apply NC. left. subst z. unfold Qclt in *. split; q_push; nra.
    + apply NC. right. subst z. unfold Qclt in *. split; q_push; nra.
    + apply NB. subst y. replace (x + t * (x - x)) with x in Fe by ring. auto.
Qed.

Lemma filter_map_length A B (g : A -> B) (f : B -> bool) l : length (filter f (map g l)) = length (filter (fun x => f (g x)) l).
Proof. induction l as [|x l IH]; auto. cbn [map filter]. destruct (f (g x)); simpl; auto. Qed.
Lemma bin_length T d k : length (bin T d k) =
  (list_sum (map (fun ed => length (filter (fun e => inbin d k (ei_v e)) (te_isects ed))) (t_edges T)) +
   length (filter (fun i => inbin d k (tv T i)) (seq 0 (length (t_v T)))))%nat.
Proof.
  unfold bin, boundary_points. rewrite filter_app, app_length. f_equal.
  - generalize 0%nat at 1. induction (t_edges T) as [|ed l IH]; intros s; auto. cbn [length seq combine flat_map]. rewrite filter_app, app_length, IH.
    cbn [map list_sum fold_right]. f_equal. rewrite filter_map_length. reflexivity.
  - rewrite filter_map_length. reflexivity.
Qed.
Lemma bin_verts T d k : length (filter is_tv (bin T d k)) = length (filter (fun i => inbin d k (tv T i)) (seq 0 (length (t_v T)))).
Proof.
  unfold bin, boundary_points. rewrite !filter_app, app_length.
  match goal with |- (?x + ?y)%nat = _ => assert (X : x = 0%nat); [|rewrite X; cbn [Nat.add]] end.
  - generalize 0%nat at 1. induction (t_edges T) as [|ed l IH]; intros s; auto. cbn [length seq combine flat_map]. rewrite !filter_app, app_length, IH, Nat.add_0_r.
    clear. induction (te_isects ed) as [|e r IHr]; auto. cbn [map filter]. destruct (_ && _); simpl; auto.
  - induction (seq 0 (length (t_v T))) as [|i l IH]; auto. cbn [map filter tp_vertex]. fold (inbin d k (tv T i)).
    destruct (inbin d k (tv T i)); cbn [filter is_tv length]; auto.
Qed.
Lemma segment_iff T d k : (exists p q, segment T d k = Some (p, q)) <-> length (bin T d k) = 2%nat /\ length (filter is_tv (bin T d k)) <> 2%nat.
Proof.
  unfold segment. destruct (Nat.eqb_spec (length (filter is_tv (bin T d k))) 2) as [E|E].
  - split; [intros (p & q & F); discriminate|intros [_ F]; congruence].
  - destruct (bin T d k) as [|p [|q [|r l]]]; try (split; [intros (p' & q' & F); discriminate|intros [F _]; discriminate F]).
    split; auto. intros _. exists p, q. destruct p, q; cbn in *; auto. congruence.
Qed.
(** a plane gives a segment exactly if it passes strictly between two of the vertices *)
Theorem c80_segments D grid T e01 e12 e20 d k : baked D grid T e01 e12 e20 -> flagged D T ->
  (forall e, In e (t_edges T) -> edge_clear D grid (tv T (te_a e)) (tv T (te_b e))) -> (d < D)%nat ->
  ((exists p q, segment T d k = Some (p, q)) <->
   exists i j, (i < 3)%nat /\ (j < 3)%nat /\ qat (pos (tv T i)) d < Z2Qc k /\ Z2Qc k < qat (pos (tv T j)) d).
Proof.
  intros B F HC Hd. rewrite segment_iff, bin_verts, bin_length.
  set (cnt := fun ed => length (filter (fun e => inbin d k (ei_v e)) (te_isects ed))).
  assert (PS : list_sum (map cnt (t_edges T)) = (cnt e01 + cnt e12 + cnt e20)%nat).
  { assert (P := Permutation_map cnt (bk_perm B)).
    assert (G : forall l l' : list nat, Permutation l l' -> list_sum l = list_sum l') by (clear; induction 1; cbn; unfold list_sum in *; cbn in *; lia).
    rewrite (G _ _ P). cbn. lia. }
  rewrite PS, (bk_v B). clear PS.
  assert (CE : forall e i j, In e (t_edges T) -> joins e i j ->
     (crosses (tv T i) (tv T j) d k -> cnt e = 1%nat) /\
     (~ crosses (tv T i) (tv T j) d k -> ~ (qat (pos (tv T i)) d = Z2Qc k /\ qat (pos (tv T j)) d = Z2Qc k) -> cnt e = 0%nat)).
  { intros e i j He J. destruct (bk_isects B e He) as [idx E]. destruct (edge_ends B e He) as (Ha & Hb & _).
    destruct (@edge_bin D grid _ _ idx d k (bk_in B Ha) (bk_in B Hb) (HC e He) Hd) as [X1 X2]. unfold cnt. rewrite E.
    destruct J as [[<- <-]|[<- <-]]; [split; auto|]. unfold crosses, strictly_between in *. split; intros; [apply X1|apply X2]; tauto. }
  destruct (in_edges B) as (I1 & I2 & I3).
  destruct (CE e01 0%nat 1%nat I1 (bk_01 B)) as [A1 A2]. destruct (CE e12 1%nat 2%nat I2 (bk_12 B)) as [B1 B2]. destruct (CE e20 2%nat 0%nat I3 (bk_20 B)) as [C1 C2].
  assert (VB : forall i, (i < 3)%nat -> inbin d k (tv T i) = qeqb (qat (pos (tv T i)) d) (Z2Qc k)).
  { intros i Hi. destruct (bk_in B Hi) as [W N]. assert (X := inbin_spec k W N (F i Hi) Hd).
    destruct (qeqb _ _) eqn:Q; [apply X; apply qeqb_eq; auto|]. apply not_true_iff_false. intros Y. apply X in Y. apply qeqb_eq in Y. congruence. }
  cbn [seq filter]. rewrite !VB by lia. clear VB CE. unfold crosses, strictly_between in *.
  assert (EI : (exists i j, (i < 3)%nat /\ (j < 3)%nat /\ qat (pos (tv T i)) d < Z2Qc k /\ Z2Qc k < qat (pos (tv T j)) d) <->
    (qat (pos (tv T 0)) d < Z2Qc k \/ qat (pos (tv T 1)) d < Z2Qc k \/ qat (pos (tv T 2)) d < Z2Qc k) /\
    (Z2Qc k < qat (pos (tv T 0)) d \/ Z2Qc k < qat (pos (tv T 1)) d \/ Z2Qc k < qat (pos (tv T 2)) d)).
  { split.
    - intros (i & j & Hi & Hj & H1 & H2). split; [destruct i as [|[|[|i]]]|destruct j as [|[|[|j]]]]; auto; lia.
    - intros [H1 H2]. assert (G1 : exists i, (i < 3)%nat /\ qat (pos (tv T i)) d < Z2Qc k) by (destruct H1 as [H|[H|H]]; eexists; (split; [|exact H]); lia).
      assert (G2 : exists j, (j < 3)%nat /\ Z2Qc k < qat (pos (tv T j)) d) by (destruct H2 as [H|[H|H]]; eexists; (split; [|exact H]); lia).
      destruct G1 as (i & ? & ?), G2 as (j & ? & ?). exists i, j. auto. }
  rewrite EI. clear EI.
  generalize dependent (cnt e01). generalize dependent (cnt e12). generalize dependent (cnt e20). clear.
  set (x := qat (pos (tv T 0)) d). set (y := qat (pos (tv T 1)) d). set (z := qat (pos (tv T 2)) d). set (w := Z2Qc k). clearbody x y z w. clear.
  intros n20 C1 C2 n12 B1 B2 n01 A1 A2.
  assert (TRI : forall u, (u < w /\ qeqb u w = false /\ ~ w < u /\ u <> w) \/ (u = w /\ qeqb u w = true /\ ~ u < w /\ ~ w < u) \/ (w < u /\ qeqb u w = false /\ ~ u < w /\ u <> w)).
  { intros u. destruct (qeqb u w) eqn:Q.
    - right. left. apply qeqb_eq in Q. subst. repeat split; auto; intros F; qc_lra.
    - assert (N : u <> w) by (intros ->; rewrite (proj2 (qeqb_eq _ _) eq_refl) in Q; discriminate).
      destruct (Qclt_le_dec u w) as [L|L]; [left|right; right]; repeat split; auto.
      + intros G. qc_lra.
      + destruct (Qcle_lt_or_eq _ _ L); auto. congruence.
      + intros G. qc_lra. }
  destruct (TRI x) as [(X1 & X2 & X3 & X4)|[(X1 & X2 & X3 & X4)|(X1 & X2 & X3 & X4)]];
  destruct (TRI y) as [(Y1 & Y2 & Y3 & Y4)|[(Y1 & Y2 & Y3 & Y4)|(Y1 & Y2 & Y3 & Y4)]];
  destruct (TRI z) as [(Z1 & Z2 & Z3 & Z4)|[(Z1 & Z2 & Z3 & Z4)|(Z1 & Z2 & Z3 & Z4)]]; rewrite X2, Y2, Z2; cbn [length];
  clear TRI X2 Y2 Z2;
  try (assert (NA : n01 = 0%nat) by (apply A2; tauto)); try (assert (NA : n01 = 1%nat) by (apply A1; tauto));
  try (assert (NB : n12 = 0%nat) by (apply B2; tauto)); try (assert (NB : n12 = 1%nat) by (apply B1; tauto));
  try (assert (NC : n20 = 0%nat) by (apply C2; tauto)); try (assert (NC : n20 = 1%nat) by (apply C1; tauto));
  clear A1 A2 B1 B2 C1 C2; (split; [intros [G1 G2]|intros [G1 G2]]); try tauto; try lia; (split; lia).
Qed.
(** whatever the snapping, the ends of a segment are two boundary points exactly on the plane, and so is every crossing of the segment *)
Theorem c80_on_plane D grid T e01 e12 e20 d k p q : baked D grid T e01 e12 e20 -> flagged D T -> (d < D)%nat -> segment T d k = Some (p, q) ->
  is_point T p /\ is_point T q /\ qat (pos (tp_vertex T p)) d = Z2Qc k /\ qat (pos (tp_vertex T q)) d = Z2Qc k /\
  forall e, In e (segment_isects grid T p q) -> qat (pos (ei_v e)) d = Z2Qc k.
Proof.
  intros B F Hd H. unfold segment in H. destruct (_ =? 2)%nat; [discriminate|].
  destruct (bin T d k) as [|p' [|q' [|r l]]] eqn:E; try discriminate.
  assert (P : p' = p /\ q' = q) by (destruct (negb (is_tv p') || negb (is_tv q')); [apply Some_inj in H; apply pair_equal_spec in H; auto|discriminate]).
  destruct P as [-> ->]. clear H.
  assert (HB : forall r, In r [p; q] -> is_point T r /\ input_vertex D (tp_vertex T r) /\ qat (pos (tp_vertex T r)) d = Z2Qc k).
  { intros r Hr. rewrite <- E in Hr. apply filter_In in Hr as [H1 H2]. split; auto. destruct (c79_boundary _ B H1) as (_ & I & _). split; auto.
    destruct I as [W N]. apply (@inbin_spec D _ d k W N); auto.
    destruct (point_cases _ B H1) as [(i & -> & Hi)|(s & ed & e & -> & Hs & He)]; [apply F; auto|]. cbn [tp_vertex].
    assert (Hed := nth_error_In _ _ Hs). destruct (edge_ends B ed Hed) as (Ha & Hb & _). destruct (bk_isects B ed Hed) as [idx Ee]. rewrite Ee in He.
    destruct (@c74_points _ _ _ _ _ _ (bk_in B Ha) (bk_in B Hb) He) as (_ & _ & _ & _ & _ & FE & _). exact FE. }
  destruct (HB p (or_introl eq_refl)) as (P1 & P2 & P3). destruct (HB q (or_intror (or_introl eq_refl))) as (Q1 & Q2 & Q3).
  repeat split; auto. intros e He. exact (@c74_keeps_planes D grid _ _ _ e d k P2 Q2 He Hd P3 Q3).
Qed.
(** and each piece of it lies in one closed cell *)
Theorem c80_one_cell D grid T e01 e12 e20 d k p q x y : baked D grid T e01 e12 e20 -> flagged D T -> (d < D)%nat -> segment T d k = Some (p, q) ->
  In (x, y) (consecutive (gvertices (tp_vertex T p) (tp_vertex T q) (segment_isects grid T p q))) ->
  exists cell : nat -> Z, forall i, (i < D)%nat ->
    Z2Qc (cell i) <= qat (pos (cr_vertex x)) i /\ qat (pos (cr_vertex x)) i <= Z2Qc (cell i) + 1 /\
    Z2Qc (cell i) <= qat (pos (cr_vertex y)) i /\ qat (pos (cr_vertex y)) i <= Z2Qc (cell i) + 1.
Proof.
  intros B F Hd H Hxy. destruct (@c80_on_plane _ _ _ _ _ _ _ _ _ _ B F Hd H) as (P1 & Q1 & _). destruct (c79_boundary _ B P1) as (_ & I1 & _). destruct (c79_boundary _ B Q1) as (_ & I2 & _).
  exact (@c75_one_cell D grid _ _ _ x y I1 I2 Hxy).
Qed.
(** With snapping it fails.  The side from (1/2, 1 - 3.2e-9, 3/10) to (9/2, 1 + 4.8e-9, 3/10) crosses y = 1 at x = 2.1; its crossings with
    x = 2 and x = 3 are within the snapping distance (1.2e-9) of y = 1 and are moved onto it, so that three and more boundary points lie on
    y = 1 and no segment is made, although the plane y = 1 cuts the triangle. *)
Definition sv0 : vertex := vertex_cq [0;0;0]%Z [Q2Qc (1#2); Q2Qc (9999999968 # 10000000000); Q2Qc (3#10)].
Definition sv1 : vertex := vertex_cq [4;1;0]%Z [Q2Qc (1#2); Q2Qc (48 # 10000000000); Q2Qc (3#10)].
Definition sv2 : vertex := vertex_cq [0;3;0]%Z [Q2Qc (3#4); Q2Qc (2#5); Q2Qc (3#5)].
Definition sgrid : option (list Z) := Some [6;6;6]%Z.
Definition mk_tri (grid : option (list Z)) (a b c : vertex) (i : Z) : tri :=
  mkTri [a; b; c] [mkTE 0 1 (bake_edge grid a b 0); mkTE 2 1 (bake_edge grid c b 1); mkTE 2 0 (bake_edge grid c a 2)] i.
Lemma mk_tri_baked D grid a b c i : input_vertex D a -> input_vertex D b -> input_vertex D c ->
  baked D grid (mk_tri grid a b c i) (mkTE 0 1 (bake_edge grid a b 0)) (mkTE 2 1 (bake_edge grid c b 1)) (mkTE 2 0 (bake_edge grid c a 2)).
Proof.
  intros Ia Ib Ic. constructor; try reflexivity.
  - intros [|[|[|j]]] H; auto; lia.
  - left. auto.
  - right. auto.
  - left. auto.
  - intros e [<-|[<-|[<-|[]]]]; eexists; reflexivity.
Qed.
Theorem c80_snapped_refuted : exists D grid T e01 e12 e20 d k i j, baked D grid T e01 e12 e20 /\ flagged D T /\ (d < D)%nat /\
  (i < 3)%nat /\ (j < 3)%nat /\ qat (pos (tv T i)) d < Z2Qc k /\ Z2Qc k < qat (pos (tv T j)) d /\ segment T d k = None.
Proof.
  exists 3%nat, sgrid, (mk_tri sgrid sv0 sv1 sv2 0). eexists _, _, _. exists 1%nat, 1%Z, 0%nat, 2%nat.
  split; [apply mk_tri_baked; repeat split; repeat constructor; discriminate|].
  split; [intros [|[|[|i]]] H; try lia; repeat constructor; intros F; try discriminate; apply (f_equal this) in F; discriminate|].
  split; [lia|]. split; [lia|]. split; [lia|]. split; [vm_compute; reflexivity|]. split; [vm_compute; reflexivity|]. vm_compute. reflexivity.
Qed.

(** a triangle (1/2,1/2,3/10), (5/2,1/2,3/10), (1/2,5/2,3/5): cut by x = 1, x = 2, y = 1, y = 2 *)
Definition xv0 : vertex := vertex_cq [0;0;0]%Z [Q2Qc (1#2); Q2Qc (1#2); Q2Qc (3#10)].
Definition xv1 : vertex := vertex_cq [2;0;0]%Z [Q2Qc (1#2); Q2Qc (1#2); Q2Qc (3#10)].
Definition xv2 : vertex := vertex_cq [0;2;0]%Z [Q2Qc (1#2); Q2Qc (1#2); Q2Qc (3#5)].
Definition xT : tri := mk_tri sgrid xv0 xv1 xv2 0.
Example c78_ex : exists e01 e12 e20, baked 3 sgrid xT e01 e12 e20.
Proof. eexists _, _, _. apply mk_tri_baked; repeat split; repeat constructor; discriminate. Qed.
Example c78_ex_loop : match boundary_loop xT with Some l => map (fun c => map this (pos (cr_vertex c))) l | None => [] end =
  [[1#1; 2#1; 21#40]; [2#1; 1#1; 3#8]; [5#2; 1#2; 3#10]; [2#1; 1#2; 3#10]; [1#1; 1#2; 3#10]; [1#2; 1#2; 3#10];
   [1#2; 1#1; 3#8]; [1#2; 2#1; 21#40]; [1#2; 5#2; 3#5]]%Q.
Proof. vm_compute. reflexivity. Qed.
Example c80_ex : map (fun dk => match segment xT (fst dk) (snd dk) with Some _ => true | None => false end) [(0%nat, 0%Z); (0%nat, 1%Z); (0%nat, 2%Z); (0%nat, 3%Z); (1%nat, 1%Z); (1%nat, 2%Z); (2%nat, 0%Z)] =
  [false; true; true; false; true; true; false].
Proof. vm_compute. reflexivity. Qed.
Example c80_ex_flagged : flagged 3 xT.
Proof. intros [|[|[|i]]] H; try lia; repeat constructor; intros F; try discriminate; apply (f_equal this) in F; discriminate. Qed.
Example c79_ex : match segment xT 0 1 with Some (p, q) => map (fun e => map this (isect_bary xT p q e)) (segment_isects sgrid xT p q) | None => [] end = [[1#2; 1#4; 1#4]]%Q.
Proof. vm_compute. reflexivity. Qed.

(** ** C81: the condensation groups the crossings inside a triangle *)
Lemma find_some_split (V : Type) k (v : V) (m : list (mask * V)) : map_find mask_cmp k m = Some v ->
  exists m1 m2, m = m1 ++ (k, v) :: m2 /\ (forall w, map_set mask_cmp k w m = m1 ++ (k, w) :: m2) /\ map_erase mask_cmp k m = m1 ++ m2.
Proof.
  induction m as [|[k' v'] m IH]; simpl; [discriminate|]. destruct (mask_cmp k k') eqn:E; try discriminate.
  - intros H. apply Some_inj in H. subst. apply (tc_eq mask_cmp_total) in E. subst. exists [], m. auto.
  - intros H. destruct (IH H) as (m1 & m2 & -> & S & R). exists ((k', v') :: m1), m2. split; auto. split; [intros w; rewrite S; auto|]. rewrite R. auto.
Qed.
Lemma find_none_split (V : Type) k (m : list (mask * V)) : map_find mask_cmp k m = None ->
  exists m1 m2, m = m1 ++ m2 /\ forall w, map_set mask_cmp k w m = m1 ++ (k, w) :: m2.
Proof.
  induction m as [|[k' v'] m IH]; simpl; [exists [], []; auto|]. destruct (mask_cmp k k') eqn:E; try discriminate.
  - intros _. exists [], ((k', v') :: m). auto.
  - intros H. destruct (IH H) as (m1 & m2 & -> & S). exists ((k', v') :: m1), m2. split; auto. intros w. rewrite S. auto.
Qed.
Section Cond.
Variables (A : Type) (mk : A -> mask) (D : nat).
Definition ent_ok (e : mask * list A) : Prop := length (fst e) = D /\ (forall x d k, In x (snd e) -> binds (mk x) d k -> binds (fst e) d k) /\
  exists x, In x (snd e) /\ mk x = fst e.
Definition cmap_ok (m : cmap A) : Prop := Forall ent_ok m.
Definition contents (m : cmap A) : list A := concat (map snd m).
Lemma contents_app m m' : contents (m ++ m') = contents m ++ contents m'.
Proof. unfold contents. rewrite map_app, concat_app. auto. Qed.
Lemma cmap_add_ok x m : length (mk x) = D -> cmap_ok m -> cmap_ok (cmap_add mk x m) /\ Permutation (contents (cmap_add mk x m)) (x :: contents m).
Proof.
  intros L H. unfold cmap_add, cmap_ok in *. destruct (map_find mask_cmp (mk x) m) as [l|] eqn:E.
  - destruct (find_some_split _ _ E) as (m1 & m2 & -> & S & _). rewrite S. apply Forall_app in H as [H1 H2]. inversion H2 as [|? ? (O1 & O2 & y & Y1 & Y2) H3]; subst.
    cbn [fst snd] in *. split.
    + apply Forall_app. split; auto. constructor; auto. split; auto. cbn [fst snd]. split.
      * intros z d k Hz B. apply in_app_or in Hz as [Hz|[<-|[]]]; eauto.
      * exists y. split; auto. apply in_or_app. auto.
    + rewrite !contents_app. unfold contents. cbn [map concat snd]. rewrite <- app_assoc. cbn [app].
      etransitivity; [|apply Permutation_sym, Permutation_middle]. apply Permutation_app_head. apply Permutation_sym, Permutation_middle.
  - destruct (find_none_split _ _ E) as (m1 & m2 & -> & S). rewrite S. apply Forall_app in H as [H1 H2]. cbn [app]. split.
    + apply Forall_app. split; auto. constructor; auto. split; auto. cbn [fst snd]. split.
      * intros z d k [<-|[]] B. auto.
      * exists x. split; [left|]; auto.
    + rewrite !contents_app. unfold contents. cbn [map concat snd app]. apply Permutation_sym, Permutation_middle.
Qed.
Definition all_contents (ls : list (cmap A)) : list A := concat (map contents ls).
Lemma put_contents (ls : list (cmap A)) j m x : (j < length ls)%nat -> Permutation (contents m) (x :: contents (nth j ls [])) ->
  Permutation (all_contents (put ls j m)) (x :: all_contents ls).
Proof.
  revert j. induction ls as [|l ls IH]; intros j Hj P; [simpl in Hj; lia|]. destruct j as [|j]; unfold all_contents in *; cbn [put map concat nth] in *.
  - change (x :: contents l ++ concat (map contents ls)) with ((x :: contents l) ++ concat (map contents ls)). apply Permutation_app_tail. auto.
  - etransitivity; [|apply Permutation_sym, Permutation_middle]. apply Permutation_app_head. apply IH; auto. simpl in Hj. lia.
Qed.
Lemma put_Forall (P : cmap A -> Prop) ls j m : Forall P ls -> P m -> Forall P (put ls j m).
Proof. intros H Pm. revert j. induction H; intros [|j]; simpl; constructor; auto. Qed.
Lemma levels_spec V : (forall x, In x V -> length (mk x) = D) -> Forall cmap_ok (cond_levels mk D V) /\ Permutation (all_contents (cond_levels mk D V)) V.
Proof.
  intros HV. unfold cond_levels.
  assert (G : forall V (ls : list (cmap A)), (forall x, In x V -> length (mk x) = D) -> length ls = (D + 1)%nat -> Forall cmap_ok ls ->
    let r := fold_left (fun ls x => put ls (mask_count (mk x)) (cmap_add mk x (nth (mask_count (mk x)) ls []))) V ls in
    Forall cmap_ok r /\ Permutation (all_contents r) (V ++ all_contents ls)).
  { clear. induction V as [|x V IH]; intros ls HV L H; cbn [fold_left app]; [split; auto|].
    assert (Lx := HV x (or_introl eq_refl)). assert (Hj : (mask_count (mk x) < length ls)%nat) by (assert (Q := mask_count_le (mk x)); lia).
    assert (On : cmap_ok (nth (mask_count (mk x)) ls [])) by (rewrite Forall_forall in H; apply H; apply nth_In; auto).
    destruct (cmap_add_ok x Lx On) as [O1 O2].
    destruct (IH (put ls (mask_count (mk x)) (cmap_add mk x (nth (mask_count (mk x)) ls [])))) as [R1 R2].
    - intros; apply HV; right; auto.
    - rewrite put_length. auto.
    - apply put_Forall; auto.
    - split; auto. etransitivity; [exact R2|]. etransitivity; [apply Permutation_app_head; apply (@put_contents ls _ _ x Hj O2)|].
      apply Permutation_sym, Permutation_middle. }
  destruct (G V (repeat [] (D + 1)) HV (repeat_length _ _)) as [R1 R2].
  - apply Forall_forall. intros m Hm. apply repeat_spec in Hm. subst. constructor.
  - split; auto. etransitivity; [exact R2|].
    replace (all_contents (repeat [] (D + 1))) with (@nil A); [rewrite app_nil_r; auto|]. unfold all_contents. clear. generalize (D + 1)%nat. intros n. induction n as [|n IHn]; [reflexivity|exact IHn].
Qed.
Lemma put_binds c k d z : binds (put c k None) d z -> binds c d z.
Proof. unfold binds. rewrite nth_error_put. destruct (Nat.eqb d k); [destruct (nth_error c d); discriminate|auto]. Qed.
Lemma cond_axis_ok c st k : cmap_ok (fst st) -> ent_ok (c, snd st) -> let r := cond_axis c st k in
  cmap_ok (fst r) /\ ent_ok (c, snd r) /\ Permutation (contents (fst r) ++ snd r) (contents (fst st) ++ snd st).
Proof.
  intros H O. unfold cond_axis. destruct (nth_error c k) as [[z|]|] eqn:E; cbn [fst snd]; auto.
  destruct (map_find mask_cmp (put c k None) (fst st)) as [o|] eqn:F; cbn [fst snd]; auto.
  destruct (find_some_split _ _ F) as (m1 & m2 & E1 & _ & R). unfold cmap_ok in *. rewrite R. rewrite E1 in H. apply Forall_app in H as [H1 H2]. inversion H2 as [|? ? O' H3]; subst.
  split; [apply Forall_app; auto|]. split.
  - destruct O as (O1 & O2 & x & X1 & X2). cbn [fst snd] in *. split; auto. cbn [fst snd]. split.
    + intros y d w Hy By. apply in_app_or in Hy as [Hy|Hy]; eauto. destruct O' as (_ & O2' & _). cbn [fst snd] in O2'. eapply put_binds. eapply O2'; eauto.
    + exists x. split; auto. apply in_or_app. auto.
  - rewrite E1, !contents_app. unfold contents. cbn [map concat snd]. rewrite <- !app_assoc. apply Permutation_app_head.
    etransitivity; [apply Permutation_app_comm|]. rewrite <- app_assoc. etransitivity; [apply Permutation_app_comm|]. rewrite <- app_assoc. reflexivity.
Qed.
Lemma cond_entry_ok Vi c vs : cmap_ok Vi -> ent_ok (c, vs) -> let r := cond_entry Vi c vs in
  cmap_ok (fst r) /\ ent_ok (c, snd r) /\ Permutation (contents (fst r) ++ snd r) (contents Vi ++ vs).
Proof.
  intros H O. unfold cond_entry. assert (G : forall ks (st : cmap A * list A), cmap_ok (fst st) -> ent_ok (c, snd st) -> let r := fold_left (cond_axis c) ks st in
    cmap_ok (fst r) /\ ent_ok (c, snd r) /\ Permutation (contents (fst r) ++ snd r) (contents (fst st) ++ snd st)).
  { induction ks as [|k ks IH]; intros st H1 H2; cbn [fold_left]; auto. destruct (cond_axis_ok _ k H1 H2) as (Q1 & Q2 & Q3).
    destruct (IH _ Q1 Q2) as (R1 & R2 & R3). split; auto. split; auto. etransitivity; eauto. }
  apply (G (seq 0 (length c)) (Vi, vs)); auto.
Qed.
Lemma cond2_ok Vi Vip : cmap_ok Vi -> cmap_ok Vip -> let r := cond2 Vi Vip in
  cmap_ok (fst r) /\ cmap_ok (snd r) /\ Permutation (contents (fst r) ++ contents (snd r)) (contents Vi ++ contents Vip).
Proof.
  intros H1 H2. unfold cond2. assert (G : forall (es : cmap A) (st : cmap A * cmap A), Forall ent_ok es -> cmap_ok (fst st) -> cmap_ok (snd st) ->
     let r := fold_left (fun '(Vi, out) '(c, vs) => let '(Vi', vs') := cond_entry Vi c vs in (Vi', out ++ [(c, vs')])) es st in
     cmap_ok (fst r) /\ cmap_ok (snd r) /\ Permutation (contents (fst r) ++ contents (snd r)) (contents (fst st) ++ contents (snd st) ++ contents es)).
  { induction es as [|[c vs] es IH]; intros [V o] F O1 O2; cbn [fold_left].
    - cbn [fst snd] in *. split; auto. split; auto. unfold contents at 5. cbn [map concat]. rewrite app_nil_r. auto.
    - inversion F as [|? ? F1 F2]; subst. cbn [fst snd] in O1, O2. destruct (cond_entry_ok O1 F1) as (Q1 & Q2 & Q3). destruct (cond_entry V c vs) as [V' vs'] eqn:CE. cbn [fst snd] in *.
      destruct (IH (V', o ++ [(c, vs')]) F2 Q1) as (R1 & R2 & R3); [apply Forall_app; split; auto|]. cbn [fst snd] in *. split; auto. split; auto.
      etransitivity; [exact R3|]. rewrite contents_app. replace (contents [(c, vs')]) with vs' by (unfold contents; cbn; rewrite app_nil_r; auto).
      replace (contents ((c, vs) :: es)) with (vs ++ contents es) by reflexivity. rewrite <- app_assoc.
      transitivity ((contents V' ++ vs') ++ contents o ++ contents es).
      + rewrite <- app_assoc. apply Permutation_app_head. rewrite !app_assoc. apply Permutation_app_tail. apply Permutation_app_comm.
      + etransitivity; [apply Permutation_app_tail; exact Q3|]. rewrite <- app_assoc. apply Permutation_app_head. rewrite !app_assoc. apply Permutation_app_tail. apply Permutation_app_comm. }
  destruct (G Vip (Vi, []) H2 H1) as (R1 & R2 & R3); [constructor|]. cbn [fst snd] in *. auto.
Qed.
Lemma cond_from_ok rest : forall V0, cmap_ok V0 -> Forall cmap_ok rest -> Forall cmap_ok (cond_from V0 rest) /\
  Permutation (all_contents (cond_from V0 rest)) (contents V0 ++ all_contents rest).
Proof.
  induction rest as [|V1 rest IH]; intros V0 H0 HR; cbn [cond_from]; [split; auto; unfold all_contents; cbn; auto|].
  inversion HR as [|? ? H1 H2]; subst. destruct (cond2_ok H0 H1) as (R1 & R2 & R3). destruct (cond2 V0 V1) as [V0' V1']. cbn [fst snd] in *.
  destruct (IH V1' R2 H2) as [S1 S2]. split; [constructor; auto|]. unfold all_contents in *. cbn [map concat].
  etransitivity; [apply Permutation_app_head; exact S2|]. rewrite !app_assoc. apply Permutation_app_tail. auto.
Qed.
Lemma condense_spec V : (forall x, In x V -> length (mk x) = D) -> cmap_ok (condense mk D V) /\ Permutation (contents (condense mk D V)) V.
Proof.
  intros H. destruct (levels_spec V H) as [L1 L2]. unfold condense. destruct (cond_levels mk D V) as [|L t]; [split; [constructor|exact L2]|].
  inversion L1 as [|? ? L3 L4]; subst. destruct (cond_from_ok L3 L4) as [R1 R2].
  assert (G : forall ls : list (cmap A), Forall cmap_ok ls -> cmap_ok (concat ls) /\ contents (concat ls) = all_contents ls).
  { clear. induction 1 as [|m ls H1 H2 [IH1 IH2]]; [split; [constructor|auto]|]. cbn [concat]. split; [apply Forall_app; auto|]. rewrite contents_app, IH2. reflexivity. }
  destruct (G _ R1) as [G1 G2]. split; auto. rewrite G2. etransitivity; [exact R2|]. exact L2.
Qed.
End Cond.
(** every crossing is in exactly one group ... *)
Theorem c81_partition (A : Type) (mk : A -> mask) D V : (forall x, In x V -> length (mk x) = D) -> Permutation (concat (map snd (condense mk D V))) V.
Proof. intros H. apply (condense_spec mk V H). Qed.
(** ... whose mask is that of one of its members and contains the planes of all of them *)
Theorem c81_masks (A : Type) (mk : A -> mask) D V c vs : (forall x, In x V -> length (mk x) = D) -> In (c, vs) (condense mk D V) ->
  (exists x, In x vs /\ mk x = c) /\ forall x d k, In x vs -> nth_error (mk x) d = Some (Some k) -> nth_error c d = Some (Some k).
Proof.
  intros H Hc. destruct (condense_spec mk V H) as [O _]. unfold cmap_ok in O. rewrite Forall_forall in O. destruct (O _ Hc) as (_ & O2 & O3). cbn [fst snd] in *.
  split; [exact O3|]. intros x d k Hx B. exact (O2 x d k Hx B).
Qed.
(** the mean of valid barycentric coordinates is valid *)
Theorem c81_mean (l : list (list Qc)) : l <> [] -> (forall v, In v l -> valid_bary v) -> valid_bary (bary_mean l).
Proof.
  intros N H. unfold bary_mean.
  assert (G : forall l a b c, (forall v, In v l -> valid_bary v) -> 0 <= a -> 0 <= b -> 0 <= c ->
    exists x y z, fold_left (zipwith Qcplus) l [a; b; c] = [x; y; z] /\ 0 <= x /\ 0 <= y /\ 0 <= z /\ x + y + z = a + b + c + Z2Qc (Z.of_nat (length l))).
  { clear. induction l as [|v l IH]; intros a b c H Ha Hb Hc.
    - exists a, b, c. repeat split; auto. cbn. rewrite Z2Qc_0. ring.
    - assert (V := H v (or_introl eq_refl)). destruct v as [|x [|y [|z [|]]]]; destruct V as (L & V); try discriminate L. assert (V3 := proj1 (valid3 x y z) (conj L V)).
      destruct V3 as (X & Y & Z & E). cbn [fold_left zipwith].
      destruct (IH (a + x) (b + y) (c + z)) as (x' & y' & z' & E1 & X' & Y' & Z' & S); [intros; apply H; right; auto|qc_lra|qc_lra|qc_lra|].
      exists x', y', z'. split; auto. repeat split; auto. rewrite S. cbn [length]. rewrite Nat2Z.inj_succ. unfold Z.succ. rewrite Z2Qc_plus, Z2Qc_1.
      rewrite <- E. ring. }
  destruct (G l 0 0 0 H ltac:(discriminate) ltac:(discriminate) ltac:(discriminate)) as (x & y & z & E & X & Y & Z & S). unfold bary_sum. rewrite E. cbn [map].
  assert (P : 0 < Z2Qc (Z.of_nat (length l))).
  { rewrite <- Z2Qc_0. apply Z2Qc_lt. destruct l; [congruence|]. cbn [length]. lia. }
  apply valid3. repeat split; try apply div_nonneg; auto.
  replace (0 + 0 + 0) with (0 : Qc) in S by ring. set (w := Z2Qc (Z.of_nat (length l))) in *. clearbody w.
  replace (x / w + y / w + z / w) with ((x + y + z) / w) by (unfold Qcdiv; ring). rewrite S. field. intros F. rewrite F in P. discriminate.
Qed.
Example c81_ex : condense (fun x : mask * nat => fst x) 2 [([Some 1; None], 0%nat); ([Some 1; Some 2], 1%nat); ([Some 1; None], 2%nat); ([None; Some 5], 3%nat)]%Z =
  [([None; Some 5], [([None; Some 5], 3%nat)]); ([Some 1; Some 2], [([Some 1; Some 2], 1%nat); ([Some 1; None], 0%nat); ([Some 1; None], 2%nat)])]%Z.
Proof. vm_compute. reflexivity. Qed.
