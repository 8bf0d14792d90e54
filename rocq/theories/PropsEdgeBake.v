(** C74, C75: the crossings of an input edge with the grid (EdgeIntersections::bake) and the sub-edges between them. *)
From Verif Require Import Base Num CoordMask CoordMaskSpec Vertex VertexSpec VertexTypes VertexProofs EdgeBake EdgeBakeProofs.
From Coq Require Import Sorting.Sorted Permutation.
Set Implicit Arguments.
Local Open Scope Qc_scope.

(** ** specification: the point of the segment ab at parameter t, and the planes x_d = k that the open segment crosses *)
Definition on_segment (a b : vertex) (t : Qc) (d : nat) : Qc := qat (pos a) d + t * (qat (pos b) d - qat (pos a) d).
Definition crosses (a b : vertex) (d : nat) (k : Z) : Prop := strictly_between (qat (pos a) d) (Z2Qc k) (qat (pos b) d).
(** the parameter at which it does *)
Definition cross_param (a b : vertex) (d : nat) (k : Z) : Qc := (Z2Qc k - qat (pos a) d) / (qat (pos b) d - qat (pos a) d).
(** an input vertex: D coordinates, each split as integer + fraction in [0,1) *)
Definition input_vertex (D : nat) (v : vertex) : Prop := v_wf D v /\ normalised v.

(** ** C74 *)
Theorem c74_points D grid a b idx e : input_vertex D a -> input_vertex D b -> In e (bake_edge grid a b idx) ->
  0 < ei_coord e /\ ei_coord e < 1 /\ ei_index e = idx /\ v_wf D (ei_v e) /\ normalised (ei_v e) /\ flags_exact (ei_v e) /\
  (forall d, (d < D)%nat -> qabs (qat (pos (ei_v e)) d - on_segment a b (ei_coord e) d) < bake_threshold grid + bake_threshold grid) /\
  exists d k, (d < D)%nat /\ crosses a b d k /\ on_segment a b (ei_coord e) d = Z2Qc k /\ qat (pos (ei_v e)) d = Z2Qc k.
Proof.
  intros [Wa Na] [Wb Nb] H. destruct (bake_char idx Wa Wb Na Nb grid) as (_ & _ & H3 & _). destruct (H3 e H) as (g & G & ->).
  destruct (finish_spec Wa Wb Na Nb grid G) as (E1 & E2 & E3 & E4 & E5 & E6).
  destruct (good_range G) as [R1 R2].
  split; [exact R1|]. split; [exact R2|]. split; [exact E2|]. split; [exact E3|]. split; [exact E4|]. split; [exact E5|]. split.
  - intros d Hd. rewrite (E6 d Hd), E1. apply snap_near. apply bake_threshold_pos.
  - destruct (g_ax G) as (d & k & Hd & B & Et). exists d, k. split; auto. split; auto. rewrite E1. unfold on_segment.
    assert (X : qat (pos a) d + ei_coord g * (qat (pos b) d - qat (pos a) d) = Z2Qc k).
    { rewrite Et. assert (N := between_neq B). field. auto. }
    split; auto. rewrite (E6 d Hd), X. apply snap_int.
Qed.
Theorem c74_complete D grid a b idx d k : input_vertex D a -> input_vertex D b -> (d < D)%nat -> crosses a b d k ->
  exists e, In e (bake_edge grid a b idx) /\ nth_error (v_mask (ei_v e)) d = Some (Some k) /\ qat (pos (ei_v e)) d = Z2Qc k.
Proof.
  intros [Wa Na] [Wb Nb] Hd HB. destruct (bake_char idx Wa Wb Na Nb grid) as (_ & _ & H3 & H4).
  destruct (H4 d k Hd HB) as (e & r & G & Et & Hr & Em & _). destruct (finish_spec Wa Wb Na Nb grid G) as (E1 & E2 & E3 & E4 & E5 & E6).
  assert (B : binds (v_mask (ei_v r)) d k).
  { rewrite Em. apply (v_mask_pos _ _ E3 E4). split; auto. rewrite (E6 d Hd).
    replace (qat (pos a) d + ei_coord e * (qat (pos b) d - qat (pos a) d)) with (Z2Qc k); [apply snap_int|].
    rewrite Et. assert (N := between_neq HB). field. auto. }
  exists r. split; auto. split; [exact B|]. destruct (H3 r Hr) as (e' & G' & ->).
  destruct (finish_spec Wa Wb Na Nb grid G') as (_ & _ & F3 & F4 & _). apply (v_mask_pos _ _ F3 F4) in B. tauto.
Qed.
(** ordered along the edge, and no two at the same place of the grid *)
Theorem c74_sorted D grid a b idx : input_vertex D a -> input_vertex D b -> let R := bake_edge grid a b idx in
  StronglySorted (fun e f => ei_coord e < ei_coord f) R /\ NoDup (map (fun e => v_mask (ei_v e)) R) /\ NoDup (map (fun e => pos (ei_v e)) R).
Proof.
  intros [Wa Na] [Wb Nb]. destruct (bake_char idx Wa Wb Na Nb grid) as (H1 & H2 & H3 & _). split; [exact H1|]. split; [exact H2|].
  set (R := bake_edge grid a b idx) in *. clearbody R.
  assert (X : forall e f, In e R -> In f R -> pos (ei_v e) = pos (ei_v f) -> v_mask (ei_v e) = v_mask (ei_v f)).
  { intros e f He Hf E. destruct (H3 e He) as (g & G & ->). destruct (H3 f Hf) as (h & H & ->).
    destruct (finish_spec Wa Wb Na Nb grid G) as (_ & _ & W1 & N1 & _). destruct (finish_spec Wa Wb Na Nb grid H) as (_ & _ & W2 & N2 & _).
    apply nth_error_ext. intros i. assert (L1 := v_mask_length _ _ W1). assert (L2 := v_mask_length _ _ W2).
    destruct (Nat.lt_ge_cases i D) as [Hi|Hi]; [|rewrite !(proj2 (nth_error_None _ _)) by lia; reflexivity].
    assert (B : forall z, binds (v_mask (ei_v (finish_isect (edge_mask a b) (bake_threshold grid) g))) i z <->
                          binds (v_mask (ei_v (finish_isect (edge_mask a b) (bake_threshold grid) h))) i z).
    { intros z. etransitivity; [apply (v_mask_pos i z W1 N1)|]. etransitivity; [|symmetry; apply (v_mask_pos i z W2 N2)]. rewrite E. tauto. }
    unfold binds in B.
    destruct (nth_error_lt _ (v_mask (ei_v (finish_isect (edge_mask a b) (bake_threshold grid) g))) i ltac:(lia)) as [x Hx].
    destruct (nth_error_lt _ (v_mask (ei_v (finish_isect (edge_mask a b) (bake_threshold grid) h))) i ltac:(lia)) as [y Hy].
    rewrite Hx, Hy in *. f_equal. destruct x as [x|].
    - assert (Y := proj1 (B x) eq_refl). congruence.
    - destruct y as [y|]; [|reflexivity]. assert (Y := proj2 (B y) eq_refl). congruence. }
  clear H1 H3. induction R as [|e R IH]; simpl in *; constructor; inversion H2; subst.
  - intros F. apply in_map_iff in F as (f & E & Hf). apply H1. apply in_map_iff. exists f. split; auto.
  - apply IH; auto.
Qed.
(** a plane containing the whole edge contains all its crossings *)
Theorem c74_keeps_planes D grid a b idx e d k : input_vertex D a -> input_vertex D b -> In e (bake_edge grid a b idx) -> (d < D)%nat ->
  qat (pos a) d = Z2Qc k -> qat (pos b) d = Z2Qc k -> qat (pos (ei_v e)) d = Z2Qc k.
Proof.
  intros [Wa Na] [Wb Nb] H Hd Ea Eb. destruct (bake_char idx Wa Wb Na Nb grid) as (_ & _ & H3 & _). destruct (H3 e H) as (g & G & ->).
  destruct (finish_spec Wa Wb Na Nb grid G) as (_ & _ & _ & _ & _ & E6). rewrite (E6 d Hd), Ea, Eb.
  replace (Z2Qc k + ei_coord g * (Z2Qc k - Z2Qc k)) with (Z2Qc k) by ring. apply snap_int.
Qed.
(** away from the snapping distance the recorded parameters are exactly the crossing parameters, the points exactly the points of
    the segment *)
Definition clear_of (th x : Qc) : Prop := x = Z2Qc (qfloor x) \/ (th <= x - Z2Qc (qfloor x) /\ x - Z2Qc (qfloor x) <= 1 - (th + th)).
Theorem c74_exact D grid a b idx : input_vertex D a -> input_vertex D b ->
  (forall d k i, (d < D)%nat -> (i < D)%nat -> crosses a b d k -> clear_of (bake_threshold grid) (on_segment a b (cross_param a b d k) i)) ->
  let R := bake_edge grid a b idx in
  (forall t, In t (map ei_coord R) <-> exists d k, (d < D)%nat /\ crosses a b d k /\ t = cross_param a b d k) /\
  (forall e d, In e R -> (d < D)%nat -> qat (pos (ei_v e)) d = on_segment a b (ei_coord e) d).
Proof.
  intros [Wa Na] [Wb Nb] HC R. destruct (bake_char idx Wa Wb Na Nb grid) as (_ & _ & H3 & H4). fold R in H3, H4.
  assert (EX : forall g d, good D a b idx g -> (d < D)%nat ->
            qat (pos (ei_v (finish_isect (edge_mask a b) (bake_threshold grid) g))) d = on_segment a b (ei_coord g) d).
  { intros g d G Hd. destruct (finish_spec Wa Wb Na Nb grid G) as (_ & _ & _ & _ & _ & E6). rewrite (E6 d Hd).
    destruct (g_ax G) as (d0 & k0 & Hd0 & B & Et). assert (X := HC d0 k0 d Hd0 Hd B). unfold cross_param in X. rewrite <- Et in X. unfold on_segment in *.
    destruct X as [X|[X1 X2]]; [rewrite X at 1; rewrite snap_int; auto|]. apply snap_exact; auto. apply bake_threshold_pos. }
  split; [|intros e d He Hd; destruct (H3 e He) as (g & G & ->); cbn [ei_coord finish_isect]; apply EX; auto].
  intros t. split.
  - intros Ht. apply in_map_iff in Ht as (e & <- & He). destruct (H3 e He) as (g & G & ->). destruct (g_ax G) as (d & k & Hd & B & Et).
    exists d, k. auto.
  - intros (d & k & Hd & B & ->). destruct (H4 d k Hd B) as (e & r & G & Et & Hr & Em & _). destruct (H3 r Hr) as (g & Gg & ->).
    apply in_map_iff. exists (finish_isect (edge_mask a b) (bake_threshold grid) g). split; [|exact Hr]. cbn [ei_coord finish_isect].
    unfold cross_param. rewrite <- Et.
    destruct (finish_spec Wa Wb Na Nb grid G) as (_ & _ & W1 & N1 & _). destruct (finish_spec Wa Wb Na Nb grid Gg) as (_ & _ & W2 & N2 & _).
    assert (N := between_neq B).
    assert (P1 : on_segment a b (ei_coord e) d = Z2Qc k) by (unfold on_segment; rewrite Et; field; auto).
    assert (P2 : on_segment a b (ei_coord g) d = Z2Qc k).
    { rewrite <- EX by auto. eapply proj2. apply (v_mask_pos d k W2 N2). rewrite Em. apply (v_mask_pos d k W1 N1). split; auto. rewrite EX; auto. }
    unfold on_segment in P1, P2.
    assert (E : ei_coord g * (qat (pos b) d - qat (pos a) d) = ei_coord e * (qat (pos b) d - qat (pos a) d)) by (rewrite <- P2 in P1; qc_lra).
    replace (ei_coord g) with (ei_coord g * (qat (pos b) d - qat (pos a) d) / (qat (pos b) d - qat (pos a) d)) by (field; auto). rewrite E. field; auto.
Qed.

(** a segment from (1/2, 9/4) to (7/2, 1/4) on a 5x5 grid: it crosses x = 1,2,3 and y = 1,2 *)
Definition va : vertex := vertex_cq [0;2]%Z [Q2Qc (1#2); Q2Qc (1#4)].
Definition vb : vertex := vertex_cq [3;0]%Z [Q2Qc (1#2); Q2Qc (1#4)].
Example c74_ex_input : input_vertex 2 va /\ input_vertex 2 vb.
Proof. repeat split; repeat constructor; discriminate. Qed.
Example c74_ex_params : map (fun e => this (ei_coord e)) (bake_edge (Some [5;5]%Z) va vb 7) = [1#8; 1#6; 1#2; 5#8; 5#6]%Q.
Proof. vm_compute. reflexivity. Qed.
Example c74_ex_masks : map (fun e => v_mask (ei_v e)) (bake_edge (Some [5;5]%Z) va vb 7) =
  [[None; Some 2%Z]; [Some 1%Z; None]; [Some 2%Z; None]; [None; Some 1%Z]; [Some 3%Z; None]].
Proof. vm_compute. reflexivity. Qed.
Example c74_ex_cross : crosses va vb 0 2 /\ crosses va vb 1 1.
Proof. split; [left|right]; vm_compute; auto. Qed.
(** the edge in the plane x = 1 keeps it *)
Example c74_ex_plane : map (fun e => v_mask (ei_v e))
   (bake_edge (Some [5;5]%Z) (vertex_cq [1;0]%Z [0; Q2Qc (1#2)]) (vertex_cq [1;2]%Z [0; Q2Qc (1#2)]) 0) = [[Some 1%Z; Some 1%Z]; [Some 1%Z; Some 2%Z]].
Proof. vm_compute. reflexivity. Qed.
(** the hypothesis of [c74_exact] holds for va vb on the 5x5 grid *)
Example c74_ex_clear d k i : (d < 2)%nat -> (i < 2)%nat -> crosses va vb d k ->
  clear_of (bake_threshold (Some [5;5]%Z)) (on_segment va vb (cross_param va vb d k) i).
Proof.
  intros Hd Hi HB.
  assert (K : (0 <= k <= 3)%Z).
  { assert (X : (-1 < k)%Z /\ (k < 4)%Z); [|lia].
    split; apply Z2Qc_lt; (destruct d as [|[|d]]; [| |lia]); destruct HB as [[H1 H2]|[H1 H2]];
      first [eapply Qclt_trans; [|exact H1]; vm_compute; reflexivity|eapply Qclt_trans; [exact H2|]; vm_compute; reflexivity]. }
  assert (K4 : (k = 0 \/ k = 1 \/ k = 2 \/ k = 3)%Z) by lia.
  assert (T : forall x, (qeqb x (Z2Qc (qfloor x)) || (qleb (bake_threshold (Some [5;5]%Z)) (x - Z2Qc (qfloor x)) &&
              qleb (x - Z2Qc (qfloor x)) (1 - (bake_threshold (Some [5;5]%Z) + bake_threshold (Some [5;5]%Z))))) = true -> clear_of (bake_threshold (Some [5;5]%Z)) x).
  { intros x Hx. apply orb_true_iff in Hx as [Hx|Hx]; [left; apply qeqb_eq; auto|right]. apply andb_true_iff in Hx as [H1 H2].
    split; apply qleb_le; auto. }
  apply T. clear T HB K. destruct d as [|[|d]]; [| |lia]; (destruct i as [|[|i]]; [| |lia]);
   destruct K4 as [->|[->|[->| ->]]]; vm_compute; reflexivity.
Qed.

(** Without a grid the snapping threshold is a whole cell (1.0): every coordinate of a crossing is moved to an integer.  Here the
    crossing of x = 1 is at y = 2/5 and is recorded at y = 0. *)
Definition ng_a : vertex := vertex_cq [0;0]%Z [Q2Qc (1#2); Q2Qc (1#5)].
Definition ng_b : vertex := vertex_cq [1;0]%Z [Q2Qc (1#2); Q2Qc (3#5)].
Theorem c74_no_grid_refuted : exists D a b idx e d, input_vertex D a /\ input_vertex D b /\ In e (bake_edge None a b idx) /\ (d < D)%nat /\
  qat (pos (ei_v e)) d = 0 /\ on_segment a b (ei_coord e) d = Q2Qc (2#5).
Proof.
  exists 2%nat, ng_a, ng_b, 0%Z, (hd (mkEI ng_a 0 0) (bake_edge None ng_a ng_b 0)), 1%nat.
  split; [repeat split; repeat constructor; discriminate|]. split; [repeat split; repeat constructor; discriminate|].
  split; [|split; [lia|split; apply Qc_is_canon; vm_compute; reflexivity]].
  assert (X : forall (l : list edge_isect) e, length l = 1%nat -> In (hd e l) l) by (intros [|x l] e H; [discriminate|left; auto]).
  apply X. vm_compute. reflexivity.
Qed.

(** ** C75: the sub-edges.  [gvertices] lists the end points and the crossings along the edge; consecutive ones are the cut edges. *)
Lemma map_set_last (t : Qc) (e : edge_isect) (m : list (Qc * edge_isect)) : (forall p, In p m -> fst p < t) -> map_set qcmp t e m = m ++ [(t, e)].
Proof.
  induction m as [|[u f] m IH]; simpl; intros H; auto.
  assert (X : u < t) by (apply (H (u, f)); auto). replace (qcmp t u) with Gt; [rewrite IH by auto; reflexivity|].
  symmetry. rewrite (tc_anti qcmp_total). change (qcmp u t = Lt) in X. rewrite X. reflexivity.
Qed.
Lemma gvertices_sorted a b R : StronglySorted (fun e f => ei_coord e < ei_coord f) R -> (forall e, In e R -> 0 < ei_coord e /\ ei_coord e < 1) ->
  gvertices a b R = CV a :: map CE R ++ [CV b].
Proof.
  intros HS HR. unfold gvertices. f_equal. f_equal.
  assert (G : forall R (m : list (Qc * edge_isect)), StronglySorted (fun e f => ei_coord e < ei_coord f) R -> (forall e, In e R -> 0 < ei_coord e /\ ei_coord e < 1) ->
    (forall p e, In p m -> In e R -> fst p < ei_coord e) ->
    fold_left (fun m e => if qltb 0 (ei_coord e) && qltb (ei_coord e) 1 then map_set qcmp (ei_coord e) e m else m) R m = m ++ map (fun e => (ei_coord e, e)) R).
  { clear. induction R as [|e R IH]; intros m HS HR HM; simpl; [rewrite app_nil_r; auto|]. inversion HS as [|? ? S F]; subst.
    destruct (HR e (or_introl eq_refl)) as [R1 R2]. rewrite (proj2 (qltb_lt _ _) R1), (proj2 (qltb_lt _ _) R2). simpl.
    rewrite map_set_last by (intros p Hp; apply HM; simpl; auto). rewrite IH; auto.
    - rewrite <- app_assoc. reflexivity.
    - intros; apply HR; right; auto.
    - intros p f Hp Hf. apply in_app_or in Hp as [Hp|[<-|[]]]; [apply HM; simpl; auto|]. simpl. rewrite Forall_forall in F. auto. }
  rewrite G; auto; [|intros p e []]. simpl. rewrite map_map. reflexivity.
Qed.
Theorem c75_gvertices D grid a b idx : input_vertex D a -> input_vertex D b ->
  gvertices a b (bake_edge grid a b idx) = CV a :: map CE (bake_edge grid a b idx) ++ [CV b].
Proof.
  intros Ia Ib. apply gvertices_sorted; [apply (c74_sorted grid idx Ia Ib)|]. intros e He.
  destruct (@c74_points _ _ _ _ _ _ Ia Ib He) as (H1 & H2 & _). auto.
Qed.
Lemma consecutive_map A B (f : A -> B) l : consecutive (map f l) = map (fun p => (f (fst p), f (snd p))) (consecutive l).
Proof. induction l as [|x [|y t] IH]; auto. cbn [map consecutive fst snd]. f_equal. exact IH. Qed.
Lemma consecutive_split A (l : list A) p q : In (p, q) (consecutive l) <-> exists l1 l2, l = l1 ++ p :: q :: l2.
Proof.
  split.
  - induction l as [|x [|y t] IH]; [intros []..|]. intros [E|H].
    + exists [], t. inversion E; auto.
    + destruct (IH H) as (l1 & l2 & E). exists (x :: l1), l2. rewrite E. reflexivity.
  - intros (l1 & l2 & ->). induction l1 as [|x l1 IH]; [left; auto|]. cbn [app]. destruct l1; [right; left; auto|right; exact IH].
Qed.
Lemma consecutive_gap A (f : A -> Qc) (l : list A) p q r : StronglySorted (fun x y => f x < f y) l -> In (p, q) (consecutive l) -> In r l ->
  f p < f q /\ In p l /\ In q l /\ (f r <= f p \/ f q <= f r).
Proof.
  intros HS H Hr. apply consecutive_split in H as (l1 & l2 & ->).
  assert (X : (forall x, In x l1 -> f x < f p) /\ f p < f q /\ (forall x, In x l2 -> f q < f x)).
  { clear Hr. induction l1 as [|x l1 IH]; cbn [app] in HS; inversion HS as [|? ? S F]; subst; rewrite Forall_forall in F.
    - split; [intros ? []|]. split; [apply F; left; auto|]. inversion S as [|? ? S' F']; subst. rewrite Forall_forall in F'. auto.
    - destruct (IH S) as (I1 & I2 & I3). split; auto. intros y [<-|Hy]; auto. apply F. apply in_or_app. right. left. auto. }
  destruct X as (X1 & X2 & X3). split; auto. split; [apply in_or_app; right; left; auto|]. split; [apply in_or_app; right; right; left; auto|].
  apply in_app_or in Hr as [Hr|[<-|[<-|Hr]]].
  - left. apply Qclt_le_weak. auto.
  - left. apply Qcle_refl.
  - right. apply Qcle_refl.
  - right. apply Qclt_le_weak. auto.
Qed.

Section Sub.
Variables (D : nat) (a b : vertex) (idx : Z) (grid : option (list Z)).
Hypotheses (Ia : input_vertex D a) (Ib : input_vertex D b).
Let R := bake_edge grid a b idx.
Let th := bake_threshold grid.
Definition params : list (Qc * crossing) := (0, CV a) :: map (fun e => (ei_coord e, CE e)) R ++ [(1, CV b)].
Lemma params_gv : gvertices a b R = map snd params.
Proof. unfold R. rewrite (c75_gvertices grid idx Ia Ib). unfold params. simpl. rewrite map_app, map_map. reflexivity. Qed.
Lemma params_sorted : StronglySorted (fun x y : Qc * crossing => fst x < fst y) params.
Proof.
  destruct (c74_sorted grid idx Ia Ib) as (S & _). fold R in S.
  assert (RR : forall e, In e R -> 0 < ei_coord e /\ ei_coord e < 1) by (intros e He; destruct (@c74_points _ _ _ _ _ _ Ia Ib He) as (H1 & H2 & _); auto).
  unfold params. constructor.
  - revert S RR. generalize R. intros l S RR. induction l as [|e l IH]; simpl; [repeat constructor|]. inversion S as [|? ? S' F]; subst.
    constructor; [apply IH; auto; intros; apply RR; right; auto|]. apply Forall_app. split.
    + apply Forall_forall. intros x Hx. apply in_map_iff in Hx as (f & <- & Hf). simpl. rewrite Forall_forall in F. auto.
    + repeat constructor. simpl. apply RR. left; auto.
  - apply Forall_app. split; [|repeat constructor]. apply Forall_forall. intros x Hx. apply in_map_iff in Hx as (f & <- & Hf). apply RR. auto.
Qed.
(** where each listed point is *)
Lemma params_point t c : In (t, c) params -> 0 <= t /\ t <= 1 /\
  ((forall d, (d < D)%nat -> qat (pos (cr_vertex c)) d = on_segment a b t d) \/
   (In t (map ei_coord R) /\ forall d, (d < D)%nat -> qat (pos (cr_vertex c)) d = snap th (on_segment a b t d))).
Proof.
  intros [E|H]; [|apply in_app_or in H as [H|[E|[]]]].
  - apply pair_equal_spec in E as [<- <-]. split; [discriminate|]. split; [discriminate|]. left. intros d _. unfold on_segment. simpl. ring.
  - apply in_map_iff in H as (e & E & He). apply pair_equal_spec in E as [<- <-].
    destruct (@c74_points _ _ _ _ _ _ Ia Ib He) as (H1 & H2 & _). split; [apply Qclt_le_weak; auto|]. split; [apply Qclt_le_weak; auto|]. right.
    split; [apply in_map; auto|]. destruct Ia as [Wa Na], Ib as [Wb Nb].
    destruct (bake_char idx Wa Wb Na Nb grid) as (_ & _ & H3 & _). destruct (H3 e He) as (g & G & ->).
    destruct (finish_spec Wa Wb Na Nb grid G) as (_ & _ & _ & _ & _ & E6). exact E6.
  - apply pair_equal_spec in E as [<- <-]. split; [discriminate|]. split; [discriminate|]. left. intros d _. unfold on_segment. simpl. ring.
Qed.
Lemma point_lt t c d n : In (t, c) params -> (d < D)%nat -> qat (pos (cr_vertex c)) d < Z2Qc n -> on_segment a b t d < Z2Qc n.
Proof.
  intros H Hd L. destruct (params_point H) as (_ & _ & [E|[_ E]]); rewrite (E d Hd) in L; auto.
  apply Qcnot_le_lt. intros F. apply (snap_ge th) in F. qc_lra.
Qed.
Lemma point_gt t c d n : In (t, c) params -> (d < D)%nat -> Z2Qc n < qat (pos (cr_vertex c)) d -> Z2Qc n < on_segment a b t d.
Proof.
  intros H Hd L. destruct (params_point H) as (_ & _ & [E|[_ E]]); rewrite (E d Hd) in L; auto.
  apply Qcnot_le_lt. intros F. apply (snap_le th) in F. qc_lra.
Qed.
(** a plane crossed strictly between the parameters t < u is snapped to by a recorded crossing at a parameter at least as large *)
Lemma plane_rep d n : (d < D)%nat -> crosses a b d n -> exists r, In r R /\ cross_param a b d n <= ei_coord r /\
  snap th (on_segment a b (ei_coord r) d) = Z2Qc n.
Proof.
  intros Hd HB. destruct Ia as [Wa Na], Ib as [Wb Nb].
  destruct (bake_char idx Wa Wb Na Nb grid) as (_ & _ & H3 & H4). destruct (H4 d n Hd HB) as (e & r & G & Et & Hr & Em & Hle).
  exists r. split; auto. split; [unfold cross_param; rewrite <- Et; auto|]. destruct (H3 r Hr) as (g & Gg & ->).
  destruct (finish_spec Wa Wb Na Nb grid G) as (_ & _ & W1 & N1 & _ & E1). destruct (finish_spec Wa Wb Na Nb grid Gg) as (_ & _ & W2 & N2 & _ & E2).
  cbn [ei_coord finish_isect]. unfold on_segment, th. rewrite <- (E2 d Hd).
  eapply proj2. apply (v_mask_pos d n W2 N2). rewrite Em. apply (v_mask_pos d n W1 N1). split; auto. rewrite (E1 d Hd).
  replace (qat (pos a) d + ei_coord e * (qat (pos b) d - qat (pos a) d)) with (Z2Qc n); [apply snap_int|].
  rewrite Et. assert (N := between_neq HB). field. auto.
Qed.
Lemma sub_no_plane t p u q d n : In ((t, p), (u, q)) (consecutive params) -> (d < D)%nat ->
  ~ strictly_between (qat (pos (cr_vertex p)) d) (Z2Qc n) (qat (pos (cr_vertex q)) d).
Proof.
  intros H Hd HB.
  assert (GAP := fun r => @consecutive_gap _ fst params (t, p) (u, q) r params_sorted H). cbn [fst] in GAP.
  destruct (GAP (0, CV a) (or_introl eq_refl)) as (Ltu & Ip & Iq & _).
  destruct (params_point Ip) as (T1 & T2 & _). destruct (params_point Iq) as (U1 & U2 & PQ).
  assert (SB : strictly_between (on_segment a b t d) (Z2Qc n) (on_segment a b u d)).
  { destruct HB as [[H1 H2]|[H1 H2]]; [left|right].
    - split; [eapply point_lt; eauto|eapply point_gt; eauto].
    - split; [eapply point_lt; eauto|eapply point_gt; eauto]. }
  set (w := qat (pos b) d - qat (pos a) d). set (x := qat (pos a) d).
  assert (EW : forall s, on_segment a b s d = x + s * w) by reflexivity. rewrite !EW in SB.
  assert (CR : crosses a b d n).
  { unfold crosses. fold x. replace (qat (pos b) d) with (x + w) by (unfold x, w; ring). clearbody x w. clear - SB Ltu T1 T2 U1 U2.
    generalize dependent (Z2Qc n). intros z SB. unfold strictly_between in *. unfold Qcle, Qclt in *. destruct SB as [[H1 H2]|[H1 H2]]; [left|right]; split; q_push; nra. }
  destruct (plane_rep Hd CR) as (r & Hr & Hle & Hs).
  assert (Hr' : In (ei_coord r, CE r) params) by (right; apply in_or_app; left; apply in_map_iff; exists r; auto).
  assert (Nw : w <> 0) by (apply between_neq in CR; exact CR).
  set (s := cross_param a b d n) in *. assert (ES : x + s * w = Z2Qc n) by (change s with ((Z2Qc n - x) / w); clearbody x w; field; auto).
  assert (Hts : t < s /\ s < u).
  { clearbody s x w. clear - SB ES Ltu. rewrite <- ES in SB. unfold strictly_between, Qcle, Qclt in *. q_push. destruct SB as [[H1 H2]|[H1 H2]]; split; nra. }
  destruct (GAP (ei_coord r, CE r) Hr') as (_ & _ & _ & [G|G]); cbn [fst] in G; [destruct Hts; qc_lra|].
  assert (R1 : ei_coord r < 1) by (destruct (@c74_points _ _ _ _ _ _ Ia Ib Hr) as (_ & ? & _); auto).
  destruct PQ as [PQ|[_ PQ]].
  - (* q is not snapped: it is an end point; u <= t_r < 1 and u > 0 *)
    assert (QE : exists f, In f R /\ q = CE f /\ u = ei_coord f).
    { destruct Iq as [E|Iq]; [apply pair_equal_spec in E as [E _]; destruct Hts; subst u; qc_lra|].
      apply in_app_or in Iq as [Iq|[E|[]]]; [|apply pair_equal_spec in E as [E _]; subst u; qc_lra].
      apply in_map_iff in Iq as (f & E & Hf). apply pair_equal_spec in E as [<- <-]. exists f. auto. }
    destruct QE as (f & Hf & -> & ->).
    assert (X : snap th (x + ei_coord f * w) = Z2Qc n).
    { apply (@snap_convex th n (x + ei_coord r * w)); [apply bake_threshold_pos|rewrite <- EW; auto|].
      clearbody s x w. clear - ES G Hts SB. destruct Hts as [? ?]. rewrite <- ES in *. unfold strictly_between, Qcle, Qclt in *. q_push.
      destruct SB as [[H1 H2]|[H1 H2]]; [left|right]; split; nra. }
    (* the recorded position is the snapped one *)
    assert (PF : qat (pos (ei_v f)) d = snap th (x + ei_coord f * w)).
    { destruct Ia as [Wa Na], Ib as [Wb Nb].
      destruct (bake_char idx Wa Wb Na Nb grid) as (_ & _ & H3 & _). destruct (H3 f Hf) as (g & Gg & ->).
      destruct (finish_spec Wa Wb Na Nb grid Gg) as (_ & _ & _ & _ & _ & E6). apply (E6 d Hd). }
    cbn [cr_vertex] in HB. rewrite PF, X in HB. destruct HB as [[? ?]|[? ?]]; qc_lra.
  - assert (X : snap th (x + u * w) = Z2Qc n).
    { apply (@snap_convex th n (x + ei_coord r * w)); [apply bake_threshold_pos|rewrite <- EW; auto|].
      clearbody s x w. clear - ES G Hts SB. destruct Hts as [? ?]. rewrite <- ES in *. unfold strictly_between, Qcle, Qclt in *. q_push.
      destruct SB as [[H1 H2]|[H1 H2]]; [left|right]; split; nra. }
    rewrite (PQ d Hd), EW, X in HB. destruct HB as [[? ?]|[? ?]]; qc_lra.
Qed.
End Sub.

(** no plane of the grid lies strictly between the two ends of a sub-edge ... *)
Theorem c75_no_plane D grid a b idx p q d n : input_vertex D a -> input_vertex D b ->
  In (p, q) (consecutive (gvertices a b (bake_edge grid a b idx))) -> (d < D)%nat ->
  ~ strictly_between (qat (pos (cr_vertex p)) d) (Z2Qc n) (qat (pos (cr_vertex q)) d).
Proof.
  intros Ia Ib H Hd. rewrite (params_gv idx grid Ia Ib), consecutive_map in H. apply in_map_iff in H as ([[t p'] [u q']] & E & H).
  apply pair_equal_spec in E as [<- <-]. exact (@sub_no_plane D a b idx grid Ia Ib t p' u q' d n H Hd).
Qed.
(** ... so each sub-edge lies in one closed grid cell *)
Lemma common_floor x y : (forall n, ~ strictly_between x (Z2Qc n) y) -> exists c, Z2Qc c <= x /\ x <= Z2Qc c + 1 /\ Z2Qc c <= y /\ y <= Z2Qc c + 1.
Proof.
  intros H. assert (G : forall x y, x <= y -> (forall n, ~ strictly_between x (Z2Qc n) y) -> exists c, Z2Qc c <= x /\ x <= Z2Qc c + 1 /\ Z2Qc c <= y /\ y <= Z2Qc c + 1).
  { clear. intros x y L H. exists (qfloor x). destruct (qfloor_spec x) as [F1 F2]. split; auto. split; [apply Qclt_le_weak; auto|].
    split; [qc_lra|]. apply Qcnot_lt_le. intros F. apply (H (qfloor x + 1)%Z). left. rewrite Z2Qc_plus, Z2Qc_1. split; qc_lra. }
  destruct (Qclt_le_dec y x) as [L|L]; [|auto]. destruct (G y x) as (c & H1 & H2 & H3 & H4); [apply Qclt_le_weak; auto| |exists c; auto].
  intros n [F|F]; apply (H n); [right|left]; auto.
Qed.
Lemma finite_choice (n : nat) (P : nat -> Z -> Prop) : (forall d, (d < n)%nat -> exists c, P d c) -> exists cell, forall d, (d < n)%nat -> P d (cell d).
Proof.
  induction n as [|n IH]; intros X; [exists (fun _ => 0%Z); intros; lia|].
  destruct IH as [cell HC]; [intros d Hd; apply X; lia|]. destruct (X n ltac:(lia)) as [c Hc].
  exists (fun d => if (d =? n)%nat then c else cell d). intros d Hd. destruct (d =? n)%nat eqn:E; [apply Nat.eqb_eq in E; subst; auto|].
  apply HC. apply Nat.eqb_neq in E. lia.
Qed.
Theorem c75_one_cell D grid a b idx p q : input_vertex D a -> input_vertex D b ->
  In (p, q) (consecutive (gvertices a b (bake_edge grid a b idx))) ->
  exists cell : nat -> Z, forall d, (d < D)%nat ->
    Z2Qc (cell d) <= qat (pos (cr_vertex p)) d /\ qat (pos (cr_vertex p)) d <= Z2Qc (cell d) + 1 /\
    Z2Qc (cell d) <= qat (pos (cr_vertex q)) d /\ qat (pos (cr_vertex q)) d <= Z2Qc (cell d) + 1.
Proof.
  intros Ia Ib H.
  assert (X : forall d, (d < D)%nat -> exists c, Z2Qc c <= qat (pos (cr_vertex p)) d /\ qat (pos (cr_vertex p)) d <= Z2Qc c + 1 /\
    Z2Qc c <= qat (pos (cr_vertex q)) d /\ qat (pos (cr_vertex q)) d <= Z2Qc c + 1).
  { intros d Hd. apply common_floor. intros n. exact (@c75_no_plane D grid a b idx p q d n Ia Ib H Hd). }
  apply finite_choice in X. exact X.
Qed.
Example c75_ex : length (consecutive (gvertices va vb (bake_edge (Some [5;5]%Z) va vb 7))) = 6%nat.
Proof. vm_compute. reflexivity. Qed.
