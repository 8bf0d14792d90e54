(** Properties C17, C18, C19, C23 and C52: merging half-edges into faces. *)
From Verif Require Import Base Num SmallestEdge DisjointSet DisjointSetSpec DisjointSetProofs
  FaceCollapser FaceCollapserSpec FaceCollapserProofs FaceCollapserIds FaceCollapserLoops FaceCollapserGeom AngleSort AngleSortSpec AngleSortProofs.
From Coq Require Import Permutation.
Local Open Scope Z_scope.

(** the example: a square 0123 with the diagonal 02 and a separate antenna 1-4 *)
Definition ex_edges : list edge := [(0, 1); (1, 2); (2, 3); (3, 0); (0, 2); (1, 4)].
Definition ex_V (i : Z) : vec2 :=
  match i with 0 => (Z2Qc 0, Z2Qc 0) | 1 => (Z2Qc 1, Z2Qc 0) | 2 => (Z2Qc 1, Z2Qc 1) | 3 => (Z2Qc 0, Z2Qc 1) | _ => (Z2Qc 2, Z2Qc (-1)) end.
Definition ex_lnk (d : ds) (a b : Z) : bool := a <? b.
Lemma ex_simple : simple_edges ex_edges.
Proof.
  split; [repeat constructor; simpl; intuition congruence|].
  intros a b H. simpl in *. repeat (destruct H as [[= <- <-]|H]; [split; [lia|intuition congruence]|]). destruct H.
Qed.

(** C17 *)
Theorem c17_successor_is_a_permutation : forall lnk ord, (forall a bs, Permutation (ord a bs) bs) ->
  forall edges rm, let nxt := inc (fc_deg (bake_simple lnk ord edges rm)) in
  (forall a b, half_edge edges (a, b) -> exists c, nxt (a, b) = Some (b, c) /\ half_edge edges (b, c)) /\
  (forall e e', nxt e = Some e' -> half_edge edges e) /\
  (forall e1 e2 e', nxt e1 = Some e' -> nxt e2 = Some e' -> e1 = e2) /\
  (forall e', half_edge edges e' -> exists e, nxt e = Some e').
Proof.
  intros lnk ord OP edges rm nxt. destruct (succ_ok lnk ord OP edges) as (S1 & S2 & S3 & S4). split; [|split; [|split]].
  - intros a b H. apply half_iff in H. destruct (S1 _ H) as ([b' c] & E & H' & E'). simpl in E'. subst b'.
    exists c. split; [exact E|apply half_iff; exact H'].
  - intros e e' H. apply half_iff. eapply S2; exact H.
  - exact S3.
  - intros e' H. apply S4. apply half_iff; auto.
Qed.
Example c17_ex : (forall a bs, Permutation (angle_ord ex_V a bs) bs) /\
  inc (fc_deg (bake_simple ex_lnk (angle_ord ex_V) ex_edges [])) (1, 2) = Some (2, 0) /\
  inc (fc_deg (bake_simple ex_lnk (angle_ord ex_V) ex_edges [])) (1, 4) = Some (4, 1).
Proof. split; [apply angle_ord_ok|vm_compute; auto]. Qed.

(** C18: ids, and the loops returned by faces() and faces_no_holes() *)
Theorem c18_face_ids : forall lnk ord, (forall a bs, Permutation (ord a bs) bs) -> forall edges rm, simple_edges edges ->
  let x := bake_simple lnk ord edges rm in
  let nxt := inc (fc_deg x) in let face := face_of (fc_map x) in
  exists k, 0 <= k /\
    (forall e, half_edge edges e -> exists f, face e = Some f /\ -1 <= f < k) /\
    (forall e f, face e = Some f -> half_edge edges e) /\
    (forall f, 0 <= f < k -> exists e, half_edge edges e /\ face e = Some f) /\
    (forall e, half_edge edges e ->
       (face e = Some (-1) <-> exists r, In r rm /\ half_edge edges r /\ reach nxt e r)) /\
    (forall e e', half_edge edges e -> half_edge edges e' -> face e <> Some (-1) -> (face e = face e' <-> reach nxt e e')).
Proof. exact ids_ok. Qed.
Theorem c18_faces_are_the_loops : forall lnk ord, (forall a bs, Permutation (ord a bs) bs) -> forall edges rm, simple_edges edges ->
  let x := bake_simple lnk ord edges rm in
  let nxt := inc (fc_deg x) in let face := face_of (fc_map x) in
  exists r r1, faces x = Some r /\ faces_no_holes x = Some r1 /\
    (forall f, (exists S, map_find Z.compare f r = Some S) <-> 0 <= f /\ exists e, face e = Some f) /\
    (forall f S, map_find Z.compare f r = Some S -> exists l, closed_loop nxt l /\ (forall e, In e l <-> face e = Some f) /\
        S = [map fst l] /\ map_find Z.compare f r1 = Some (map fst l)) /\
    (forall f vs, map_find Z.compare f r1 = Some vs -> map_find Z.compare f r = Some [vs]).
Proof. exact faces_ok. Qed.
Example c18_ex : simple_edges ex_edges /\
  faces (bake_simple ex_lnk (angle_ord ex_V) ex_edges [(1, 0)]) = Some [(0, [[0; 2; 3]]); (1, [[0; 1; 2]])] /\
  face_of (fc_map (bake_simple ex_lnk (angle_ord ex_V) ex_edges [(1, 0)])) (1, 4) = Some (-1).
Proof. split; [apply ex_simple|vm_compute; auto]. Qed.

(** C19 is refuted for the loop version: it marks half-edges between loop POSITIONS *)
Definition tri_edges : list edge := [(10, 11); (11, 12); (12, 10)].
Definition tri_V (i : Z) : vec2 := match i with 10 => (Z2Qc 0, Z2Qc 0) | 11 => (Z2Qc 1, Z2Qc 0) | _ => (Z2Qc 0, Z2Qc 1) end.
Theorem c19_loop_removal_refuted : exists lnk ord edges loop a b, (forall c bs, Permutation (ord c bs) bs) /\ simple_edges edges /\
  loop = [a; b] ++ skipn 2 loop /\ half_edge edges (a, b) /\
  face_of (fc_map (bake_loop lnk ord edges loop)) (a, b) <> Some (-1).
Proof.
  exists ex_lnk, (angle_ord tri_V), tri_edges, [10; 12; 11], 10, 12. split; [apply angle_ord_ok|]. split.
  - split; [repeat constructor; simpl; intuition congruence|].
    intros a b H. simpl in *. repeat (destruct H as [[= <- <-]|H]; [split; [lia|intuition congruence]|]). destruct H.
  - split; [reflexivity|]. split; [right; simpl; auto|]. vm_compute. discriminate.
Qed.
(** it can also mark the wrong side: asking for the loop 0,2,1 (the outside) removes the inside of the triangle 0,1,2 *)
Theorem c19_wrong_side_refuted : exists lnk ord, (forall c bs, Permutation (ord c bs) bs) /\
  let x := bake_loop lnk ord [(0, 1); (1, 2); (2, 0)] [0; 2; 1] in
  face_of (fc_map x) (0, 2) <> Some (-1) /\ face_of (fc_map x) (0, 1) = Some (-1).
Proof.
  exists ex_lnk, (angle_ord ex_V). split; [apply angle_ord_ok|]. vm_compute. split; [discriminate|auto].
Qed.
(** the exact behaviour of the loop version *)
Theorem c19_loop_removal_partial : forall lnk ord, (forall a bs, Permutation (ord a bs) bs) -> forall edges loop, simple_edges edges -> loop <> [] ->
  let x := bake_loop lnk ord edges loop in
  forall e, half_edge edges e -> (face_of (fc_map x) e = Some (-1) <->
    exists i, (i < length loop)%nat /\ let r := (Z.of_nat i, Z.of_nat ((i + 1) mod length loop)) in
      half_edge edges r /\ reach (inc (fc_deg x)) e r).
Proof.
  intros lnk ord OP edges loop SE Hne x e He. unfold x. rewrite bake_loop_eq by auto.
  destruct (ids_ok lnk ord OP edges (position_edges loop) SE) as (k & _ & _ & _ & _ & I & _). rewrite (I e He). split.
  - intros (r & Hr & H). unfold position_edges in Hr. apply in_map_iff in Hr as (i & <- & Hi). apply in_seq in Hi. exists i. split; [lia|exact H].
  - intros (i & Hi & H). exists (Z.of_nat i, Z.of_nat ((i + 1) mod length loop)). split; auto. unfold position_edges.
    apply in_map_iff. exists i. split; auto. apply in_seq. lia.
Qed.
(** the single-edge version does what it says: exactly the loops through a marked half-edge are outside *)
Theorem c19_edge_removal_partial : forall lnk ord, (forall a bs, Permutation (ord a bs) bs) -> forall edges rm, simple_edges edges ->
  let x := bake_simple lnk ord edges rm in
  forall e, half_edge edges e -> (face_of (fc_map x) e = Some (-1) <->
    exists r, In r rm /\ half_edge edges r /\ reach (inc (fc_deg x)) e r).
Proof. intros lnk ord OP edges rm SE x. destruct (ids_ok lnk ord OP edges rm SE) as (k & _ & _ & _ & _ & I & _). exact I. Qed.

(** C23 *)
Theorem c23_same_root_iff_connected : forall lnk ops, let d := ds_run lnk ops in
  (forall x, (exists r, ds_root d x = Some r) <-> added ops x) /\
  (forall x r, ds_root d x = Some r -> added ops r /\ ds_root d r = Some r) /\
  (forall x y, added ops x -> added ops y -> (ds_root d x = ds_root d y <-> connected (joined ops) x y)) /\
  (forall r, In r (ds_roots d) <-> ds_root d r = Some r) /\ NoDup (ds_roots d).
Proof.
  intros lnk ops d. destruct (ds_run_inv lnk ops) as [N1 N2 N3 N4 _]. fold d in N1, N2, N3, N4.
  assert (A : forall x, (exists r, ds_root d x = Some r) <-> added ops x) by (intros x; rewrite ds_root_In; apply N2).
  split; auto. split; [|split; [|split]].
  - intros x r H. assert (H' := N3 _ _ H). split; auto. apply A; eauto.
  - intros x y Hx Hy. apply A in Hx as [rx Ex]. apply A in Hy as [ry Ey]. rewrite <- (N4 x y rx ry Ex Ey), Ex, Ey. split; congruence.
  - intros r. apply ds_roots_In; auto.
  - apply ds_roots_NoDup; auto.
Qed.
Example c23_ex : let ops := [OpAdd 5; OpAdd 7; OpAdd 9; OpJoin 5 9; OpAdd 5] in
  ds_root (ds_run ex_lnk ops) 5 = ds_root (ds_run ex_lnk ops) 9 /\ ds_root (ds_run ex_lnk ops) 7 = Some 7 /\ ds_roots (ds_run ex_lnk ops) = [7; 9].
Proof. vm_compute. auto. Qed.

(** C52: the comparator is the counter-clockwise angle order, and loops turn clockwise-next *)
Theorem c52_comparator_is_angle_order : forall a b, nonzero a -> nonzero b -> (comp a b = true <-> ccw_before a b).
Proof. exact comp_ccw. Qed.
Theorem c52_strict_weak_order : forall a b c, nonzero a -> nonzero b -> nonzero c ->
  comp a a = false /\ (comp a b = true -> comp b c = true -> comp a c = true) /\
  (comp a b = false -> comp b c = false -> comp a c = false) /\
  (comp a b = false -> comp b a = false -> same_dir a b).
Proof.
  intros a b c Ha Hb Hc. split; [apply comp_irrefl|]. split; [apply comp_trans; auto|]. split; [apply comp_negtrans; auto|apply comp_same_dir; auto].
Qed.
(** a zero difference (two joined vertices at one position) breaks it *)
Theorem c52_zero_vector_breaks_order : exists a b c, nonzero a /\ nonzero c /\ comp a b = false /\ comp b c = false /\ comp a c = true.
Proof.
  exists (Z2Qc 1, Z2Qc 0), (Z2Qc 0, Z2Qc 0), (Z2Qc 0, Z2Qc 1). split; [intros H; apply (f_equal fst) in H; revert H; vm_compute; discriminate|].
  split; [intros H; apply (f_equal snd) in H; revert H; vm_compute; discriminate|]. vm_compute. auto.
Qed.
Theorem c52_next_is_clockwise_neighbour : forall lnk V ord, (forall a bs, Permutation (ord a bs) bs) ->
  (forall a bs, (forall b, In b bs -> nonzero (diff V a b)) -> sorts_by (fun i j => comp (diff V a i) (diff V a j)) bs (ord a bs)) ->
  forall edges rm,
  (forall a b, half_edge edges (a, b) -> V a <> V b) ->
  (forall a b c, half_edge edges (a, b) -> half_edge edges (a, c) -> b <> c -> ~ same_dir (diff V a b) (diff V a c)) ->
  forall b a c, inc (fc_deg (bake_simple lnk ord edges rm)) (b, a) = Some (a, c) ->
  half_edge edges (a, c) /\ forall z, half_edge edges (a, z) -> ~ ccw_between (diff V a c) (diff V a z) (diff V a b).
Proof. exact next_clockwise. Qed.
Example c52_ex : (forall a bs, (forall b, In b bs -> nonzero (diff ex_V a b)) ->
    sorts_by (fun i j => comp (diff ex_V a i) (diff ex_V a j)) bs (angle_ord ex_V a bs)) /\
  inc (fc_deg (bake_simple ex_lnk (angle_ord ex_V) ex_edges [])) (2, 1) = Some (1, 4) /\
  comp (diff ex_V 1 0) (diff ex_V 1 4) = true /\ comp (diff ex_V 1 4) (diff ex_V 1 2) = true.
Proof. split; [apply angle_ord_ok|]. vm_compute; auto. Qed.
Print Assumptions c18_faces_are_the_loops.
Print Assumptions c52_next_is_clockwise_neighbour.
