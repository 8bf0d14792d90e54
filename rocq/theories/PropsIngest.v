(** C89: the grid-space vertices the generator makes of the input vertices (generator.hpp:101-110, generator_impl.hpp:45-85). *)
From Verif Require Import Base Num CoordMask Vertex VertexSpec VertexProofs ThresholdProofs PropsVertex Deform PropsDeform.
Set Implicit Arguments. Unset Strict Implicit.
Local Open Scope Qc_scope.

(** a grid of dimension D: D origins and D spacings, all positive *)
Definition grid_of_dim (D : nat) (g : grid) : Prop := length (gr_origin g) = D /\ length (gr_dx g) = D /\ Forall (fun h => 0 < h) (gr_dx g).
(** the plane z of axis i *)
Definition plane (g : grid) (i : nat) (z : Z) : Qc := nth i (gr_origin g) 0 + Z2Qc z * nth i (gr_dx g) 0.
Lemma nth_zip (f : Qc -> Qc -> Qc) a b i : length a = length b -> (i < length a)%nat -> nth i (zipwith f a b) 0 = f (nth i a 0) (nth i b 0).
Proof. revert b i. induction a as [|x a IH]; intros [|y b] [|i] H L; cbn in *; try lia; auto. apply IH; lia. Qed.
Lemma zip_length (f : Qc -> Qc -> Qc) a b : length a = length b -> length (zipwith f a b) = length a.
Proof. revert b. induction a as [|x a IH]; intros [|y b] H; cbn in *; try lia. rewrite IH; lia. Qed.
Lemma nth_eq (a b : list Qc) : length a = length b -> (forall i, (i < length a)%nat -> nth i a 0 = nth i b 0) -> a = b.
Proof. intros L H. apply (nth_ext _ _ 0 0); auto. Qed.
Lemma dx_pos D g i : grid_of_dim D g -> (i < D)%nat -> 0 < nth i (gr_dx g) 0.
Proof. intros (_ & L & F) Hi. rewrite Forall_forall in F. apply F. apply nth_In. lia. Qed.
Lemma pos_ne h : 0 < h -> h <> 0. Proof. intros H ->. revert H. vm_compute. discriminate. Qed.
Definition local_of (g : grid) (p : pt) : list Qc := zipwith Qcminus (zipwith Qcdiv p (gr_dx g)) (zipwith Qcdiv (gr_origin g) (gr_dx g)).
Lemma local_length D g p : grid_of_dim D g -> length p = D -> length (local_of g p) = D.
Proof. intros (A & B & _) L. unfold local_of. rewrite !zip_length; auto; rewrite ?zip_length; lia. Qed.
Lemma local_nth D g p i : grid_of_dim D g -> length p = D -> (i < D)%nat -> nth i (local_of g p) 0 = (nth i p 0 - nth i (gr_origin g) 0) / nth i (gr_dx g) 0.
Proof.
  intros G L Hi. assert (H0 := pos_ne (dx_pos G Hi)). destruct G as (A & B & _). unfold local_of. rewrite !nth_zip; rewrite ?zip_length; try lia. field. auto.
Qed.
Lemma world_nth D g v i : grid_of_dim D g -> v_wf D v -> (i < D)%nat -> nth i (get_world_vertex g v) 0 = nth i (gr_origin g) 0 + nth i (pos v) 0 * nth i (gr_dx g) 0.
Proof. intros (A & B & _) W Hi. assert (L := pos_length D v W). unfold get_world_vertex. rewrite !nth_zip; rewrite ?zip_length; try lia. auto. Qed.
Lemma world_length D g v : grid_of_dim D g -> v_wf D v -> length (get_world_vertex g v) = D.
Proof. intros (A & B & _) W. assert (L := pos_length D v W). unfold get_world_vertex. rewrite !zip_length; auto; rewrite ?zip_length; lia. Qed.
(** without snapping the position is kept exactly *)
Theorem c89_roundtrip D g p : grid_of_dim D g -> length p = D -> get_world_vertex g (get_vertex g p) = p.
Proof.
  intros G L. assert (LL := local_length G L). assert (W : v_wf D (get_vertex g p)) by (rewrite <- LL; apply from_vertex_wf).
  apply nth_eq; [rewrite (world_length G W); auto|]. intros i Hi. rewrite (world_length G W) in Hi. rewrite (world_nth G W Hi). unfold get_vertex. rewrite from_vertex_pos. fold (local_of g p).
  rewrite (local_nth G L Hi). field. exact (pos_ne (dx_pos G Hi)).
Qed.
(** and a normalised grid-space vertex is found again from its world position *)
Theorem c89_back D g v : grid_of_dim D g -> v_wf D v -> normalised v -> v_coord (get_vertex g (get_world_vertex g v)) = v_coord v /\ v_quot (get_vertex g (get_world_vertex g v)) = v_quot v.
Proof.
  intros G W N. assert (LW := world_length G W). assert (LL := local_length G LW). apply (pos_inj D); auto; [unfold get_vertex; fold (local_of g (get_world_vertex g v)); rewrite <- LL; apply from_vertex_wf|apply from_vertex_normalised|].
  unfold get_vertex. rewrite from_vertex_pos. fold (local_of g (get_world_vertex g v)). apply nth_eq; [rewrite LL, (pos_length D v W); auto|]. intros i Hi. rewrite LL in Hi.
  rewrite (local_nth G LW Hi), (world_nth G W Hi). field. exact (pos_ne (dx_pos G Hi)).
Qed.
(** with snapping: along every axis the vertex stays where it was and is then at least t grid cells away from every grid plane, or it moves by less than 2t
    cells onto a plane and is marked as lying on it *)
Theorem c89_snap D g thr p i : grid_of_dim D g -> length p = D -> 0 <= mythresh g (Some thr) -> mythresh g (Some thr) <= qhalf -> (i < D)%nat ->
  let v := convert g (Some thr) p in let h := nth i (gr_dx g) 0 in let t := mythresh g (Some thr) in
  (nth i (get_world_vertex g v) 0 = nth i p 0 /\ forall z, t * h <= qabs (nth i p 0 - plane g i z)) \/
  (nth i (v_clamped v) false = true /\ exists z, nth i (get_world_vertex g v) 0 = plane g i z /\ qabs (nth i p 0 - plane g i z) < (t + t) * h).
Proof.
  intros G L T0 T1 Hi v h t. assert (LL := local_length G L). assert (W : v_wf D (get_vertex g p)) by (unfold get_vertex; rewrite <- LL; apply from_vertex_wf).
  assert (N : normalised (get_vertex g p)) by apply from_vertex_normalised. assert (H0 : 0 < h) by exact (dx_pos G Hi). assert (HN := pos_ne H0).
  destruct (apply_thresholding_axis _ _ _ _ W N T0 T1 Hi) as (x & x' & q' & b & b' & Ex & Ex' & _ & _ & _ & _ & Eb' & C). fold t in Ex', Eb', C. change (apply_thresholding t (get_vertex g p)) with v in Ex', Eb'.
  assert (W' : v_wf D v) by (unfold v, convert; apply apply_thresholding_wf; auto).
  assert (PX : nth i p 0 = nth i (gr_origin g) 0 + x * h).
  { unfold get_vertex in Ex. rewrite from_vertex_pos in Ex. fold (local_of g p) in Ex. apply nth_error_nth with (d := 0) in Ex. rewrite (local_nth G L Hi) in Ex. rewrite <- Ex. fold h. field. auto. }
  assert (PX' : nth i (get_world_vertex g v) 0 = nth i (gr_origin g) 0 + x' * h) by (rewrite (world_nth G W' Hi); rewrite (nth_error_nth _ _ 0 Ex'); reflexivity).
  assert (AB : forall z, qabs (nth i p 0 - plane g i z) = qabs (x - Z2Qc z) * h).
  { intros z. rewrite PX. unfold plane. fold h. replace (nth i (gr_origin g) 0 + x * h - (nth i (gr_origin g) 0 + Z2Qc z * h)) with ((x - Z2Qc z) * h) by ring. generalize (x - Z2Qc z). intros y.
    destruct (qabs_cases y) as [[Y ->]|[Y ->]], (qabs_cases (y * h)) as [[Z ->]|[Z ->]]; try ring; exfalso; revert Y Z H0; clear; unfold Qcle, Qclt; q_push; intros; nra. }
  destruct C as [(-> & _ & F)|(-> & z & -> & F)].
  - left. split; [congruence|]. intros z. rewrite AB. specialize (F z). apply Qcmult_le_compat_r; auto. apply Qclt_le_weak. auto.
  - right. split; [apply nth_error_nth; auto|]. exists z. split; [exact PX'|]. rewrite AB. apply Qcmult_lt_compat_r; auto.
Qed.
(** the default threshold is 2e-10 times the largest number of grid vertices along an axis *)
Theorem c89_default g thr n : thr < 0 -> fold_right Z.max 0%Z (gr_shape g) = n -> (1 <= n <= 1000000000)%Z ->
  mythresh g (Some thr) = Z2Qc n * Q2Qc (2 # 10000000000) /\ 0 <= mythresh g (Some thr) /\ mythresh g (Some thr) <= qhalf.
Proof.
  intros T E N. unfold mythresh. rewrite (proj2 (qltb_lt _ _) T). unfold default_threshold. rewrite E. replace (Z.max 1 n) with n by lia. rewrite Z2Qc_mult.
  assert (N0 : 0 <= Z2Qc n) by (change 0 with (Z2Qc 0); apply Z2Qc_le; lia). assert (N1 : Z2Qc n <= Z2Qc 1000000000) by (apply Z2Qc_le; lia).
  assert (EE : Z2Qc 2 * Z2Qc n * Q2Qc (1 # 10000000000) = Z2Qc n * Q2Qc (2 # 10000000000)).
  { replace (Q2Qc (2 # 10000000000)) with (Z2Qc 2 * Q2Qc (1 # 10000000000)) by (apply Qc_is_canon; reflexivity). ring. }
  rewrite EE. split; auto. split.
  - apply Qcle_trans with (0 * Q2Qc (2 # 10000000000)); [vm_compute; discriminate|]. apply Qcmult_le_compat_r; auto. vm_compute. discriminate.
  - apply Qcle_trans with (Z2Qc 1000000000 * Q2Qc (2 # 10000000000)); [apply Qcmult_le_compat_r; auto; vm_compute; discriminate|]. vm_compute. discriminate.
Qed.
(** update_vertices(V, t) replaces the vertices one for one, in order *)
Theorem c89_update i V thr k p : length (in_mV i) = length V -> nth_error V k = Some p ->
  length (in_mV (gen_update_vertices i V thr)) = length V /\ nth_error (in_mV (gen_update_vertices i V thr)) k = Some (convert (in_grid i) thr p).
Proof.
  intros L E. unfold gen_update_vertices. cbn [in_mV]. rewrite (@skipn_same _ _ V (in_mV i) L), app_nil_r, map_length. split; auto. rewrite nth_error_map, E. auto.
Qed.
Example c89_example : let g := mkGrid [1; 1; 1] [Z2Qc 2; Z2Qc 2; Z2Qc 2] [5; 5; 5]%Z in grid_of_dim 3 g /\ mythresh g (Some (Q2Qc (1 # 10))) <= qhalf /\
  map this (get_world_vertex g (convert g (Some (Q2Qc (1 # 10))) [Q2Qc (31 # 10); Z2Qc 4; Z2Qc 2])) = map this [Z2Qc 3; Z2Qc 4; Z2Qc 2].
Proof. split; [|split; [vm_compute; discriminate|vm_compute; reflexivity]]. split; [reflexivity|split; [reflexivity|]]. repeat constructor. Qed.
