(** C139, C140, C142: the matrix, the right-hand side and the repaired systems of the pressure example. *)
From Verif Require GridEdgesProofs PropsAdaptive2.
From Verif Require Import Base Num CoordMask Vertex VertexProofs Grid SmallestEdge AdaptiveGrid AdaptiveSpec Mesh Sparse Mesh2 Boundary3 Volume Interp Queries3 Hodge3 Laplace PropsMesh2 PropsBoundary3 PropsHodge3 PropsTriang PropsPcg.
Set Implicit Arguments.
Local Open Scope Qc_scope.

(** ** specification *)
(** the Hodge weight of face f, and 0 for a face cut from the input surface *)
Definition open_weight (m : mesh3) (h2 : list Qc) (f : Z) : Qc :=
  match nth_error (m_faces m) (Z.to_nat f) with
  | Some fc => match cf_id fc with MeshFace _ => 0 | AxialFace _ _ => nth (Z.to_nat f) h2 0 end
  | None => nth (Z.to_nat f) h2 0 end.

(** ** sparse products *)
Lemma mulv_mat_mul A B x i : mulv (flat_map (fun '(r, c, v) => flat_map (fun '(r', c', v') => if (c =? r')%Z then [(r, c', v * v')] else []) B) A) x i = mulv A (mulv B x) i.
Proof.
  rewrite mulv_flat. apply lsum_ext. intros [[r c] v] _. unfold t_row, t_col, t_val. cbn [fst snd]. rewrite mulv_flat. unfold mulv. destruct (Z.eqb_spec r i) as [->|N].
  - rewrite <- lsum_scale. apply lsum_ext. intros [[r' c'] v'] _. unfold t_row, t_col, t_val. cbn [fst snd]. rewrite (Z.eqb_sym r' c). destruct (c =? r')%Z; cbn [lsum fst snd]; [rewrite Z.eqb_refl|]; ring.
  - apply lsum_0. intros [[r' c'] v'] _. destruct (c =? r')%Z; cbn [lsum]; auto. unfold t_row, t_col, t_val. cbn [fst snd]. rewrite (proj2 (Z.eqb_neq r i)) by auto. ring.
Qed.
Lemma mulTv_coeff n ts y c : Forall (fun t => 0 <= t_row t < n)%Z ts -> mulTv ts y c = lsum (fun r => coeff ts r c * y r) (zseq n).
Proof.
  intros F. transitivity (mulv (map (fun '(r, c, v) => (c, r, v)) ts) y c).
  - unfold mulTv, mulv. rewrite lsum_map. apply lsum_ext. intros [[a b] v] _. auto.
  - rewrite (@mulv_coeff n); [|apply Forall_forall; intros t I; apply in_map_iff in I as ([[a b] v] & <- & I); rewrite Forall_forall in F; apply (F _ I)].
    apply lsum_ext. intros r _. f_equal. unfold coeff. rewrite lsum_map. apply lsum_ext. intros [[a b] v] _. unfold t_row, t_col, t_val. cbn [fst snd]. rewrite andb_comm. auto.
Qed.
Lemma mulv_unit n ts r c : Forall (fun t => 0 <= t_col t < n)%Z ts -> (0 <= c < n)%Z -> mulv ts (fun j => if (j =? c)%Z then 1 else 0) r = coeff ts r c.
Proof.
  intros F C. rewrite (@mulv_coeff n) by auto. rewrite (@lsum_single _ _ _ c); [rewrite Z.eqb_refl; ring|apply zseq_nodup|apply zseq_in; auto|]. intros a _ N. rewrite (proj2 (Z.eqb_neq a c)) by auto. ring.
Qed.
(** a sparse matrix with symmetric coefficients is a symmetric map *)
Lemma mulv_ext ts x y r : (forall i, x i = y i) -> mulv ts x r = mulv ts y r. Proof. intros H. apply lsum_ext. intros t _. rewrite H. auto. Qed.
Lemma mulv_lin ts k x y r : mulv ts (fun j => x j + k * y j) r = mulv ts x r + k * mulv ts y r.
Proof. unfold mulv. rewrite <- lsum_scale, <- lsum_add. apply lsum_ext. intros t _. destruct (_ =? _)%Z; ring. Qed.
Lemma mulv_symmetric n ts : Forall (fun t => 0 <= t_col t < n)%Z ts -> (forall r c, (0 <= r < n)%Z -> (0 <= c < n)%Z -> coeff ts r c = coeff ts c r) -> symmetric (zseq n) (mulv ts).
Proof.
  intros F S. split; [intros; apply mulv_ext; auto|intros; apply mulv_lin|]. intros x y. unfold inner.
  rewrite (@lsum_ext _ _ (fun i => lsum (fun j => coeff ts i j * x j * y i) (zseq n))); [|intros i _; rewrite (@mulv_coeff n) by auto; rewrite Qcmult_comm, <- lsum_scale; apply lsum_ext; intros; ring].
  rewrite lsum_swap. apply lsum_ext. intros j J. rewrite (@mulv_coeff n) by auto. rewrite <- lsum_scale. apply lsum_ext. intros i I. apply zseq_in in J. apply zseq_in in I. rewrite S by auto. ring.
Qed.

Lemma nth_repeat1 n k : (k < n)%nat -> nth k (repeat 1 n) 0 = 1.
Proof. intros H. rewrite (nth_indep _ 0 1) by (rewrite repeat_length; auto). apply nth_repeat. Qed.
Lemma mask_nth m f : (0 <= f < face_size m)%Z -> nth (Z.to_nat f) (map Z2Qc (mesh_face_mask m)) 0 = match nth_error (m_faces m) (Z.to_nat f) with Some fc => match cf_id fc with MeshFace _ => 0 | AxialFace _ _ => 1 end | None => 1 end.
Proof.
  intros R. apply nth_error_nth. rewrite nth_error_map. unfold mesh_face_mask. destruct (nth_error (m_faces m) (Z.to_nat f)) as [fc|] eqn:E.
  - rewrite nth_error_app1 by (rewrite map_length; apply nth_error_Some; congruence). rewrite nth_error_map, E. cbn [option_map]. destruct (cf_id fc); reflexivity.
  - apply nth_error_None in E. rewrite nth_error_app2 by (rewrite map_length; auto). rewrite map_length, nth_error_repeat. unfold face_size, num_cut_faces in R. destruct (Nat.ltb_spec (Z.to_nat f - length (m_faces m)) (length (m_afaces m))); [reflexivity|lia].
Qed.
Section Matrix.
  Variables (m : mesh3) (cubes0 : acells) (h2 : list Qc).
  Hypothesis OK : generated m cubes0.
  Hypothesis LEN : Z.of_nat (length h2) = face_size m.
  Lemma laplacian_parts : exists B L, boundary3 m false = Some B /\ example_laplacian m h2 = Some L /\ mat_rows L = cell_size m /\ mat_cols L = cell_size m /\
    Forall (fun t => 0 <= t_row t < face_size m)%Z B /\ Forall (fun t => 0 <= t_col t < cell_size m)%Z B /\ Forall (fun t => 0 <= t_col t < cell_size m)%Z (mat_entries L) /\ Forall (fun t => 0 <= t_row t < cell_size m)%Z (mat_entries L) /\
    forall x c, mulv (mat_entries L) x c = lap B (open_weight m h2) x c.
  Proof.
    destruct (c73_coefficients m cubes0 false OK) as (B & HB & R & _).
    assert (RR : Forall (fun t => 0 <= t_row t < face_size m)%Z B) by (apply Forall_forall; intros [[a b] v] I; apply (R _ _ _ I)).
    assert (RC : Forall (fun t => 0 <= t_col t < cell_size m)%Z B) by (apply Forall_forall; intros [[a b] v] I; apply (R _ _ _ I)).
    unfold example_laplacian, open_boundary, boundary_matrix. rewrite HB. cbn [option_map]. unfold diag_mat. cbn [mat_rows mat_cols mat_entries]. rewrite map_length. destruct (c51_mesh_face_mask m) as [ML _]. rewrite ML, Z.eqb_refl. unfold mat_diag at 1. cbn [mat_rows mat_cols mat_entries].
    assert (NC : (0 <= cell_size m)%Z) by (unfold cell_size, num_cut_cells; lia). rewrite repeat_length, Z2Nat.id, Z.eqb_refl by auto. unfold mat_diag, transpose. cbn [mat_rows mat_cols mat_entries]. rewrite LEN, Z.eqb_refl. unfold mat_mul. cbn [mat_rows mat_cols mat_entries]. rewrite Z.eqb_refl.
    eexists _, _. split; [reflexivity|]. split; [reflexivity|]. cbn [mat_rows mat_cols mat_entries]. split; auto. split; auto. split; auto. split; auto.
    split; [|split].
    - apply Forall_forall. intros t I. apply in_flat_map in I as ([[a b] v] & _ & I). apply in_flat_map in I as ([[a' b'] v'] & I & J). destruct (b =? a')%Z; [|destruct J]. destruct J as [<-|[]]. rewrite map_map in I. apply in_map_iff in I as ([[a2 b2] v2] & E & I). inversion E; subst. rewrite Forall_forall in RC. apply (RC _ I).
    - apply Forall_forall. intros t I. apply in_flat_map in I as ([[a b] v] & I & J). apply in_flat_map in J as ([[a' b'] v'] & _ & J). destruct (b =? a')%Z; [|destruct J]. destruct J as [<-|[]]. rewrite !map_map in I. apply in_map_iff in I as ([[a2 b2] v2] & E & I). inversion E; subst. rewrite Forall_forall in RC. apply (RC _ I).
    - intros x c. rewrite mulv_mat_mul. unfold lap, mulTv. unfold mulv at 1. rewrite !map_map, lsum_map. apply lsum_ext. intros [[r k] v] I. unfold t_row, t_col, t_val. cbn [fst snd]. destruct (Z.eqb_spec k c) as [->|N]; auto.
      assert (IR := proj1 (Forall_forall _ _) RR _ I). assert (IC := proj1 (Forall_forall _ _) RC _ I). unfold t_row, t_col in IR, IC. cbn [fst snd] in IR, IC. rewrite nth_repeat1 by lia.
      set (mk := nth (Z.to_nat r) (map Z2Qc (mesh_face_mask m)) 0). assert (MV : mulv (map (fun x0 => let '(r0, c0, v0) := let '(r1, c1, v1) := x0 in (r1, c1, nth (Z.to_nat r1) (map Z2Qc (mesh_face_mask m)) 0 * v1) in (r0, c0, v0 * nth (Z.to_nat c0) (repeat 1 (Z.to_nat (cell_size m))) 0)) B) x r = mk * mulv B x r).
      { unfold mulv. rewrite lsum_map, <- lsum_scale. apply lsum_ext. intros [[r' c'] v'] I'. unfold t_row, t_col, t_val. cbn [fst snd]. destruct (Z.eqb_spec r' r) as [->|N']; [|ring]. assert (IC' := proj1 (Forall_forall _ _) RC _ I'). unfold t_col in IC'. cbn [fst snd] in IC'. rewrite nth_repeat1 by lia. fold mk. ring. }
      rewrite MV. assert (W : open_weight m h2 r = mk * mk * nth (Z.to_nat r) h2 0). { unfold mk, open_weight. rewrite mask_nth by auto. destruct (nth_error (m_faces m) (Z.to_nat r)) as [fc|]; [destruct (cf_id fc)|]; ring. }
      rewrite W. ring.
  Qed.
  (** C139. The matrix is B^T diag(w) B with w the Hodge weights without the faces of the input. *)
  Theorem c139_matrix : exists B L, boundary3 m false = Some B /\ example_laplacian m h2 = Some L /\ mat_rows L = cell_size m /\ mat_cols L = cell_size m /\
    (forall i j, (0 <= i < cell_size m)%Z -> (0 <= j < cell_size m)%Z -> coeff (mat_entries L) i j = lsum (fun f => open_weight m h2 f * (coeff B f i * coeff B f j)) (zseq (face_size m))) /\
    symmetric (zseq (cell_size m)) (mulv (mat_entries L)) /\
    (forall x, inner (zseq (cell_size m)) x (mulv (mat_entries L) x) = lsum (fun f => open_weight m h2 f * (mulv B x f * mulv B x f)) (zseq (face_size m))).
  Proof.
    destruct laplacian_parts as (B & L & HB & HL & R & C & RR & RC & LC & LR & E). exists B, L. do 4 (split; [auto|]).
    assert (EN : forall i j, (0 <= i < cell_size m)%Z -> (0 <= j < cell_size m)%Z -> coeff (mat_entries L) i j = lsum (fun f => open_weight m h2 f * (coeff B f i * coeff B f j)) (zseq (face_size m))).
    { intros i j I J. rewrite <- (@mulv_unit (cell_size m)) by auto. rewrite E. unfold lap. rewrite (@mulTv_coeff (face_size m)) by auto. apply lsum_ext. intros f _. rewrite (@mulv_unit (cell_size m)) by auto. ring. }
    split; [auto|]. split.
    - apply mulv_symmetric; auto. intros i j I J. rewrite !EN by auto. apply lsum_ext. intros; ring.
    - intros x. unfold inner. rewrite (@lsum_ext _ _ (fun c => x c * lap B (open_weight m h2) x c)) by (intros; rewrite E; auto). rewrite (lap_form (open_weight m h2) x x RR RC). apply lsum_ext. intros; ring.
  Qed.
End Matrix.
Lemma lsum_le (A : Type) (f g : A -> Qc) l : (forall a, In a l -> f a <= g a) -> lsum f l <= lsum g l.
Proof. induction l as [|a l IH]; intros H; cbn [lsum]; [apply Qcle_refl|]. apply Qcplus_le_compat; [apply H; cbn; auto|apply IH; intros; apply H; cbn; auto]. Qed.
Lemma lsum_zero_all (A : Type) (f : A -> Qc) l : (forall a, In a l -> 0 <= f a) -> lsum f l = 0 -> forall a, In a l -> f a = 0.
Proof.
  induction l as [|c l IH]; intros F E a []; cbn [lsum] in E; assert (X := @lsum_nonneg _ f l ltac:(intros; apply F; cbn; auto)); assert (Y := F c ltac:(cbn; auto)).
  - subst. apply Qcle_antisym; auto. qc_lra.
  - apply IH; auto; [intros; apply F; cbn; auto|]. apply Qcle_antisym; auto. qc_lra.
Qed.
Lemma square_nonneg (v : Qc) : 0 <= v * v. Proof. unfold Qcle. q_push. nra. Qed.
Lemma weight_nonneg m h2 f : (forall k, 0 <= nth k h2 0) -> 0 <= open_weight m h2 f.
Proof. intros H. unfold open_weight. destruct (nth_error _ _) as [fc|]; [destruct (cf_id fc)|]; auto; apply Qcle_refl. Qed.

(** C139. With nonnegative weights x.Lx >= 0, and L x = 0 exactly when x does not jump across any face that is not of the input and has positive weight (the row of the boundary operator applied to x vanishes there). *)
Theorem c139_kernel m cubes0 h2 : generated m cubes0 -> Z.of_nat (length h2) = face_size m -> (forall k, 0 <= nth k h2 0) -> exists B L, boundary3 m false = Some B /\ example_laplacian m h2 = Some L /\
  semidefinite (zseq (cell_size m)) (mulv (mat_entries L)) /\
  forall x, (forall i, (0 <= i < cell_size m)%Z -> mulv (mat_entries L) x i = 0) <-> (forall f, (0 <= f < face_size m)%Z -> 0 < open_weight m h2 f -> mulv B x f = 0).
Proof.
  intros OK LEN H. destruct (@laplacian_parts m cubes0 h2 OK LEN) as (B & L & HB & HL & R & C & RR & RC & LC & LR & E). exists B, L. do 2 (split; [auto|]). destruct (@c139_matrix m cubes0 h2 OK LEN) as (B' & L' & HB' & HL' & _ & _ & _ & _ & Q). rewrite HB in HB'. rewrite HL in HL'. apply Some_inj in HB', HL'. subst B' L'.
  assert (T : forall x a, 0 <= open_weight m h2 a * (mulv B x a * mulv B x a)). { intros x a. assert (W := weight_nonneg m h2 a H). assert (S := square_nonneg (mulv B x a)). replace 0 with (0 * (mulv B x a * mulv B x a)) by ring. apply Qcmult_le_compat_r; auto. }
  split; [intros x; rewrite Q; apply lsum_nonneg; intros; apply T|]. intros x. split.
  - intros Z f RF W. assert (S : lsum (fun f => open_weight m h2 f * (mulv B x f * mulv B x f)) (zseq (face_size m)) = 0). { rewrite <- Q. unfold inner. apply lsum_0. intros i I. apply zseq_in in I. rewrite Z by auto. ring. }
    apply lsum_zero_all with (a := f) in S; [|intros; apply T|apply zseq_in; auto]. apply Qcmult_integral in S as [S|S]; [rewrite S in W; discriminate|]. apply Qcmult_integral in S as [S|S]; auto.
  - intros Z i _. rewrite E. unfold lap, mulTv. apply lsum_0. intros t I. destruct (_ =? i)%Z; auto. rewrite Forall_forall in RR. assert (RF := RR t I). assert (W := weight_nonneg m h2 (t_row t) H). apply Qcle_lt_or_eq in W as [W|W]; [rewrite Z by auto|rewrite <- W]; ring.
Qed.
(** in particular x takes the same value on the two cells of such a face *)
Theorem c139_no_jump m cubes0 h2 x f i j s : generated m cubes0 -> Z.of_nat (length h2) = face_size m -> (forall k, 0 <= nth k h2 0) -> forall B L, boundary3 m false = Some B -> example_laplacian m h2 = Some L ->
  (forall c, (0 <= c < cell_size m)%Z -> mulv (mat_entries L) x c = 0) -> (0 <= f < face_size m)%Z -> 0 < open_weight m h2 f -> (0 <= i < cell_size m)%Z -> (0 <= j < cell_size m)%Z -> i <> j ->
  coeff B f i = s -> coeff B f j = - s -> s <> 0 -> (forall c, c <> i -> c <> j -> coeff B f c = 0) -> x i = x j.
Proof.
  intros OK LEN H B L HB HL Z RF W RI RJ N CI CJ NS CO. destruct (@c139_kernel m cubes0 h2 OK LEN H) as (B' & L' & HB' & HL' & _ & K). rewrite HB in HB'. rewrite HL in HL'. apply Some_inj in HB', HL'. subst B' L'.
  assert (J := proj1 (K x) Z f RF W). destruct (@laplacian_parts m cubes0 h2 OK LEN) as (B' & _ & HB' & _ & _ & _ & _ & RC & _). rewrite HB in HB'. apply Some_inj in HB'. subst B'.
  rewrite (@mulv_coeff (cell_size m)) in J by auto. assert (E : lsum (fun c => coeff B f c * x c) (zseq (cell_size m)) = s * x i + - s * x j).
  { rewrite (@lsum_ext _ _ (fun c => (if (c =? i)%Z then s * x i else 0) + (if (c =? j)%Z then - s * x j else 0))).
    - rewrite lsum_add. rewrite (@lsum_single _ _ _ i); [|apply zseq_nodup|apply zseq_in; auto|intros a _ NA; rewrite (proj2 (Z.eqb_neq a i)) by auto; auto]. rewrite (@lsum_single _ _ _ j); [|apply zseq_nodup|apply zseq_in; auto|intros a _ NA; rewrite (proj2 (Z.eqb_neq a j)) by auto; auto]. rewrite !Z.eqb_refl. auto.
    - intros c _. destruct (Z.eqb_spec c i) as [EI|NI]; destruct (Z.eqb_spec c j) as [EJ|NJ]; [congruence|rewrite EI, CI; ring|rewrite EJ, CJ; ring|rewrite CO by auto; ring]. }
  rewrite E in J. assert (P : s * (x i - x j) = 0) by (rewrite <- J; ring). apply Qcmult_integral in P as [P|P]; [contradiction|]. replace (x i) with (x i - x j + x j) by ring. rewrite P. ring.
Qed.
(** C139. Constants are in the kernel if every inside face has oppositely oriented sides. *)
Theorem c139_constants m cubes0 h2 k : generated m cubes0 -> Z.of_nat (length h2) = face_size m -> balanced3 m -> forall L, example_laplacian m h2 = Some L -> forall c, mulv (mat_entries L) (fun _ => k) c = 0.
Proof.
  intros OK LEN BA L HL c. destruct (@laplacian_parts m cubes0 h2 OK LEN) as (B & L' & HB & HL' & _ & _ & _ & _ & _ & _ & E). rewrite HL in HL'. apply Some_inj in HL'. subst L'. rewrite E. apply (c73_laplacian m cubes0 B (open_weight m h2) OK HB). auto.
Qed.

(** ** C140: the right-hand side *)
(** d is the axis of the largest component, the first of several *)
Definition main_axis (dir : q3) (d : nat) : Prop := (d < 3)%nat /\ forall e, (e < 3)%nat -> q3_at dir e <= q3_at dir d /\ ((e < d)%nat -> q3_at dir e < q3_at dir d).
Lemma max_coeff_spec dir : main_axis dir (max_coeff3 dir).
Proof.
  destruct dir as [[x y] z]. unfold max_coeff3. destruct (qltb x y) eqn:E1, (qltb y z) eqn:E2, (qltb x z) eqn:E3; repeat match goal with H : qltb _ _ = true |- _ => apply qltb_lt in H | H : qltb _ _ = false |- _ => apply Num.qltb_ge in H end; (split; [lia|]); intros [|[|[|e]]] HE; try lia; cbn [q3_at fst snd]; split; intros; try lia; qc_lra.
Qed.
(** which value a cell of corner coordinate x gets *)
Definition side_value (n x : Z) : Qc := if (x =? 0)%Z then 1 else if (x =? n - 1)%Z then - (1) else 0.
Lemma put_q_some l i v : (0 <= i < Z.of_nat (length l))%Z -> put_q l i v = Some (zput l (Z.to_nat i) v).
Proof. intros H. unfold put_q. rewrite (proj2 (Z.leb_le _ _)), (proj2 (Z.ltb_lt _ _)) by lia. auto. Qed.
Definition fill (n : Z) (d : nat) (cells : list (Z * acell)) (R : list Qc) : option (list Qc) :=
  fold_left (fun acc '(i, b) => match acc with
    | None => None
    | Some R => let x := get3 (fst b : c3) d in if (x =? 0)%Z then put_q R i 1 else if (x =? n - 1)%Z then put_q R i (- (1)) else Some R
    end) cells (Some R).
Lemma fill_spec n d cells : forall i0 R, (0 <= i0)%Z -> (i0 + Z.of_nat (length cells) <= Z.of_nat (length R))%Z -> (forall k, (Z.to_nat i0 <= k)%nat -> nth k R 0 = 0) ->
  exists R', fill n d (renumber i0 cells) R = Some R' /\ length R' = length R /\ (forall k, (k < Z.to_nat i0)%nat -> nth k R' 0 = nth k R 0) /\
    (forall k i b, nth_error cells k = Some (i, b) -> nth (Z.to_nat i0 + k) R' 0 = side_value n (get3 (fst b) d)).
Proof.
  induction cells as [|[i b] cells IH]; intros i0 R P L Z.
  - exists R. split; [reflexivity|]. split; auto. split; auto. intros [|k] ? ? H; discriminate.
  - rewrite renumber_cons. cbn [length] in L. set (v := side_value n (get3 (fst b) d)). set (R1 := zput R (Z.to_nat i0) v).
    assert (L1 : length R1 = length R) by (unfold R1; clear; generalize (Z.to_nat i0) as q; induction R as [|a l IHl]; intros [|q]; cbn; auto).
    assert (NE : forall k, nth k R1 0 = if (k =? Z.to_nat i0)%nat then v else nth k R 0).
    { intros k. unfold R1. assert (X := @nth_error_zput Qc R (Z.to_nat i0) v k ltac:(lia)). destruct (k =? Z.to_nat i0)%nat; [apply nth_error_nth; auto|]. destruct (nth_error R k) as [a|] eqn:E; [rewrite (nth_error_nth _ _ _ X); symmetry; apply nth_error_nth; auto|]. apply nth_error_None in X, E. rewrite !nth_overflow; auto. }
    assert (ST : exists R2, fill n d ((i0, b) :: renumber (i0 + 1) cells) R = fill n d (renumber (i0 + 1) cells) R2 /\ length R2 = length R /\ forall k, nth k R2 0 = nth k R1 0).
    { unfold fill at 1. cbn [fold_left]. cbv zeta. unfold v, side_value in *. destruct (_ =? 0)%Z.
      - rewrite put_q_some by lia. exists R1. auto.
      - destruct (_ =? n - 1)%Z; [rewrite put_q_some by lia; exists R1; auto|]. exists R. split; [reflexivity|]. split; auto. intros k. rewrite NE. destruct (Nat.eqb_spec k (Z.to_nat i0)) as [->|]; auto. }
    destruct ST as (R2 & E2 & L2 & N2). rewrite E2. destruct (IH (i0 + 1)%Z R2) as (R' & E & L' & A & B); [lia|lia|intros k K; rewrite N2, NE, (proj2 (Nat.eqb_neq _ _)) by lia; apply Z; lia|].
    exists R'. split; auto. split; [lia|]. split.
    + intros k K. rewrite A, N2, NE, (proj2 (Nat.eqb_neq _ _)) by lia. auto.
    + intros [|k] j c H; cbn [nth_error] in H.
      * apply Some_inj, pair_equal_spec in H as [_ <-]. rewrite Nat.add_0_r, A, N2, NE, Nat.eqb_refl by lia. auto.
      * rewrite <- (B k j c H). f_equal. lia.
Qed.
(** C140. The right-hand side is 0 on cut cells, 1 on exterior cells whose corner has coordinate 0 along the main axis, -1 on those whose corner has the last coordinate, 0 elsewhere. *)
Theorem c140_values m cubes0 dir : generated m cubes0 -> exists D d, example_divergence m dir = Some D /\ main_axis dir d /\ Z.of_nat (length D) = cell_size m /\
  (forall i, (0 <= i < num_cut_cells m)%Z -> nth (Z.to_nat i) D 0 = 0) /\
  (forall k i b, nth_error cubes0 k = Some (i, b) -> nth (Z.to_nat (num_cut_cells m + Z.of_nat k)) D 0 =
     if (get3 (fst b) d =? 0)%Z then 1 else if (get3 (fst b) d =? get3 (cells_per_axis (m_vshape m)) d - 1)%Z then - (1) else 0).
Proof.
  intros OK. set (d := max_coeff3 dir). assert (NC : (0 <= num_cut_cells m)%Z) by (unfold num_cut_cells; lia).
  assert (Z0 : forall k n, nth k (repeat 0 n) 0 = 0) by (intros k n; revert k; induction n; intros [|k]; cbn; auto).
  destruct (fill_spec (get3 (cshape m) d) d cubes0 (repeat 0 (Z.to_nat (cell_size m))) NC) as (D & E & L & A & B).
  - rewrite repeat_length. unfold cell_size. rewrite (g_cubes m cubes0 OK), renumber_len. lia.
  - intros; apply Z0.
  - rewrite repeat_length in L. exists D, d. split; [unfold example_divergence; cbv zeta; rewrite (g_cubes m cubes0 OK); exact E|]. split; [apply max_coeff_spec|]. split; [unfold cell_size in *; lia|]. split.
    + intros i I. rewrite A by lia. apply Z0.
    + intros k i b H. assert (X := B k i b H). unfold side_value in X. change (cells_per_axis (m_vshape m)) with (cshape m). rewrite <- X. f_equal. lia.
Qed.
(** sums over the cells *)
Lemma lsum_zseq_split a b g : (0 <= a)%Z -> (0 <= b)%Z -> lsum g (zseq (a + b)) = lsum g (zseq a) + lsum (fun k => g (a + k)%Z) (zseq b).
Proof.
  intros A B. rewrite <- (@lsum_map _ _ g (fun k => (a + k)%Z)), <- lsum_app. apply lsum_same; [apply zseq_nodup| |].
  - apply GridEdgesProofs.NoDup_app_intro; [apply zseq_nodup|apply FinFun.Injective_map_NoDup; [intros x y; lia|apply zseq_nodup]|]. intros x X Y. apply in_map_iff in Y as (k & <- & K). apply zseq_in in X, K. lia.
  - intros x. rewrite in_app_iff, in_map_iff, !zseq_in. split; [intros X; destruct (Z_lt_le_dec x a); [left; lia|right; exists (x - a)%Z; rewrite zseq_in; lia]|intros [X|(k & <- & K)]; [lia|apply zseq_in in K; lia]].
Qed.
Lemma lsum_zseq_list (A : Type) (g : Z -> Qc) (v : A -> Qc) l : (forall k a, nth_error l k = Some a -> g (Z.of_nat k) = v a) -> lsum g (zseq (Z.of_nat (length l))) = lsum v l.
Proof.
  revert g. induction l as [|a l IH]; intros g H; [reflexivity|]. cbn [length lsum]. rewrite Nat2Z.inj_succ. replace (Z.succ (Z.of_nat (length l))) with (1 + Z.of_nat (length l))%Z by lia. rewrite lsum_zseq_split by lia.
  rewrite <- (IH (fun k => g (1 + k)%Z)); [|intros k b E; rewrite <- (H (S k) b E); f_equal; lia]. f_equal. change (zseq 1) with [0%Z]. cbn [lsum]. rewrite <- (H 0%nat a eq_refl). cbn. ring.
Qed.
Definition low_cells (d : nat) (cubes0 : acells) : Z := Z.of_nat (length (filter (fun ib => get3 (fst (snd ib)) d =? 0)%Z cubes0)).
Definition high_cells (n : Z) (d : nat) (cubes0 : acells) : Z := Z.of_nat (length (filter (fun ib => negb (get3 (fst (snd ib)) d =? 0) && (get3 (fst (snd ib)) d =? n - 1))%Z cubes0)).
Lemma side_sum n d cubes0 : lsum (fun ib => side_value n (get3 (fst (snd ib)) d)) cubes0 = Z2Qc (low_cells d cubes0 - high_cells n d cubes0).
Proof.
  unfold low_cells, high_cells. induction cubes0 as [|[i b] l IH]; [reflexivity|]. cbn [lsum filter snd]. rewrite IH. unfold side_value. destruct (_ =? 0)%Z; cbn [negb andb length].
  - rewrite <- Z2Qc_1, <- Z2Qc_plus. f_equal. lia.
  - destruct (_ =? n - 1)%Z; cbn [length]; [rewrite <- Z2Qc_1, <- Z2Qc_opp, <- Z2Qc_plus; f_equal; lia|ring].
Qed.
(** C140. The right-hand side adds up to the number of low cells minus the number of high cells. *)
Theorem c140_total m cubes0 dir : generated m cubes0 -> exists D d, example_divergence m dir = Some D /\ main_axis dir d /\
  lsum (fun i => nth (Z.to_nat i) D 0) (zseq (cell_size m)) = Z2Qc (low_cells d cubes0 - high_cells (get3 (cells_per_axis (m_vshape m)) d) d cubes0).
Proof.
  intros OK. destruct (c140_values dir OK) as (D & d & E & MA & L & CUT & EXT). exists D, d. split; auto. split; auto.
  unfold cell_size. rewrite Z.add_comm, lsum_zseq_split by (unfold num_cut_cells; lia). rewrite lsum_0 by (intros i I; apply zseq_in in I; auto). rewrite (g_cubes m cubes0 OK), renumber_len. 
  assert (X := @lsum_zseq_list (Z * acell) (fun k => nth (Z.to_nat (num_cut_cells m + k)) D 0) (fun ib => side_value (get3 (cells_per_axis (m_vshape m)) d) (get3 (fst (snd ib)) d)) cubes0). rewrite Qcplus_0_l. etransitivity; [apply X|apply side_sum].
  intros k [i b] H. apply (EXT k i b H).
Qed.
(** C140. A solution of L p = D exists only if D is orthogonal to everything L maps to 0. *)
Theorem c140_compatible m cubes0 h2 : generated m cubes0 -> Z.of_nat (length h2) = face_size m -> forall L D p x, example_laplacian m h2 = Some L ->
  (forall i, (0 <= i < cell_size m)%Z -> mulv (mat_entries L) p i = D i) -> (forall i, (0 <= i < cell_size m)%Z -> mulv (mat_entries L) x i = 0) -> inner (zseq (cell_size m)) x D = 0.
Proof.
  intros OK LEN L D p x HL S K. destruct (@c139_matrix m cubes0 h2 OK LEN) as (B & L' & _ & HL' & _ & _ & _ & SY & _). rewrite HL in HL'. apply Some_inj in HL'. subst L'.
  transitivity (inner (zseq (cell_size m)) x (mulv (mat_entries L) p)); [apply lsum_ext; intros i I; apply zseq_in in I; rewrite S by auto; auto|]. rewrite <- (sy_sym SY). apply lsum_0. intros i I. apply zseq_in in I. rewrite K by auto. ring.
Qed.
(** C140. On a mesh with oppositely oriented sides, every candidate leaves a residual that adds up to low - high; so if all its entries are at most e, |low - high| <= n e. *)
Theorem c140_residual m cubes0 h2 dir : generated m cubes0 -> Z.of_nat (length h2) = face_size m -> balanced3 m -> exists L D d, example_laplacian m h2 = Some L /\ example_divergence m dir = Some D /\ main_axis dir d /\
  let gap := (low_cells d cubes0 - high_cells (get3 (cells_per_axis (m_vshape m)) d) d cubes0)%Z in
  forall x, lsum (fun i => nth (Z.to_nat i) D 0 - mulv (mat_entries L) x i) (zseq (cell_size m)) = Z2Qc gap /\
    forall e, below (zseq (cell_size m)) (fun i => nth (Z.to_nat i) D 0 - mulv (mat_entries L) x i) e -> Z2Qc (Z.abs gap) <= Z2Qc (cell_size m) * e.
Proof.
  intros OK LEN BA. destruct (@c139_matrix m cubes0 h2 OK LEN) as (B & L & _ & HL & _ & _ & _ & SY & _). destruct (c140_total dir OK) as (D & d & HD & MA & T). exists L, D, d. do 3 (split; [auto|]). intros gap x. fold gap in T.
  assert (S : lsum (fun i => nth (Z.to_nat i) D 0 - mulv (mat_entries L) x i) (zseq (cell_size m)) = Z2Qc gap).
  { rewrite (@lsum_ext _ _ (fun i => nth (Z.to_nat i) D 0 + - (1) * mulv (mat_entries L) x i)) by (intros; ring). rewrite lsum_add, lsum_scale, T. assert (Z : lsum (mulv (mat_entries L) x) (zseq (cell_size m)) = 0).
    { transitivity (inner (zseq (cell_size m)) (mulv (mat_entries L) x) (fun _ => 1)); [apply lsum_ext; intros; ring|]. rewrite (sy_sym SY). apply lsum_0. intros i _. rewrite (c139_constants (m := m) (cubes0 := cubes0) h2 1 OK LEN BA HL). ring. }
    rewrite Z. ring. }
  split; auto. intros e B0. assert (C : forall (l : list Z), lsum (fun _ => e) l = Z2Qc (Z.of_nat (length l)) * e). { induction l as [|a l IH]; cbn [lsum length]; [change (Z.of_nat 0) with 0%Z; rewrite Z2Qc_0; ring|]. rewrite IH, Nat2Z.inj_succ. replace (Z.succ (Z.of_nat (length l))) with (1 + Z.of_nat (length l))%Z by lia. rewrite Z2Qc_plus, Z2Qc_1. ring. }
  assert (LZ : Z.of_nat (length (zseq (cell_size m))) = cell_size m). { unfold zseq. rewrite map_length, List.seq_length. unfold cell_size, num_cut_cells. lia. }
  assert (U : Z2Qc gap <= Z2Qc (cell_size m) * e). { assert (CC := C (zseq (cell_size m))). rewrite LZ in CC. rewrite <- S, <- CC. apply lsum_le. intros i I. apply B0. auto. }
  assert (V : - Z2Qc gap <= Z2Qc (cell_size m) * e). { assert (CC := C (zseq (cell_size m))). rewrite LZ in CC. rewrite <- S, <- CC. replace (- lsum (fun i => nth (Z.to_nat i) D 0 - mulv (mat_entries L) x i) (zseq (cell_size m))) with (- (1) * lsum (fun i => nth (Z.to_nat i) D 0 - mulv (mat_entries L) x i) (zseq (cell_size m))) by ring. rewrite <- lsum_scale. apply lsum_le. intros i I. destruct (B0 i I). qc_lra. }
  destruct (Z_lt_le_dec gap 0) as [N|N]; [rewrite Z.abs_neq, Z2Qc_opp by lia|rewrite Z.abs_eq by lia]; auto.
Qed.
Lemma vals_below D : (forall i, (D i = 1 \/ D i = - (1) \/ D i = 0)%Qc) -> forall ix, below ix D 1.
Proof. intros H ix i _. destruct (H i) as [ -> | [ -> | -> ] ]; split; discriminate. Qed.
Lemma rhs_below m cubes0 dir D : generated m cubes0 -> example_divergence m dir = Some D -> below (zseq (cell_size m)) (fun i => nth (Z.to_nat i) D 0) 1.
Proof.
  intros OK HD i I. apply zseq_in in I. destruct (c140_values dir OK) as (D' & d & E & _ & L & CUT & EXT). rewrite HD in E. apply Some_inj in E. subst D'. destruct (Z_lt_le_dec i (num_cut_cells m)) as [C|C]; [rewrite CUT by lia; split; discriminate|].
  destruct (nth_error cubes0 (Z.to_nat (i - num_cut_cells m))) as [[j b]|] eqn:E. 2:{ exfalso. apply nth_error_None in E. unfold cell_size in I. rewrite (g_cubes m cubes0 OK), renumber_len in I. lia. }
  assert (X := EXT _ _ _ E). replace (num_cut_cells m + Z.of_nat (Z.to_nat (i - num_cut_cells m)))%Z with i in X by lia. rewrite X. destruct (_ =? 0)%Z; [split; discriminate|]. destruct (_ =? _ - 1)%Z; split; discriminate.
Qed.
(** C140. So the solver can stop before its last pass only if |low - high| * 100000 <= number of cells. *)
Theorem c140_converged m cubes0 h2 dir l dinv p : generated m cubes0 -> Z.of_nat (length h2) = face_size m -> balanced3 m -> example_pressure m h2 dir l dinv = Some p ->
  exists L D d k s, example_laplacian m h2 = Some L /\ example_divergence m dir = Some D /\ main_axis dir d /\
    after (zseq (cell_size m)) (mulv (mat_entries L)) (ldlt_apply (Z.to_nat (cell_size m)) l dinv) (fun i => nth (Z.to_nat i) D 0) k = Some s /\ s_x s = p /\ (k <= 9)%nat /\
    ((k < 9)%nat -> (Z.abs (low_cells d cubes0 - high_cells (get3 (cells_per_axis (m_vshape m)) d) d cubes0) * 100000 <= cell_size m)%Z).
Proof.
  intros OK LEN BA HP. destruct (@c140_residual m cubes0 h2 dir OK LEN BA) as (L & D & d & HL & HD & MA & R). unfold example_pressure in HP. rewrite HL, HD in HP. destruct (@c139_matrix m cubes0 h2 OK LEN) as (B & L' & _ & HL' & _ & _ & _ & SY & _). rewrite HL in HL'. apply Some_inj in HL'. subst L'.
  destruct (c141_result _ _ SY HP) as (k & s & K & AF & SX & RS & ACC). exists L, D, d, k, s. do 6 (split; [auto|]). intros K9. assert (BL := ACC K9 1 (rhs_below dir OK HD)). destruct (R p) as [_ G]. apply G in BL.
  apply Z2Qc_le. rewrite Z2Qc_mult. revert BL. generalize (Z.abs (low_cells d cubes0 - high_cells (get3 (cells_per_axis (m_vshape m)) d) d cubes0)) as g. intros g BL.
  replace (Z2Qc (cell_size m)) with (Z2Qc (cell_size m) * (1 * Q2Qc (1 # 100000)) * Z2Qc 100000). 2:{ replace (Z2Qc 100000) with (1 / Q2Qc (1 # 100000)); [field; discriminate|]. apply Qc_is_canon. reflexivity. }
  apply Qcmult_le_compat_r; auto. discriminate.
Qed.
(** C140. With as many low cells as high cells missing, there is no solution: a 2x2x2 grid with one cut cell in the corner (3 low cells, 4 high cells). *)
Theorem c140_unsolvable_refuted : exists m cubes0, generated m cubes0 /\ balanced3 m /\ forall h2, Z.of_nat (length h2) = face_size m ->
  exists L D, example_laplacian m h2 = Some L /\ example_divergence m (1, 0, 0) = Some D /\ ~ exists p, forall i, (0 <= i < cell_size m)%Z -> mulv (mat_entries L) p i = nth (Z.to_nat i) D 0.
Proof.
  destruct c73_nonvacuous as (OK & BA & _). exists sample3, PropsAdaptive2.seven. split; [exact OK|]. split; [exact BA|]. intros h2 LEN. destruct (@c140_residual sample3 PropsAdaptive2.seven h2 (1, 0, 0) OK LEN BA) as (L & D & d & HL & HD & MA & R). exists L, D. do 2 (split; [auto|]). intros [p S].
  assert (E0 : d = 0%nat). { destruct MA as [LT M]. destruct d as [|[|[|d]]]; auto; try lia; destruct (M 0%nat ltac:(lia)) as [X _]; cbn [q3_at fst snd] in X; exfalso; apply X; reflexivity. } subst d.
  destruct (R p) as [_ G]. specialize (G 0). assert (B : below (zseq (cell_size sample3)) (fun i => nth (Z.to_nat i) D 0 - mulv (mat_entries L) p i) 0). { intros i I. apply zseq_in in I. rewrite S by auto. replace (nth (Z.to_nat i) D 0 - nth (Z.to_nat i) D 0) with 0 by ring. split; discriminate. }
  apply G in B. rewrite Qcmult_0_r in B. change 0 with (Z2Qc 0) in B. apply Z2Qc_le in B. revert B. vm_compute. intros B. apply B. reflexivity.
Qed.
(** C140. A grid one cell thick along the main axis has no high cells, so the system has a solution only if there is no exterior cell at all. *)
Theorem c140_one_layer_refuted m cubes0 h2 dir d : generated m cubes0 -> Z.of_nat (length h2) = face_size m -> balanced3 m -> main_axis dir d -> get3 (cells_per_axis (m_vshape m)) d = 1%Z ->
  forall L D p, example_laplacian m h2 = Some L -> example_divergence m dir = Some D -> (forall i, (0 <= i < cell_size m)%Z -> mulv (mat_entries L) p i = nth (Z.to_nat i) D 0) -> cubes0 = [].
Proof.
  intros OK LEN BA MA ONE L D p HL HD S. destruct (@c140_residual m cubes0 h2 dir OK LEN BA) as (L' & D' & d' & HL' & HD' & MA' & R). rewrite HL in HL'. rewrite HD in HD'. apply Some_inj in HL', HD'. subst L' D'.
  assert (d' = d). { destruct MA as [L1 M1], MA' as [L2 M2]. destruct (Nat.lt_total d d') as [X|[X|X]]; auto; exfalso; [destruct (M1 d' L2) as [Y _]; destruct (M2 d L1) as [_ Y2]; specialize (Y2 X)|destruct (M2 d L1) as [Y _]; destruct (M1 d' L2) as [_ Y2]; specialize (Y2 X)]; qc_lra. } subst d'.
  destruct (R p) as [T _]. rewrite lsum_0 in T by (intros i I; apply zseq_in in I; rewrite S by auto; ring). rewrite <- Z2Qc_0 in T. apply Z2Qc_inj in T. rewrite ONE in T.
  assert (CO : forall i b, In (i, b) cubes0 -> get3 (fst b) d = 0%Z). { intros i b I. destruct (proj2 (g_wf m cubes0 OK) i b I) as (_ & WB & GB). assert (X := GB _ (box_has_corner b WB) d (proj1 MA)). change (cshape m) with (cells_per_axis (m_vshape m)) in X. lia. }
  destruct cubes0 as [|[i b] l]; auto. exfalso. assert (LOW : (1 <= low_cells d ((i, b) :: l))%Z). { unfold low_cells. cbn [filter snd]. rewrite (CO i b) by (cbn; auto). cbn [Z.eqb length]. lia. }
  assert (HIGH : high_cells 1 d ((i, b) :: l) = 0%Z). { unfold high_cells. assert (F : forall k, (forall j c, In (j, c) k -> get3 (fst c) d = 0%Z) -> filter (fun ib : Z * acell => negb (get3 (fst (snd ib)) d =? 0) && (get3 (fst (snd ib)) d =? 1 - 1))%Z k = []). { induction k as [|[j c] k IH]; intros H; cbn [filter snd]; auto. rewrite (H j c) by (cbn; auto). cbn [Z.eqb negb andb]. apply IH. intros; eapply H; cbn; eauto. } rewrite F by auto. auto. }
  lia.
Qed.
(** C140. A merged cell (wider than one grid cell) that ends at the far side is never given -1. *)
Theorem c140_wide_refuted m cubes0 dir d k i b : generated m cubes0 -> main_axis dir d -> nth_error cubes0 k = Some (i, b) -> (1 < snd b)%Z -> (get3 (fst b) d + snd b = get3 (cells_per_axis (m_vshape m)) d)%Z ->
  exists D, example_divergence m dir = Some D /\ 0 <= nth (Z.to_nat (num_cut_cells m + Z.of_nat k)) D 0.
Proof.
  intros OK MA H W E. destruct (c140_values dir OK) as (D & d' & HD & MA' & L & _ & EXT). exists D. split; auto. rewrite (EXT k i b H).
  assert (d' = d). { destruct MA as [L1 M1], MA' as [L2 M2]. destruct (Nat.lt_total d d') as [X|[X|X]]; auto; exfalso; [destruct (M1 d' L2) as [Y _]; destruct (M2 d L1) as [_ Y2]; specialize (Y2 X)|destruct (M2 d L1) as [Y _]; destruct (M1 d' L2) as [_ Y2]; specialize (Y2 X)]; qc_lra. } subst d'.
  destruct (Z.eqb_spec (get3 (fst b) d) 0); [discriminate|]. destruct (Z.eqb_spec (get3 (fst b) d) (get3 (cells_per_axis (m_vshape m)) d - 1)); [lia|apply Qcle_refl].
Qed.
(** C140. On a mesh of a single cell, which is uncut, the solver divides by zero in its first pass. *)
Theorem c140_single_refuted m cubes0 h2 dir l dinv : generated m cubes0 -> Z.of_nat (length h2) = face_size m -> balanced3 m -> cell_size m = 1%Z -> forall d i b, main_axis dir d -> In (i, b) cubes0 -> get3 (fst b) d = 0%Z ->
  example_pressure m h2 dir l dinv = None.
Proof.
  intros OK LEN BA ONE d i b MA IB COR. destruct (@c139_matrix m cubes0 h2 OK LEN) as (B & L & _ & HL & R & C & _ & SY & _). destruct (@laplacian_parts m cubes0 h2 OK LEN) as (_ & L' & _ & HL' & _ & _ & _ & _ & LC & _ & _). rewrite HL in HL'. apply Some_inj in HL'. subst L'.
  destruct (c140_values dir OK) as (D & d' & HD & MA' & LD & _ & EXT).
  assert (d' = d). { destruct MA as [L1 M1], MA' as [L2 M2]. destruct (Nat.lt_total d d') as [X|[X|X]]; auto; exfalso; [destruct (M1 d' L2) as [Y _]; destruct (M2 d L1) as [_ Y2]; specialize (Y2 X)|destruct (M2 d L1) as [Y _]; destruct (M1 d' L2) as [_ Y2]; specialize (Y2 X)]; qc_lra. } subst d'.
  unfold example_pressure. rewrite HL, HD, ONE. change (zseq 1) with [0%Z].
  assert (AZ : forall x i, mulv (mat_entries L) x i = 0). { intros x r. rewrite (@mulv_coeff 1); [|rewrite <- ONE; auto]. change (zseq 1) with [0%Z]. cbn [lsum]. assert (K := c139_constants (m := m) (cubes0 := cubes0) h2 1 OK LEN BA HL r). rewrite (@mulv_coeff 1) in K; [|rewrite <- ONE; auto]. change (zseq 1) with [0%Z] in K. cbn [lsum] in K. replace (coeff (mat_entries L) r 0) with (coeff (mat_entries L) r 0 * 1 + 0) by ring. rewrite K. ring. }
  assert (D0 : nth 0 D 0 = 1).
  { unfold cell_size in ONE. rewrite (g_cubes m cubes0 OK), renumber_len in ONE. assert (NC : (0 <= num_cut_cells m)%Z) by (unfold num_cut_cells; lia). apply In_nth_error in IB as [k K]. assert (LK : (k < length cubes0)%nat) by (apply nth_error_Some; congruence). assert (X := EXT k i b K). rewrite COR in X. cbn [Z.eqb] in X. replace (Z.to_nat (num_cut_cells m + Z.of_nat k)) with 0%nat in X by lia. auto. }
  unfold pcg_solve. cbv zeta. cbn [pcg_loop]. set (s := pcg_init _ _ _ _). assert (RS : s_r s 0%Z = 1). { unfold s, pcg_init. cbn [s_r]. rewrite AZ. change (Z.to_nat 0) with 0%nat. rewrite D0. ring. }
  assert (NN : norm_inf [0%Z] (s_r s) = 1). { unfold norm_inf. cbn [fold_left]. rewrite RS. reflexivity. } rewrite NN. replace (qltb (1 * epsilon5) 1) with true by reflexivity. unfold pcg_step. replace (vdotp [0%Z] (s_p s) (s_Ap s)) with 0; [reflexivity|]. unfold vdotp. cbn [lsum]. unfold s, pcg_init. cbn [s_p s_Ap]. rewrite AZ. ring.
Qed.
(** C141. The example as a whole: nonnegative Hodge weights, positive pivots and a solvable system. *)
Theorem c141_example m cubes0 h2 dir l dinv : generated m cubes0 -> Z.of_nat (length h2) = face_size m -> (forall k, 0 <= nth k h2 0) -> (forall i, (0 <= i < cell_size m)%Z -> 0 < dinv i) ->
  forall L D y, example_laplacian m h2 = Some L -> example_divergence m dir = Some D -> (forall i, (0 <= i < cell_size m)%Z -> mulv (mat_entries L) y i = nth (Z.to_nat i) D 0) ->
  exists p, example_pressure m h2 dir l dinv = Some p /\
    ((cell_size m <= 9)%Z -> below (zseq (cell_size m)) (fun i => nth (Z.to_nat i) D 0 - mulv (mat_entries L) p i) (Q2Qc (1 # 100000))).
Proof.
  intros OK LEN H DP L D y HL HD S. destruct (@c139_matrix m cubes0 h2 OK LEN) as (B & L' & _ & HL' & _ & _ & _ & SY & _). rewrite HL in HL'. apply Some_inj in HL'. subst L'. destruct (@c139_kernel m cubes0 h2 OK LEN H) as (_ & L' & _ & HL' & PSD & _). rewrite HL in HL'. apply Some_inj in HL'. subst L'.
  assert (NC : (0 <= cell_size m)%Z) by (unfold cell_size, num_cut_cells; lia). destruct (c141_preconditioner (Z.to_nat (cell_size m)) l dinv) as [SP PD]. rewrite Z2Nat.id in SP, PD by auto. specialize (PD DP). unfold example_pressure. rewrite HL, HD.
  assert (S' : forall i, In i (zseq (cell_size m)) -> mulv (mat_entries L) y i = nth (Z.to_nat i) D 0) by (intros i I; apply zseq_in in I; auto).
  destruct (Z_le_gt_dec (cell_size m) 9) as [N|N].
  - destruct (@c141_small _ _ _ _ SY SP PSD PD y S') as (p & P & A); [unfold zseq; rewrite map_length, List.seq_length; lia|]. exists p. split; auto. intros _. assert (X := A 1 (rhs_below dir OK HD)). rewrite Qcmult_1_l in X. exact X.
  - destruct (@c141_defined _ _ _ _ SY SP PSD PD y S') as (p & P). exists p. split; auto. intros; lia.
Qed.

(** ** C142: repairing empty columns *)
Definition square (n : Z) (A : matrix) : Prop := mat_rows A = n /\ mat_cols A = n /\ Forall (fun t => 0 <= t_row t < n /\ 0 <= t_col t < n)%Z (mat_entries A).
Definition empty_column (n : Z) (A : matrix) (j : Z) : Prop := forall i, (0 <= i < n)%Z -> coeff (mat_entries A) i j = 0.
Lemma empty_dec n A j : {empty_column n A j} + {~ empty_column n A j}.
Proof.
  unfold empty_column. destruct (forallb (fun i => qeqb (coeff (mat_entries A) i j) 0) (zseq n)) eqn:E.
  - left. intros i I. rewrite forallb_forall in E. apply qeqb_eq. apply E. apply zseq_in. auto.
  - right. intros H. rewrite (proj2 (forallb_forall _ _)) in E; [discriminate|]. intros i I. apply zseq_in in I. apply qeqb_eq. auto.
Qed.
Lemma empty_b n A j : forallb (fun i => qeqb (coeff (mat_entries A) i j) 0) (zseq n) = if empty_dec n A j then true else false.
Proof.
  destruct (empty_dec n A j) as [E|N]; [apply forallb_forall; intros i I; apply zseq_in in I; apply qeqb_eq; auto|]. destruct (forallb _ _) eqn:F; auto. exfalso. apply N. intros i I. rewrite forallb_forall in F. apply qeqb_eq, F, zseq_in. auto.
Qed.
Lemma pruned_coeff ts i j : coeff (filter (fun '(r, c, _) => negb (qeqb (coeff ts r c) 0)) ts) i j = coeff ts i j.
Proof.
  destruct (Qc_eq_dec (coeff ts i j) 0) as [E|N].
  - rewrite E. apply coeff_0. intros v I. apply filter_In in I as [_ I]. rewrite E in I. discriminate.
  - unfold coeff at 1 3. assert (G : forall l, lsum (fun t => if ((t_row t =? i)%Z && (t_col t =? j)%Z)%bool then t_val t else 0) (filter (fun '(r, c, _) => negb (qeqb (coeff ts r c) 0)) l) = lsum (fun t => if ((t_row t =? i)%Z && (t_col t =? j)%Z)%bool then t_val t else 0) l); [|apply G].
    induction l as [|[[r c] v] l IH]; cbn [filter]; auto. destruct (qeqb (coeff ts r c) 0) eqn:Q; cbn [negb lsum]; rewrite IH; auto. unfold t_row, t_col, t_val. cbn [fst snd]. destruct (Z.eqb_spec r i) as [->|]; cbn [andb]; [|ring]. destruct (Z.eqb_spec c j) as [->|]; [|ring]. apply qeqb_eq in Q. contradiction.
Qed.
Lemma coeff_one j i k : coeff [(j, j, 1)] i k = if ((i =? j) && (k =? j))%Z%bool then 1 else 0.
Proof. unfold coeff. cbn [lsum]. unfold t_row, t_col, t_val. cbn [fst snd]. rewrite (Z.eqb_sym j i), (Z.eqb_sym j k). ring. Qed.
(** C142. The repaired matrix has a diagonal 1 in each empty column and agrees with the given one elsewhere; the right-hand side is 0 there. *)
Theorem c142_values n A rhs : square n A -> Z.of_nat (length rhs) = n -> exists M b, fix_indefiniteness A rhs = Some (M, b) /\ square n M /\ length b = length rhs /\
  (forall i j, (0 <= i < n)%Z -> (0 <= j < n)%Z -> (empty_column n A j -> coeff (mat_entries M) i j = if (i =? j)%Z then 1 else 0) /\ (~ empty_column n A j -> coeff (mat_entries M) i j = coeff (mat_entries A) i j)) /\
  (forall j, (0 <= j < n)%Z -> (empty_column n A j -> nth (Z.to_nat j) b 0 = 0) /\ (~ empty_column n A j -> nth (Z.to_nat j) b 0 = nth (Z.to_nat j) rhs 0)).
Proof.
  intros (RA & CA & FA) LR. unfold fix_indefiniteness. rewrite RA, CA. match goal with |- context [fold_left ?s (zseq n) (Some (?M, rhs))] => set (step := s); set (M0 := M) end.
  assert (G : forall k, (Z.of_nat k <= n)%Z -> exists M b, fold_left step (zseq (Z.of_nat k)) (Some (M0, rhs)) = Some (M, b) /\ square n M /\ length b = length rhs /\
    (forall i j, (0 <= i < n)%Z -> (0 <= j < n)%Z -> coeff (mat_entries M) i j = coeff (mat_entries A) i j + (if ((i =? j) && (j <? Z.of_nat k))%Z%bool then if empty_dec n A j then 1 else 0 else 0)) /\
    (forall j, (0 <= j < n)%Z -> nth (Z.to_nat j) b 0 = if (j <? Z.of_nat k)%Z then if empty_dec n A j then 0 else nth (Z.to_nat j) rhs 0 else nth (Z.to_nat j) rhs 0)).
  { induction k as [|k IH]; intros K.
    - exists M0, rhs. split; [reflexivity|]. split; [split; [auto|split; [auto|]]; apply Forall_forall; intros t I; apply filter_In in I as [I _]; rewrite Forall_forall in FA; apply (FA t I)|]. split; auto. split.
      + intros i j I J. cbn [mat_entries M0]. unfold M0. cbn [mat_entries]. rewrite pruned_coeff. destruct (Z.ltb_spec j (Z.of_nat 0)); [lia|]. rewrite andb_false_r. ring.
      + intros j J. destruct (Z.ltb_spec j (Z.of_nat 0)); [lia|auto].
    - destruct IH as (M & b & E & SQ & LB & CM & CB); [lia|]. assert (ZS : zseq (Z.of_nat (S k)) = zseq (Z.of_nat k) ++ [Z.of_nat k]). { unfold zseq. rewrite !Nat2Z.id, List.seq_S, map_app. reflexivity. }
      rewrite ZS, fold_left_app, E. cbn [fold_left]. unfold step at 1. rewrite empty_b. destruct SQ as (RM & CMM & FM). destruct (empty_dec n A (Z.of_nat k)) as [EM|NM].
      + rewrite (proj2 (Z.ltb_lt _ _)), put_q_some by lia. cbn [option_map]. eexists _, _. split; [reflexivity|]. cbn [mat_rows mat_cols mat_entries]. split; [split; [auto|split; [auto|]]|split; [|split]].
        * cbn [mat_entries]. apply Forall_app. split; auto. constructor; auto. unfold t_row, t_col. cbn. lia.
        * rewrite <- LB. clear. generalize (Z.to_nat (Z.of_nat k)) as q. induction b as [|a b IH]; intros [|q]; cbn; auto.
        * intros i j I J. rewrite coeff_app, CM, coeff_one by auto. destruct (Z.eqb_spec j (Z.of_nat k)) as [->|NJ].
          -- rewrite andb_true_r, Z.ltb_irrefl, andb_false_r. rewrite (proj2 (Z.ltb_lt _ _)), andb_true_r by lia. destruct (empty_dec n A (Z.of_nat k)); [|contradiction]. destruct (i =? Z.of_nat k)%Z; ring.
          -- rewrite andb_false_r. replace (j <? Z.of_nat (S k))%Z with (j <? Z.of_nat k)%Z by (destruct (Z.ltb_spec j (Z.of_nat k)), (Z.ltb_spec j (Z.of_nat (S k))); auto; lia). ring.
        * intros j J. assert (NE : nth (Z.to_nat j) (zput b (Z.to_nat (Z.of_nat k)) 0) 0 = if (j =? Z.of_nat k)%Z then 0 else nth (Z.to_nat j) b 0).
          { assert (X := @nth_error_zput Qc b (Z.to_nat (Z.of_nat k)) 0 (Z.to_nat j) ltac:(lia)). destruct (Nat.eqb_spec (Z.to_nat j) (Z.to_nat (Z.of_nat k))); destruct (Z.eqb_spec j (Z.of_nat k)); try lia; [apply nth_error_nth; auto|]. destruct (nth_error b (Z.to_nat j)) as [a|] eqn:EB; [|apply nth_error_None in EB; lia]. rewrite (nth_error_nth _ _ _ X). symmetry. apply nth_error_nth. auto. }
          rewrite NE, CB by auto. destruct (Z.eqb_spec j (Z.of_nat k)) as [->|NJ]; [rewrite (proj2 (Z.ltb_lt _ _)) by lia; destruct (empty_dec n A (Z.of_nat k)); [auto|contradiction]|].
          replace (j <? Z.of_nat (S k))%Z with (j <? Z.of_nat k)%Z by (destruct (Z.ltb_spec j (Z.of_nat k)), (Z.ltb_spec j (Z.of_nat (S k))); auto; lia). auto.
      + exists M, b. split; auto. split; [split; auto|]. split; auto. split.
        * intros i j I J. rewrite CM by auto. destruct (Z.eqb_spec j (Z.of_nat k)) as [->|NJ]; [destruct (empty_dec n A (Z.of_nat k)); [contradiction|]; destruct (_ && _)%bool, (_ && _)%bool; auto|].
          replace (j <? Z.of_nat (S k))%Z with (j <? Z.of_nat k)%Z by (destruct (Z.ltb_spec j (Z.of_nat k)), (Z.ltb_spec j (Z.of_nat (S k))); auto; lia). auto.
        * intros j J. rewrite CB by auto. destruct (Z.eqb_spec j (Z.of_nat k)) as [->|NJ]; [destruct (empty_dec n A (Z.of_nat k)); [contradiction|]; destruct (_ <? _)%Z, (_ <? _)%Z; auto|].
          replace (j <? Z.of_nat (S k))%Z with (j <? Z.of_nat k)%Z by (destruct (Z.ltb_spec j (Z.of_nat k)), (Z.ltb_spec j (Z.of_nat (S k))); auto; lia). auto. }
  assert (NN : (0 <= n)%Z) by lia. destruct (G (Z.to_nat n) ltac:(lia)) as (M & b & E & SQ & LB & CM & CB). rewrite Z2Nat.id in E by auto. exists M, b. split; auto. split; auto. split; auto. split.
  - intros i j I J. rewrite CM by auto. rewrite (proj2 (Z.ltb_lt j _)), andb_true_r by lia. destruct (empty_dec n A j) as [EM|NM]; split; intros X; try contradiction; [rewrite EM by auto; destruct (i =? j)%Z; ring|destruct (i =? j)%Z; ring].
  - intros j J. rewrite CB by auto. rewrite (proj2 (Z.ltb_lt j _)) by lia. destruct (empty_dec n A j); split; intros; auto; contradiction.
Qed.
(** C142. For a symmetric matrix the result is symmetric without empty column, positive semidefinite if the given one is, and x solves it exactly when it solves the given rows that are not empty and vanishes at the others. *)
Theorem c142_repaired n A rhs M b : square n A -> Z.of_nat (length rhs) = n -> (forall i j, (0 <= i < n)%Z -> (0 <= j < n)%Z -> coeff (mat_entries A) i j = coeff (mat_entries A) j i) -> fix_indefiniteness A rhs = Some (M, b) ->
  symmetric (zseq n) (mulv (mat_entries M)) /\ (forall j, (0 <= j < n)%Z -> ~ empty_column n M j) /\ (semidefinite (zseq n) (mulv (mat_entries A)) -> semidefinite (zseq n) (mulv (mat_entries M))) /\
  forall x, (forall i, (0 <= i < n)%Z -> mulv (mat_entries M) x i = nth (Z.to_nat i) b 0) <->
    (forall i, (0 <= i < n)%Z -> (empty_column n A i -> x i = 0) /\ (~ empty_column n A i -> mulv (mat_entries A) x i = nth (Z.to_nat i) rhs 0)).
Proof.
  intros SQ LR SY F. destruct (c142_values rhs SQ LR) as (M' & b' & F' & SQM & LB & CM & CB). rewrite F in F'. apply Some_inj, pair_equal_spec in F' as [<- <-].
  assert (FA : Forall (fun t => 0 <= t_col t < n)%Z (mat_entries A)) by (destruct SQ as (_ & _ & X); eapply Forall_impl; [|exact X]; cbv beta; tauto).
  assert (FM : Forall (fun t => 0 <= t_col t < n)%Z (mat_entries M)) by (destruct SQM as (_ & _ & X); eapply Forall_impl; [|exact X]; cbv beta; tauto).
  assert (ROW : forall i, (0 <= i < n)%Z -> empty_column n A i -> forall j, (0 <= j < n)%Z -> coeff (mat_entries A) i j = 0) by (intros i I E j J; rewrite SY by auto; apply E; auto).
  assert (MV : forall x i, (0 <= i < n)%Z -> (empty_column n A i -> mulv (mat_entries M) x i = x i) /\ (~ empty_column n A i -> mulv (mat_entries M) x i = mulv (mat_entries A) x i)).
  { intros x i I. rewrite !(@mulv_coeff n) by auto. split; intros E.
    - rewrite (@lsum_single _ _ _ i); [destruct (CM i i I I) as [X _]; rewrite (X E), Z.eqb_refl; ring|apply zseq_nodup|apply zseq_in; auto|]. intros j J NJ. apply zseq_in in J. destruct (CM i j I J) as [X Y]. destruct (empty_dec n A j) as [EJ|NE]; [rewrite (X EJ), (proj2 (Z.eqb_neq i j)) by auto; ring|]. rewrite (Y NE), ROW by auto. ring.
    - apply lsum_ext. intros j J. apply zseq_in in J. destruct (CM i j I J) as [X Y]. destruct (empty_dec n A j) as [EJ|NE]; [|rewrite (Y NE); auto]. rewrite (X EJ), (EJ i I). destruct (Z.eqb_spec i j) as [->|]; [contradiction|auto]. }
  split; [|split; [|split]].
  - apply mulv_symmetric; auto. intros i j I J. destruct (CM i j I J) as [X1 Y1], (CM j i J I) as [X2 Y2]. destruct (empty_dec n A i) as [EI|NI], (empty_dec n A j) as [EJ|NJ]; rewrite ?X1, ?X2, ?Y1, ?Y2 by auto; auto.
    + rewrite Z.eqb_sym. auto. + rewrite ROW by auto. destruct (Z.eqb_spec j i) as [->|]; [contradiction|auto]. + rewrite (ROW j) by auto. destruct (Z.eqb_spec i j) as [->|]; [contradiction|auto].
  - intros j J E. destruct (empty_dec n A j) as [EJ|NJ]; [assert (X := E j J); rewrite (proj1 (CM j j J J) EJ), Z.eqb_refl in X; discriminate|]. apply NJ. intros i I. rewrite <- (proj2 (CM i j I J) NJ). auto.
  - intros P x. specialize (P x). unfold inner in *. eapply Qcle_trans; [exact P|]. apply lsum_le. intros i I. apply zseq_in in I. destruct (MV x i I) as [X Y]. destruct (empty_dec n A i) as [EI|NI]; [|rewrite (Y NI); apply Qcle_refl]. rewrite (X EI). rewrite (@mulv_coeff n (mat_entries A)) by auto. rewrite lsum_0 by (intros j J; apply zseq_in in J; rewrite ROW by auto; ring). rewrite Qcmult_0_r. apply square_nonneg.
  - intros x. split; intros H i I; destruct (MV x i I) as [X Y], (CB i I) as [B1 B2]; specialize (H i I).
    + split; intros E; [rewrite <- (X E), H; auto|rewrite <- (Y E), H; auto].
    + destruct H as [H1 H2]. destruct (empty_dec n A i) as [E|E]; [rewrite (X E), (B1 E); auto|rewrite (Y E), (B2 E); auto].
Qed.
(** *** two uncut cells side by side *)
Definition two : acells := [(0, ((0, 0, 0), 1)); (1, ((1, 0, 0), 1))]%Z.
Definition pair3 : mesh3 := mkMesh (0, 0, 0) (1, 1, 1) (3, 2, 2)%Z [] [] (fun _ => false) [] [] [] [] [] [] (renumber 0 two) (make_faces (2, 1, 1)%Z two) [].
Lemma pair3_ok : generated pair3 two /\ balanced3 pair3.
Proof.
  split; [split|].
  - intros [|i] c H; discriminate.
  - intros [|[|[|d]]] Hd; cbn; lia.
  - split; [cbn; repeat (constructor; try (intros; cbn; auto)); auto|]. intros i b H. cbn in H. destruct H as [[= <- <-]|[[= <- <-]|[]]]; (split; [lia|]); (split; [cbn; lia|]); intros p I d Hd; assert (X := I d Hd); destruct d as [|[|[|d]]]; try lia; cbn in *; lia.
  - intros i b j c p H1 H2 I1 I2. cbn in H1, H2. destruct H1 as [[= <- <-]|[[= <- <-]|[]]], H2 as [[= <- <-]|[[= <- <-]|[]]]; auto; exfalso; assert (X := I1 0%nat ltac:(lia)); assert (Y := I2 0%nat ltac:(lia)); cbn in *; lia.
  - intros i b H. cbn in H. destruct H as [[= <- <-]|[[= <- <-]|[]]]; reflexivity.
  - reflexivity.
  - reflexivity.
  - intros f o s [].
  - intros f fc [_ H]. cbn in H. destruct (Z.to_nat f); discriminate.
Qed.
Definition ones (m : mesh3) : list Qc := repeat 1 (Z.to_nat (face_size m)).
Example c139_nonvacuous : option_map (fun L => map this [coeff (mat_entries L) 0 0; coeff (mat_entries L) 0 1; coeff (mat_entries L) 1 1; coeff (mat_entries L) 7 7]) (example_laplacian sample3 (ones sample3)) = Some (map this [1 + 1 + 1; - (1); 1 + 1 + 1; 1 + 1 + 1]).
Proof. vm_compute. reflexivity. Qed.
(** solvable: L (1, 0) = (1, -1); the solver returns a solution *)
Example c141_nonvacuous : (forall k, 0 <= nth k (ones pair3) 0) /\
  option_map (fun L => map (fun i => this (mulv (mat_entries L) (fun j => if (j =? 0)%Z then 1 else 0) i)) (zseq (cell_size pair3))) (example_laplacian pair3 (ones pair3)) = option_map (map this) (example_divergence pair3 (1, 0, 0)) /\
  option_map (fun p => this (p 0%Z - p 1%Z)) (example_pressure pair3 (ones pair3) (1, 0, 0) (fun _ _ => 0) (fun _ => 1)) = Some (this 1).
Proof.
  split; [|split; vm_compute; reflexivity].
  intros k. unfold ones. generalize (Z.to_nat (face_size pair3)) as n. intros n. revert k. induction n; intros [|k]; cbn; auto; discriminate.
Qed.
(** a matrix with an empty second column *)
Example c142_nonvacuous : let A := mkMat 2 2 [(0%Z, 0%Z, 1); (1%Z, 1%Z, 1); (1%Z, 1%Z, - (1))] in square 2 A /\ empty_column 2 A 1 /\ option_map (fun Mb => (map this (snd Mb), this (coeff (mat_entries (fst Mb)) 1 1))) (fix_indefiniteness A [1; 1]) = Some (map this [1; 0], this 1).
Proof.
  cbv zeta. split; [split; [reflexivity|split; [reflexivity|]]; cbn; repeat (apply Forall_cons; [cbn; lia|]); apply Forall_nil|]. split.
  - intros i I. assert (E : i = 0%Z \/ i = 1%Z) by lia. destruct E as [ -> | -> ]; apply Qc_is_canon; reflexivity.
  - vm_compute. reflexivity.
Qed.
