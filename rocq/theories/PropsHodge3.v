(** C108-C112: face areas, dual lengths, Hodge stars, divergence and Laplacian, cell volumes of a 3D cut-cell mesh. *)
From Coq Require Import Permutation.
From Verif Require Import Base Num CoordMask Vertex VertexProofs ThresholdProofs Grid SmallestEdge AdaptiveGrid AdaptiveSpec AdaptiveProofs AdaptiveFaces AdaptiveFactory PropsAdaptive PropsAdaptive2
  Mesh Sparse Mesh2 ExteriorGrid PropsExterior PropsMesh2 Boundary3 PropsBoundary3 Interp PropsInterp Volume PropsVolume Queries3 PropsQueries3 Triangulate PropsTriang Hodge3.
Local Open Scope Qc_scope.

(** entry i of a vector: None = no such entry; Some None = uninitialised *)
Definition at_entry (v : list (option Qc)) (i : Z) : option (option Qc) := if (i <? 0)%Z then None else nth_error v (Z.to_nat i).

(** ** auxiliary facts *)
Lemma abs_if_negative_qabs l : abs_if_negative l = map (option_map qabs) l.
Proof.
  unfold abs_if_negative. destruct (existsb _ l) eqn:E; auto. symmetry. rewrite <- (map_id l) at 2. apply map_ext_in. intros [v|] I; auto. cbn. f_equal.
  destruct (qabs_cases v) as [[_ A]|[N _]]; auto. exfalso. assert (X : existsb (fun x => match x with Some v => qltb v 0 | None => false end) l = true).
  { apply existsb_exists. exists (Some v). split; auto. apply qltb_lt. auto. } congruence.
Qed.
Lemma checked_some l v : checked l = Some v -> l <> [] /\ v = map (option_map qabs) l.
Proof. unfold checked. destruct l as [|x l]; [discriminate|]. intros H. apply Some_inj in H. subst. split; [discriminate|apply abs_if_negative_qabs]. Qed.
Lemma Forall2_len (A B : Type) (R : A -> B -> Prop) l l' : Forall2 R l l' -> length l = length l'. Proof. induction 1; cbn; auto. Qed.
Lemma Forall2_at (A B : Type) (R : A -> B -> Prop) l l' k a : Forall2 R l l' -> nth_error l k = Some a -> exists b, nth_error l' k = Some b /\ R a b.
Proof. intros H. revert k. induction H as [|x y l l' E H IH]; intros [|k] N; cbn in *; try discriminate; [apply Some_inj in N; subst; eauto|auto]. Qed.
Lemma enum_len (A : Type) (l : list A) : length (enum l) = length l.
Proof. unfold enum. rewrite combine_length, zseq_len, Nat2Z.id. lia. Qed.
Lemma enum_nth (A : Type) (l : list A) k a : nth_error l k = Some a -> nth_error (enum l) k = Some (Z.of_nat k, a).
Proof.
  intros H. unfold enum. assert (L : (k < length l)%nat) by (apply nth_error_Some; congruence). assert (N : nth_error (zseq (Z.of_nat (length l))) k = Some (Z.of_nat k)). { rewrite nth_error_zseq. rewrite (proj2 (Z.ltb_lt _ _)) by lia. auto. }
  revert N H. generalize (zseq (Z.of_nat (length l))) as z. generalize (Z.of_nat k) as q. clear L. revert k. induction l as [|x l IH]; intros [|k] q [|y z] N H; cbn in *; try discriminate; [congruence|auto].
Qed.

(** ** C108: face areas *)
(** sides of a closed polygon, and twice its vector area *)
Definition closed_sides (A : Type) (ps : list A) : list (A * A) := combine ps (tl ps ++ firstn 1 ps).
Definition loop_vector (ps : list q3) : q3 := let s := closed_sides _ ps in
  (lsum (fun e => q3_at (cross (fst e) (snd e)) 0) s, lsum (fun e => q3_at (cross (fst e) (snd e)) 1) s, lsum (fun e => q3_at (cross (fst e) (snd e)) 2) s).
(** vector area of a face: half the sum of p x q over the sides of its loops *)
Definition vector_area (loops : list (list q3)) : q3 := vscale qhalf (lsum (fun l => q3_at (loop_vector l) 0) loops, lsum (fun l => q3_at (loop_vector l) 1) loops, lsum (fun l => q3_at (loop_vector l) 2) loops).
(** the positions of the vertices of a face, loop by loop *)
Definition face_points (m : mesh3) (f : cut_face) (pts : list (list q3)) : Prop := Forall2 (Forall2 (fun i p => vertex3 m i = Some p)) (cf_loops f) pts.

Lemma qhalf_div (x : Qc) : x / (1 + 1) = qhalf * x.
Proof. unfold qhalf. assert (E : Q2Qc (1 # 2) = / (1 + 1)) by (apply Qc_is_canon; reflexivity). rewrite E. unfold Qcdiv. ring. Qed.
Lemma closed_sides_map (A B : Type) (f : A -> B) ps : closed_sides B (map f ps) = map (fun e => (f (fst e), f (snd e))) (closed_sides A ps).
Proof.
  unfold closed_sides. destruct ps as [|p ps]; auto. cbn [tl firstn map]. change ([f p]) with (map f [p]). rewrite <- map_app. change (f p :: map f ps) with (map f (p :: ps)).
  generalize (p :: ps) as a. generalize (ps ++ [p]) as b. intros b a. revert b. induction a as [|x a IH]; intros [|y b]; cbn; auto. rewrite IH. auto.
Qed.
Definition pr2 (a : nat) (p : q3) : q2 := (q3_at p (Nat.modulo (a + 1) 3), q3_at p (Nat.modulo (a + 2) 3)).
Lemma sub_V_proj a V : (0 <= a < 3)%Z -> sub_V a V = map (pr2 (Z.to_nat a)) V.
Proof. intros H. unfold sub_V. apply map_ext. intros [[x y] z]. assert (D : (a = 0 \/ a = 1 \/ a = 2)%Z) by lia. destruct D as [ -> | [ -> | -> ]]; reflexivity. Qed.
Lemma shoelace_vector a ps : (a < 3)%nat -> shoelace (map (pr2 a) ps) = qhalf * q3_at (loop_vector ps) a.
Proof.
  intros H. unfold shoelace. rewrite qhalf_div. f_equal. change (lsum (fun e : (Qc * Qc) * (Qc * Qc) => let '(a0, b) := e in fst a0 * snd b - fst b * snd a0) (closed_sides (Qc * Qc) (@map q3 (Qc * Qc) (pr2 a) ps)) = q3_at (loop_vector ps) a).
  rewrite (closed_sides_map q3 (Qc * Qc) (pr2 a) ps), lsum_map.
  destruct a as [|[|[|a]]]; try lia; cbn [loop_vector q3_at fst snd]; apply lsum_ext; intros [[[x y] z] [[u v] w]] _; cbn; ring.
Qed.
Lemma area_sum_spec l s : fold_left Qcplus l s = s + lsum (fun x => x) l.
Proof. revert s. induction l as [|x l IH]; intros s; cbn; [ring|]. rewrite IH. ring. Qed.
Lemma col_vertex m i : pos_shape (list3 (m_vshape m)) -> col (vertices3 m) i = vertex3 m i.
Proof.
  intros P. unfold col. destruct (Z.ltb_spec i 0); [|apply c83_vertices; auto]. unfold vertex3, masked_vertex. rewrite (proj2 (Z.ltb_lt i 0)) by auto. auto.
Qed.
Lemma col_map (A B : Type) (f : A -> B) V i : col (map f V) i = option_map f (col V i).
Proof. unfold col. destruct (i <? 0)%Z; auto. apply nth_error_map. Qed.

Lemma loop_area_some m a l v : pos_shape (list3 (m_vshape m)) -> (0 <= a < 3)%Z -> loop_area (sub_V a (vertices3 m)) l = Some v ->
  exists ps, Forall2 (fun i p => vertex3 m i = Some p) l ps /\ v = qhalf * q3_at (loop_vector ps) (Z.to_nat a).
Proof.
  intros P A. unfold loop_area. rewrite sub_V_proj by auto. destruct (sequence _) as [r|] eqn:S; [|discriminate]. cbn [option_map]. intros H. apply Some_inj in H. apply sequence_forall2 in S.
  assert (X : exists ps, Forall2 (fun i p => vertex3 m i = Some p) l ps /\ r = map (pr2 (Z.to_nat a)) ps).
  { clear H. induction S as [|i q l r E S IH]; [exists []; split; auto|]. destruct IH as (ps & F & ->). rewrite col_map, col_vertex in E by auto. destruct (vertex3 m i) as [p|] eqn:V; [|discriminate]. apply Some_inj in E. subst q. exists (p :: ps). split; auto. }
  destruct X as (ps & F & ->). exists ps. split; auto. rewrite <- H. apply shoelace_vector. lia.
Qed.
Lemma axial_area_some m a f v : pos_shape (list3 (m_vshape m)) -> (0 <= a < 3)%Z -> axial_area m a f = Some v -> exists pts, face_points m f pts /\ v = q3_at (vector_area pts) (Z.to_nat a).
Proof.
  intros P A. unfold axial_area. destruct (sequence _) as [r|] eqn:S; [|discriminate]. cbn [option_map]. intros H. apply Some_inj in H. apply sequence_forall2 in S. rewrite area_sum_spec in H.
  assert (X : exists pts, Forall2 (Forall2 (fun i p => vertex3 m i = Some p)) (cf_loops f) pts /\ lsum (fun x => x) r = qhalf * lsum (fun l => q3_at (loop_vector l) (Z.to_nat a)) pts).
  { clear H. induction S as [|l q ls r E S IH]; [exists []; split; [auto|cbn; ring]|]. destruct IH as (pts & F & E'). apply loop_area_some in E as (ps & F' & ->); auto. exists (ps :: pts). split; auto. cbn [lsum]. rewrite E'. ring. }
  destruct X as (pts & F & E). exists pts. split; auto. rewrite <- H, E. assert (D : (Z.to_nat a < 3)%nat) by lia. destruct (Z.to_nat a) as [|[|[|k]]]; try lia; cbn [vector_area q3_at vscale fst snd]; ring.
Qed.

Lemma face_volumes3_eq area m v : face_volumes3 area m = Some v -> m_origF m <> [] ->
  exists l, Forall2 (fun p x => match cf_id (snd p) with AxialFace a _ => axial_area m a (snd p) | MeshFace _ => Some (mesh_area m area (fst p)) end = Some x) (enum (m_faces m)) l /\
    v = map (fun x => Some (qabs x)) l ++ map (fun f => Some (qabs (face_volume (m_dx m) f))) (m_afaces m).
Proof.
  unfold face_volumes3. intros H N. destruct (m_origF m) as [|t0 ts]; [contradiction|]. destruct (sequence _) as [l|] eqn:S; [|discriminate]. apply checked_some in H as [_ ->]. exists l. split.
  - apply sequence_forall2 in S. clear N. revert S. generalize (enum (m_faces m)). intros e S. induction S as [|[i f] x e l E S IH]; constructor; auto.
  - rewrite map_app, map_map. f_equal. unfold ag_face_volumes. rewrite map_map. auto.
Qed.
(** the vector has one entry per face, all defined and not negative *)
Theorem c108_length area m v : face_volumes3 area m = Some v -> m_origF m <> [] -> Z.of_nat (length v) = face_size m /\ Forall (fun x => exists q, x = Some q /\ 0 <= q) v.
Proof.
  intros H N. apply face_volumes3_eq in H as (l & F & ->); auto. apply Forall2_len in F. rewrite enum_len in F. split.
  - rewrite app_length, !map_length. unfold face_size, num_cut_faces. lia.
  - apply Forall_app. split; apply Forall_forall; intros x I; apply in_map_iff in I as (y & <- & _); eexists; (split; [reflexivity|apply qabs_nonneg]).
Qed.
(** a face on a grid plane: the absolute component of its vector area along the axis of the plane *)
Theorem c108_plane_face area m v i f a c : face_volumes3 area m = Some v -> m_origF m <> [] -> pos_shape (list3 (m_vshape m)) -> is_cut_face m i f -> cf_id f = AxialFace a c -> (0 <= a < 3)%Z ->
  exists pts, face_points m f pts /\ at_entry v i = Some (Some (qabs (q3_at (vector_area pts) (Z.to_nat a)))).
Proof.
  intros H N P [HI HF] HA A. apply face_volumes3_eq in H as (l & F & ->); auto. destruct (Forall2_at _ _ _ _ _ _ _ F (enum_nth _ _ _ _ HF)) as (x & X1 & X2). cbn [fst snd] in X2. rewrite HA in X2.
  apply axial_area_some in X2 as (pts & F' & ->); auto. exists pts. split; auto. unfold at_entry. rewrite (proj2 (Z.ltb_ge i 0)) by lia. rewrite nth_error_app1 by (rewrite map_length; apply nth_error_Some; congruence). rewrite nth_error_map, X1. auto.
Qed.
(** the loops of a face on the plane (axis a, coordinate k) have a vector area along a only, so the entry is its length *)
Lemma sides_fst (A : Type) (ps : list A) : map fst (closed_sides A ps) = ps.
Proof.
  unfold closed_sides. assert (L : length (tl ps ++ firstn 1 ps) = length ps) by (rewrite app_length; destruct ps; cbn; lia). revert L. generalize (tl ps ++ firstn 1 ps) as q. induction ps as [|p ps IH]; intros [|x q] L; cbn in *; try discriminate; auto. f_equal. apply IH. lia.
Qed.
Lemma sides_snd (A : Type) (ps : list A) : Permutation (map snd (closed_sides A ps)) ps.
Proof.
  assert (E : map snd (closed_sides A ps) = tl ps ++ firstn 1 ps).
  { unfold closed_sides. assert (L : length (tl ps ++ firstn 1 ps) = length ps) by (rewrite app_length; destruct ps; cbn; lia). revert L. generalize (tl ps ++ firstn 1 ps) as q. induction ps as [|p ps IH]; intros [|x q] L; cbn in *; try discriminate; auto. f_equal. apply IH. lia. }
  rewrite E. destruct ps as [|p ps]; auto. cbn [tl firstn]. apply Permutation_sym, (Permutation_cons_append ps p).
Qed.
Lemma sides_cancel (A : Type) (g : A -> Qc) ps : lsum (fun e => g (fst e) - g (snd e)) (closed_sides A ps) = 0.
Proof.
  assert (E : lsum (fun e => g (fst e) - g (snd e)) (closed_sides A ps) = lsum g (map fst (closed_sides A ps)) - lsum g (map snd (closed_sides A ps))).
  { rewrite !lsum_map. induction (closed_sides A ps) as [|e s IH]; cbn; [ring|]. rewrite IH. ring. }
  rewrite E, sides_fst, (lsum_perm g (sides_snd A ps)). ring.
Qed.
Lemma sides_in (A : Type) (ps : list A) e : In e (closed_sides A ps) -> In (fst e) ps /\ In (snd e) ps.
Proof. intros I. split; [rewrite <- (sides_fst A ps); apply in_map; auto|apply (Permutation_in _ (sides_snd A ps)); apply in_map; auto]. Qed.
Lemma planar_loop_vector k a b ps : (a < 3)%nat -> (b < 3)%nat -> a <> b -> (forall p, In p ps -> q3_at p a = k) -> q3_at (loop_vector ps) b = 0.
Proof.
  intros A B N HP. set (o := (3 - a - b)%nat). set (s := if Nat.eqb (Nat.modulo (b + 1) 3) a then k else - k).
  assert (E : q3_at (loop_vector ps) b = lsum (fun e => s * (q3_at (snd e) o - q3_at (fst e) o)) (closed_sides q3 ps)).
  { destruct b as [|[|[|b]]]; try lia; cbn [loop_vector q3_at fst snd]; apply lsum_ext; intros [p q] I; apply sides_in in I as [I1 I2]; cbn [fst snd] in *; apply HP in I1, I2; destruct p as [[x y] z], q as [[u v] w];
    destruct a as [|[|[|a]]]; try lia; subst o s; cbn in *; subst; ring. }
  rewrite E. rewrite lsum_scale. assert (S := sides_cancel q3 (fun p => - q3_at p o) ps). rewrite (@lsum_ext _ (fun e : q3 * q3 => q3_at (snd e) o - q3_at (fst e) o) (fun e => - q3_at (fst e) o - - q3_at (snd e) o)) by (intros; ring). rewrite S. ring.
Qed.
Theorem c108_plane_norm pts a k : (a < 3)%nat -> (forall l p, In l pts -> In p l -> q3_at p a = k) -> let A := vector_area pts in dot A A = qabs (q3_at A a) * qabs (q3_at A a).
Proof.
  intros Ha H A. assert (Z : forall b, (b < 3)%nat -> a <> b -> q3_at A b = 0).
  { intros b Hb N. subst A. assert (E : lsum (fun l => q3_at (loop_vector l) b) pts = 0) by (apply lsum_0; intros l I; apply (planar_loop_vector k a b); eauto).
    destruct b as [|[|[|b]]]; try lia; cbn [vector_area vscale q3_at fst snd] in *; rewrite E; ring. }
  assert (Q : forall x, qabs x * qabs x = x * x) by (intros x; destruct (qabs_cases x) as [[_ ->]|[_ ->]]; ring). rewrite Q. destruct A as [[x y] z] eqn:EA.
  destruct a as [|[|[|a]]]; try lia; [assert (Z1 := Z 1%nat); assert (Z2 := Z 2%nat)|assert (Z1 := Z 0%nat); assert (Z2 := Z 2%nat)|assert (Z1 := Z 0%nat); assert (Z2 := Z 1%nat)]; cbn in *; rewrite Z1, Z2 by lia; ring.
Qed.
(** a piece of an input triangle: twice its area in barycentric coordinates times the area of the triangle *)
Theorem c108_mesh_face area m v i f t b : face_volumes3 area m = Some v -> m_origF m <> [] -> is_cut_face m i f -> cf_id f = MeshFace t -> NoDup (map fst (m_bary m)) -> In (i, b) (m_bary m) ->
  at_entry v i = Some (Some (qabs ((1 + 1) * bary_area (bf_barys b) * area (bf_parent b)))).
Proof.
  intros H N [HI HF] HA ND IB. apply face_volumes3_eq in H as (l & F & ->); auto. destruct (Forall2_at _ _ _ _ _ _ _ F (enum_nth _ _ _ _ HF)) as (x & X1 & X2). cbn [fst snd] in X2. rewrite HA in X2. apply Some_inj in X2.
  unfold at_entry. rewrite (proj2 (Z.ltb_ge i 0)) by lia. rewrite nth_error_app1 by (rewrite map_length; apply nth_error_Some; congruence). rewrite nth_error_map, X1. cbn [option_map]. do 2 f_equal. f_equal. rewrite <- X2. rewrite Z2Nat.id by lia.
  unfold mesh_area, mulv, face_bary_volumes. rewrite map_map, lsum_map. rewrite (@lsum_single _ _ _ (i, b)).
  - cbn. rewrite Z.eqb_refl. auto.
  - eapply NoDup_map_inv; eauto.
  - auto.
  - intros [j c] J NE. unfold t_row, t_col, t_val. cbn [fst snd]. destruct (Z.eqb_spec j i); auto. subst j. exfalso. apply NE. f_equal. clear - ND IB J.
    induction (m_bary m) as [|[k d] l IH]; [destruct J|]. cbn in ND. inversion ND as [|? ? N1 N2]; subst. destruct IB as [E|IB], J as [E'|J]; [congruence| | |auto]; exfalso; apply N1; [apply pair_equal_spec in E as [-> _]; apply (in_map fst) in J; auto|apply pair_equal_spec in E' as [-> _]; apply (in_map fst) in IB; auto].
Qed.
Definition value_at (v : list (option Qc)) (i : Z) : Qc := match at_entry v i with Some (Some q) => q | _ => 0 end.
(** the pieces of an input triangle add up to its area *)
Theorem c108_triangle_total area m v j : face_volumes3 area m = Some v -> m_origF m <> [] -> NoDup (map fst (m_bary m)) ->
  (forall i b, In (i, b) (m_bary m) -> exists f t, is_cut_face m i f /\ cf_id f = MeshFace t) ->
  (forall i b, In (i, b) (m_bary m) -> 0 <= bary_area (bf_barys b)) -> 0 <= area j ->
  tiles (map (fun p => bf_barys (snd p)) (filter (fun p => (bf_parent (snd p) =? j)%Z) (m_bary m))) ->
  lsum (fun p => if (bf_parent (snd p) =? j)%Z then value_at v (fst p) else 0) (m_bary m) = area j.
Proof.
  intros H N ND ID POS PA T. set (ps := map (fun '(fid, b) => (fid, (bf_barys b, bf_parent b))) (m_bary m)).
  assert (C := c70_column_sums ps j). assert (EQ : map (fun p : Z * (list q3 * Z) => fst (snd p)) (filter (fun p => (snd (snd p) =? j)%Z) ps) = map (fun p => bf_barys (snd p)) (filter (fun p => (bf_parent (snd p) =? j)%Z) (m_bary m))).
  { subst ps. clear. induction (m_bary m) as [|[i b] l IH]; auto. cbn [map filter snd]. destruct (bf_parent b =? j)%Z; cbn [map fst snd]; rewrite IH; auto. }
  rewrite EQ in C. specialize (C T).
  transitivity (area j * mulTv (face_bary_volumes ps) (fun _ => 1) j); [|rewrite C; ring].
  unfold mulTv, face_bary_volumes. rewrite lsum_map. unfold ps. rewrite lsum_map, <- lsum_scale. apply lsum_ext. intros [i b] I. unfold t_row, t_col, t_val. cbn [fst snd].
  destruct (Z.eqb_spec (bf_parent b) j) as [E|E]; [|ring]. destruct (ID _ _ I) as (f & t & HF & HT). unfold value_at. rewrite (c108_mesh_face area m v i f t b H N HF HT ND I). rewrite E.
  assert (P := POS _ _ I). assert (NN : 0 <= (1 + 1) * bary_area (bf_barys b) * area j). { revert P PA. generalize (bary_area (bf_barys b)) (area j). intros x y. unfold Qcle. q_push. intros; nra. }
  destruct (qabs_cases ((1 + 1) * bary_area (bf_barys b) * area j)) as [[_ ->]|[X _]]; [ring|]. exfalso. apply (Qclt_not_le _ _ X). auto.
Qed.
(** an exterior face of width w: w^2 times the product of two spacings *)
Theorem c108_exterior_face area m v k f : face_volumes3 area m = Some v -> m_origF m <> [] -> nth_error (m_afaces m) k = Some f -> (af_axis f < 3)%nat -> (forall d, 0 <= q3_at (m_dx m) d) ->
  at_entry v (num_cut_faces m + Z.of_nat k) = Some (Some (Z2Qc (af_width f * af_width f) * (q3_at (m_dx m) (af_axis f) * q3_at (m_dx m) (Nat.modulo (af_axis f + 1) 3)))).
Proof.
  intros H N HK A P. apply face_volumes3_eq in H as (l & F & ->); auto. apply Forall2_len in F. rewrite enum_len in F. unfold at_entry, num_cut_faces. rewrite (proj2 (Z.ltb_ge _ 0)) by lia.
  rewrite nth_error_app2 by (rewrite map_length; lia). rewrite map_length. replace (Z.to_nat _ - length l)%nat with k by lia. rewrite nth_error_map, HK. cbn [option_map]. do 2 f_equal. rewrite c54_exact_face_area by auto.
  assert (Q : forall d, qget3 (m_dx m) d = q3_at (m_dx m) d) by (intros d; destruct (m_dx m) as [[x y] z], d as [|[|d]]; reflexivity). rewrite !Q.
  set (r := _ * _). destruct (qabs_cases r) as [[_ ->]|[X _]]; auto. exfalso. apply (Qclt_not_le _ _ X). subst r. assert (P1 := P (af_axis f)). assert (P2 := P (Nat.modulo (af_axis f + 1) 3)).
  assert (P3 : 0 <= Z2Qc (af_width f * af_width f)). { change 0 with (Z2Qc 0). apply Z2Qc_le. nia. } revert P1 P2 P3. generalize (q3_at (m_dx m) (af_axis f)) (q3_at (m_dx m) (Nat.modulo (af_axis f + 1) 3)) (Z2Qc (af_width f * af_width f)). intros x y z.
  unfold Qcle. q_push. intros. assert (0 <= this x * this y)%Q by nra. nra.
Qed.
(** without input triangles the cut faces are dropped from the vector *)
Theorem c108_no_triangles_refuted area m v : m_origF m = [] -> m_faces m <> [] -> face_volumes3 area m = Some v -> Z.of_nat (length v) <> face_size m /\ length v = length (m_afaces m).
Proof.
  intros E N. unfold face_volumes3. rewrite E. intros H. apply checked_some in H as [_ ->]. unfold ag_face_volumes. rewrite !map_length. split; auto. unfold face_size, num_cut_faces. destruct (m_faces m); [contradiction|cbn; lia].
Qed.
(** from_triangulation: the sum of the areas of the triangles; a face without a triangulation has no defined value *)
Theorem c108_from_triangulation tarea m v i f : face_volumes3_tri tarea m = Some v -> pos_shape (list3 (m_vshape m)) -> (forall t, 0 <= tarea t) -> is_cut_face m i f ->
  match cf_tri f with
  | Some T => exists ts, Forall2 (fun '(a, b, c) t => exists p q r, vertex3 m a = Some p /\ vertex3 m b = Some q /\ vertex3 m c = Some r /\ t = (p, q, r)) T ts /\ at_entry v i = Some (Some (lsum tarea ts))
  | None => at_entry v i = Some None
  end.
Proof.
  intros H P TP [HI HF]. unfold face_volumes3_tri in H. destruct (sequence _) as [l|] eqn:S; [|discriminate]. apply checked_some in H as [_ ->]. apply sequence_forall2 in S. destruct (Forall2_at _ _ _ _ _ _ _ S HF) as (x & X1 & X2).
  unfold at_entry. rewrite (proj2 (Z.ltb_ge i 0)) by lia. rewrite map_app, nth_error_app1 by (rewrite map_length; apply nth_error_Some; congruence). rewrite nth_error_map, X1. cbn [option_map].
  destruct (cf_tri f) as [T|]; [|apply Some_inj in X2; subst; auto]. destruct (sequence _) as [ts|] eqn:ST; [|discriminate]. cbn [option_map] in X2. apply Some_inj in X2. subst x. cbn [option_map]. exists ts. split.
  - apply sequence_forall2 in ST. clear - ST P. induction ST as [|[[a b] c] t T ts E ST IH]; constructor; auto. unfold tri_cols in E. rewrite !col_vertex in E by auto.
    destruct (vertex3 m a) as [p|]; [|discriminate]. destruct (vertex3 m b) as [q|]; [|discriminate]. destruct (vertex3 m c) as [r|]; [|discriminate]. apply Some_inj in E. subst. exists p, q, r. auto.
  - do 2 f_equal. assert (FS : forall l s, fold_left (fun s t => s + tarea t) l s = s + lsum tarea l) by (induction l0 as [|y l0 IH]; intros s; cbn; [ring|rewrite IH; ring]). rewrite FS.
    assert (NN : 0 <= lsum tarea ts) by (apply lsum_nonneg; auto). replace (0 + lsum tarea ts) with (lsum tarea ts) by ring. destruct (qabs_cases (lsum tarea ts)) as [[_ ->]|[X _]]; auto. exfalso. apply (Qclt_not_le _ _ X). auto.
Qed.

(** ** C109: dual edge lengths *)
(** what is used of the Euclidean norm: not negative, and the absolute value along a grid axis *)
Definition on_axis (d : nat) (v : q3) : Prop := forall e, (e < 3)%nat -> e <> d -> q3_at v e = 0.
Definition norm_like (nrm : q3 -> Qc) : Prop := (forall v, 0 <= nrm v) /\ forall v d, (d < 3)%nat -> on_axis d v -> nrm v = qabs (q3_at v d).
(** the centre of the grid cell with low corner g, and of a cube *)
Definition box_centre (b : acell) : q3 := vadd (zvec (fst b)) (vscale (Z2Qc (snd b) / Z2Qc 2) (1, 1, 1)).
Definition cell_centre (g : c3) : q3 := box_centre (g, 1%Z).
Lemma acenter_eq b : acenter b = box_centre b.
Proof. destruct b as [[[x y] z] w]. unfold acenter, box_centre, zvec, vadd, vscale. cbn [fst snd]. f_equal; [f_equal|]; ring. Qed.
Lemma centre_diff b g : vsub (vsub (acenter b) half3) (zvec g) = vsub (box_centre b) (cell_centre g).
Proof.
  rewrite acenter_eq. unfold cell_centre, half3. assert (E : Z2Qc 1 / Z2Qc 2 = qhalf) by (apply Qc_is_canon; reflexivity).
  destruct (box_centre b) as [[x y] z], g as [[u v] w]. unfold box_centre, vsub, vadd, vscale, zvec. cbn [fst snd]. rewrite E. f_equal; [f_equal|]; ring.
Qed.
Lemma last_write_app a b k : last_write (a ++ b) k = fold_left (fun acc '(i, v) => if (i =? k)%Z then v else acc) b (last_write a k).
Proof. unfold last_write. apply fold_left_app. Qed.
Lemma fold_write_none (b : list (Z * Qc)) k s : (forall v, ~ In (k, v) b) -> fold_left (fun acc '(i, v) => if (i =? k)%Z then v else acc) b s = s.
Proof. revert s. induction b as [|[i v] b IH]; intros s H; cbn; auto. destruct (Z.eqb_spec i k) as [->|]; [edestruct H; left; eauto|]. apply IH. intros w I. apply (H w). right. auto. Qed.
Lemma fold_write_all (b : list (Z * Qc)) k s v : (forall w, In (k, w) b -> w = v) -> In (k, v) b -> fold_left (fun acc '(i, v) => if (i =? k)%Z then v else acc) b s = v.
Proof.
  revert s. induction b as [|[i w] b IH]; intros s H I; [destruct I|]. cbn. destruct (Z.eqb_spec i k) as [->|NE].
  - assert (w = v) by (apply H; left; auto). subst w. assert (DEC : {In (k, v) b} + {~ In (k, v) b}) by (apply in_dec; intros [a1 b1] [a2 b2]; destruct (Z.eq_dec a1 a2), (Qc_eq_dec b1 b2); subst; [left; reflexivity| | |]; right; intros X; apply pair_equal_spec in X as [? ?]; contradiction).
    destruct DEC as [J|J].
    + apply IH; auto. intros; apply H; right; auto.
    + apply fold_write_none. intros w J'. assert (w = v) by (apply H; right; auto). subst. auto.
  - apply IH; [intros; apply H; right; auto|]. destruct I as [E|I]; auto. apply pair_equal_spec in E as [-> _]. contradiction.
Qed.
Lemma dual_lengths_eq nrm m v : dual_edge_lengths3 nrm m = Some v -> exists ws, dual_writes nrm m = Some ws /\
  v = map (fun i => Some (last_write (ws ++ axial_writes m) i)) (zseq (num_cut_faces m)) ++ ag_dual_lengths nrm (m_dx m) (m_cubes m) (m_afaces m).
Proof. unfold dual_edge_lengths3. destruct (dual_writes nrm m) as [ws|]; [|discriminate]. intros H. apply Some_inj in H. subst. eauto. Qed.
Lemma dual_cut_entry nrm m v ws i f : dual_edge_lengths3 nrm m = Some v -> dual_writes nrm m = Some ws -> is_cut_face m i f -> at_entry v i = Some (Some (last_write (ws ++ axial_writes m) i)).
Proof.
  intros H W [HI HF]. apply dual_lengths_eq in H as (ws' & W' & ->). rewrite W in W'. apply Some_inj in W'. subst ws'. assert (L : (Z.to_nat i < length (m_faces m))%nat) by (apply nth_error_Some; congruence).
  unfold at_entry. rewrite (proj2 (Z.ltb_ge i 0)) by lia. rewrite nth_error_app1 by (rewrite map_length, zseq_len; unfold num_cut_faces; lia). rewrite nth_error_map, nth_error_zseq. unfold num_cut_faces. rewrite (proj2 (Z.ltb_lt _ _)) by lia. rewrite Z2Nat.id by lia. auto.
Qed.
Lemma sequence_In (A B : Type) (l : list (option (list A))) r x : sequence l = Some r -> (In x (concat r) <-> exists w, In (Some w) l /\ In x w).
Proof.
  revert r. induction l as [|[w|] l IH]; intros r; cbn; [|destruct (sequence l)|]; try discriminate.
  - intros H. apply Some_inj in H. subst. cbn. split; [tauto|]. intros (w & [] & _).
  - intros H. apply Some_inj in H. subst. cbn. rewrite in_app_iff, (IH _ eq_refl). split; [intros [H|(u & H1 & H2)]; eauto|]. intros (u & [E|H1] & H2); [apply Some_inj in E; subst; auto|eauto].
Qed.
Lemma dual_writes_In nrm m ws k v : dual_writes nrm m = Some ws -> (In (k, v) ws <-> exists c s w, In c (m_cells m) /\ In (k, s) (ce_faces c) /\ dual_write nrm m (ce_grid c) k = Some w /\ In (k, v) w).
Proof.
  unfold dual_writes. destruct (sequence _) as [r|] eqn:S; [|discriminate]. intros H. apply Some_inj in H. subst ws. rewrite (sequence_In (Z * Qc) unit _ _ _ S). split.
  - intros (w & I & J). apply in_flat_map in I as (c & C & I). apply in_map_iff in I as ([j s] & E & I). cbn [fst] in E. assert (j = k).
    { unfold dual_write in E. destruct (col (m_faces m) j) as [f|]; [|discriminate]. destruct (cf_ext f) as [[cid s']|]; [|apply Some_inj in E; subst; destruct J]. destruct (0 <=? cid)%Z; [|apply Some_inj in E; subst; destruct J].
      destruct (cell_at _ _); [|discriminate]. apply Some_inj in E. subst. destruct J as [J|[]]. apply pair_equal_spec in J as [J _]. auto. }
    subst j. exists c, s, w. auto.
  - intros (c & s & w & C & I & E & J). exists w. split; auto. apply in_flat_map. exists c. split; auto. apply in_map_iff. exists (k, s). auto.
Qed.
Lemma axial_writes_In m k v : In (k, v) (axial_writes m) <-> exists f a c, is_cut_face m k f /\ cf_id f = AxialFace a c /\ cf_ext f = None /\ v = q3_at (m_dx m) (Z.to_nat a).
Proof.
  unfold axial_writes. rewrite in_flat_map. split.
  - intros ([i f] & I & H). apply enum_In in I. destruct (cf_id f) eqn:EI; [destruct H|]. destruct (cf_ext f) eqn:EX; [destruct H|]. destruct H as [H|[]]. apply pair_equal_spec in H as [-> <-]. exists f, axis, value. auto.
  - intros (f & a & c & I & E1 & E2 & ->). exists (k, f). split; [apply enum_In; auto|]. rewrite E1, E2. left. auto.
Qed.
Lemma col_face m i f : is_cut_face m i f -> col (m_faces m) i = Some f.
Proof. intros [HI HF]. unfold col. rewrite (proj2 (Z.ltb_ge i 0)) by lia. auto. Qed.
(** a face on a grid plane between two cut cells: the grid spacing along its axis *)
Theorem c109_interior nrm m v i f a c : dual_edge_lengths3 nrm m = Some v -> is_cut_face m i f -> cf_id f = AxialFace a c -> cf_ext f = None -> at_entry v i = Some (Some (q3_at (m_dx m) (Z.to_nat a))).
Proof.
  intros H HF EI EX. destruct (dual_lengths_eq _ _ _ H) as (ws & W & _). rewrite (dual_cut_entry _ _ _ _ _ _ H W HF), last_write_app. do 2 f_equal. apply fold_write_all.
  - intros w I. apply axial_writes_In in I as (f' & a' & c' & HF' & E1 & E2 & ->). assert (f' = f) by (destruct HF, HF'; congruence). subst. congruence.
  - apply axial_writes_In. exists f, a, c. auto.
Qed.
(** a piece of an input triangle that borders no exterior cell has no dual edge: its length is 0; so has a face on the boundary of the domain *)
Theorem c109_zero nrm m v i f : dual_edge_lengths3 nrm m = Some v -> is_cut_face m i f ->
  (exists t, cf_id f = MeshFace t) /\ cf_ext f = None \/ (exists o s, cf_ext f = Some (o, s) /\ (o < 0)%Z) -> at_entry v i = Some (Some 0).
Proof.
  intros H HF C. destruct (dual_lengths_eq _ _ _ H) as (ws & W & _). rewrite (dual_cut_entry _ _ _ _ _ _ H W HF), last_write_app. do 2 f_equal. rewrite fold_write_none.
  - apply (fold_write_none ws). intros w I. apply (dual_writes_In _ _ _ _ _ W) in I as (c & s & u & _ & _ & E & J). unfold dual_write in E. rewrite (col_face _ _ _ HF) in E.
    destruct C as [[_ EX]|(o & s' & EX & L)]; rewrite EX in E; [|rewrite (proj2 (Z.leb_gt 0 o)) in E by auto]; apply Some_inj in E; subst; destruct J.
  - intros w I. apply axial_writes_In in I as (f' & a' & c' & HF' & E1 & E2 & ->). assert (f' = f) by (destruct HF, HF'; congruence). subst. destruct C as [[(t & E) _]|(o & s & E & _)]; congruence.
Qed.
(** a face next to the uncut cell p: the distance between the centre of the grid cell of its cut cell and the centre of the exterior cube holding p *)
Theorem c109_external nrm m cubes0 v i f p s k j b g : generated m cubes0 -> dual_edge_lengths3 nrm m = Some v -> is_cut_face m i f -> cf_ext f = Some (index3 (cshape m) p, s) ->
  nth_error cubes0 k = Some (j, b) -> in_box b p -> (exists c s', In c (m_cells m) /\ In (i, s') (ce_faces c)) -> (forall c s', In c (m_cells m) -> In (i, s') (ce_faces c) -> ce_grid c = g) ->
  at_entry v i = Some (Some (nrm (vmul (m_dx m) (vsub (box_centre b) (cell_centre g))))).
Proof.
  intros OK H HF EX HK HB (c & s' & HC & HI) HG. destruct (dual_lengths_eq _ _ _ H) as (ws & W & _). rewrite (dual_cut_entry _ _ _ _ _ _ H W HF), last_write_app. do 2 f_equal.
  assert (WF := g_wf m cubes0 OK). assert (D := g_disj m cubes0 OK). assert (NC : (0 <= num_cut_cells m)%Z) by (unfold num_cut_cells; lia).
  assert (OW : owns cubes0 j p) by (exists b; split; auto; eapply nth_error_In; eauto). assert (GP := own_grid _ _ WF _ _ OW). assert (IX : (0 <= index3 (cshape m) p)%Z).
  { apply in3_grid in GP. destruct (cshape m) as [[a1 a2] a3], p as [[x y] z]. cbn [index3 in3] in *. apply ravel_range in GP. lia. }
  assert (CA : cell_at (m_cubes m) (own_get (cshape m) (m_cubes m) (index3 (cshape m) p)) = Some b).
  { rewrite (g_cubes m cubes0 OK), (own_get_spec _ _ _ _ _ NC WF D OW _ _ HK). destruct (renumber_wf _ _ _ NC WF D) as [W' _]. unfold cell_at. apply (map_find_Some Zcompare_total); [apply W'|]. apply renumber_In. eauto. }
  assert (DW : forall c s', In c (m_cells m) -> In (i, s') (ce_faces c) -> dual_write nrm m (ce_grid c) i = Some [(i, nrm (vmul (m_dx m) (vsub (box_centre b) (cell_centre g))))]).
  { intros c' s'' C' I'. unfold dual_write. rewrite (col_face _ _ _ HF), EX, (proj2 (Z.leb_le _ _) IX), CA, (HG _ _ C' I'), centre_diff. auto. }
  rewrite fold_write_none.
  - apply fold_write_all.
    + intros w I. apply (dual_writes_In _ _ _ _ _ W) in I as (c' & s'' & u & C' & I' & E & J). rewrite (DW _ _ C' I') in E. apply Some_inj in E. subst. destruct J as [J|[]]. apply pair_equal_spec in J as [_ J]. auto.
    + apply (dual_writes_In _ _ _ _ _ W). exists c, s', [(i, nrm (vmul (m_dx m) (vsub (box_centre b) (cell_centre g))))]. repeat split; eauto. left. auto.
  - intros w I. apply axial_writes_In in I as (f' & a' & c' & HF' & E1 & E2 & _). assert (f' = f) by (destruct HF, HF'; congruence). subst. congruence.
Qed.
(** for a unit exterior cell that is the neighbour of the cut cell along d, this is the spacing along d *)
Theorem c109_unit_neighbour nrm dx g d t : norm_like nrm -> (d < 3)%nat -> (t = 1 \/ t = -1)%Z -> 0 <= q3_at dx d -> nrm (vmul dx (vsub (box_centre (add3 g d t, 1%Z)) (cell_centre g))) = q3_at dx d.
Proof.
  intros [_ NA] Hd HT P.
  assert (V : forall e, (e < 3)%nat -> q3_at (vmul dx (vsub (box_centre (add3 g d t, 1%Z)) (cell_centre g))) e = if Nat.eqb e d then q3_at dx d * Z2Qc t else 0).
  { intros e He. destruct g as [[x y] z], dx as [[a b] c]. unfold cell_centre, box_centre, vsub, vmul, vadd, vscale, zvec. cbn [fst snd].
    destruct d as [|[|[|d]]]; try lia; destruct e as [|[|[|e]]]; try lia; cbn [add3 q3_at fst snd Nat.eqb]; rewrite ?Z2Qc_plus; ring. }
  rewrite (NA _ d Hd); [|intros e He N; rewrite V by auto; rewrite (proj2 (Nat.eqb_neq e d)) by auto; auto]. rewrite V, Nat.eqb_refl by auto.
  destruct HT as [ -> | -> ]; [replace (q3_at dx d * Z2Qc 1) with (q3_at dx d) by (rewrite Z2Qc_1; ring)|replace (q3_at dx d * Z2Qc (-1)) with (- q3_at dx d) by (change (Z2Qc (-1)) with (- (1)); ring)].
  - destruct (qabs_cases (q3_at dx d)) as [[_ ->]|[X _]]; auto. exfalso. apply (Qclt_not_le _ _ X). auto.
  - destruct (qabs_cases (- q3_at dx d)) as [[X ->]|[_ ->]]; [|ring]. assert (q3_at dx d = 0) by (apply Qcle_antisym; [|auto]; qc_lra). rewrite H. ring.
Qed.
(** entries of exterior faces; those whose dual edge does not name two stored cells are never written *)
Theorem c109_exterior nrm m v k f : dual_edge_lengths3 nrm m = Some v -> nth_error (m_afaces m) k = Some f ->
  at_entry v (num_cut_faces m + Z.of_nat k) = Some (match dual_edge_pair (m_cubes m) f with Some (a, b) => Some (nrm (vmul (m_dx m) (vsub (box_centre a) (box_centre b)))) | None => None end).
Proof.
  intros H HK. apply dual_lengths_eq in H as (ws & _ & ->). unfold at_entry, num_cut_faces. rewrite (proj2 (Z.ltb_ge _ 0)) by lia. rewrite nth_error_app2 by (rewrite map_length, zseq_len; lia). rewrite map_length, zseq_len.
  replace (Z.to_nat _ - _)%nat with k by lia. unfold ag_dual_lengths. rewrite nth_error_map, HK. cbn [option_map]. f_equal. destruct (dual_edge_pair _ f) as [[a b]|]; auto. cbn. rewrite !acenter_eq. auto.
Qed.
(** in every generated mesh the exterior faces on the boundary of the domain are left uninitialised *)
Theorem c109_boundary_uninitialised_refuted nrm m cubes0 v k f : generated m cubes0 -> dual_edge_lengths3 nrm m = Some v -> nth_error (m_afaces m) k = Some f ->
  adaptive_on_boundary (cells_per_axis (m_vshape m)) f -> at_entry v (num_cut_faces m + Z.of_nat k) = Some None.
Proof.
  intros OK H HK B. rewrite (c109_exterior _ _ _ _ _ H HK). assert (WF := g_wf m cubes0 OK). assert (D := g_disj m cubes0 OK). assert (NC : (0 <= num_cut_cells m)%Z) by (unfold num_cut_cells; lia).
  change (cells_per_axis (m_vshape m)) with (cshape m) in B. apply (c51_adaptive_boundary _ _ _ (g_pos m cubes0 OK) WF D) in B; [|rewrite <- (g_faces m cubes0 OK); eapply nth_error_In; eauto].
  destruct (renumber_wf _ _ _ NC WF D) as [W' _]. rewrite <- (g_cubes m cubes0 OK) in W'.
  assert (NB : cell_at (m_cubes m) (-2) = None). { destruct (cell_at (m_cubes m) (-2)) as [b|] eqn:E; auto. unfold cell_at in E. apply (map_find_Some Zcompare_total) in E; [|apply W']. apply (proj2 W') in E. lia. }
  unfold dual_edge_pair, is_valid_edge. destruct (af_dual f) as [l h]. cbn [fst snd] in *. destruct B as [ -> | -> ]; rewrite NB; [rewrite andb_false_r; auto|]. destruct (cell_at (m_cubes m) l); rewrite andb_false_r; auto.
Qed.

(** ** C110: Hodge stars on faces *)
Lemma combine_nth2 (A B : Type) (l : list A) (l' : list B) j x y : nth_error l j = Some x -> nth_error l' j = Some y -> nth_error (combine l l') j = Some (x, y).
Proof. revert l' j. induction l as [|a l IH]; intros [|b l'] [|j] H H'; cbn in *; try discriminate; [congruence|auto]. Qed.
Lemma hodge_entry pv dv h i p d : hodge_dual2 pv dv = Some h -> at_entry pv i = Some p -> at_entry dv i = Some d -> at_entry h i = Some (oratio p d).
Proof.
  unfold hodge_dual2, at_entry. destruct (_ =? _)%nat; [|discriminate]. intros H. apply Some_inj in H. subst h. destruct (i <? 0)%Z; [discriminate|]. intros P D. rewrite nth_error_map, (combine_nth2 _ _ _ _ _ _ _ P D). auto.
Qed.
Lemma hodge_entry' pv dv h i p d : hodge_primal2 pv dv = Some h -> at_entry pv i = Some p -> at_entry dv i = Some d -> at_entry h i = Some (oratio d p).
Proof.
  unfold hodge_primal2, at_entry. destruct (_ =? _)%nat; [|discriminate]. intros H. apply Some_inj in H. subst h. destruct (i <? 0)%Z; [discriminate|]. intros P D. rewrite nth_error_map, (combine_nth2 _ _ _ _ _ _ _ P D). auto.
Qed.
Lemma dual_hodge2_parts nrm area m h : dual_hodge2 nrm area m = Some h -> exists pv dv, face_volumes3 area m = Some pv /\ dual_edge_lengths3 nrm m = Some dv /\ hodge_dual2 pv dv = Some h.
Proof. unfold dual_hodge2. destruct (face_volumes3 area m) as [pv|]; [|discriminate]. destruct (dual_edge_lengths3 nrm m) as [dv|]; [|discriminate]. eauto. Qed.
Lemma primal_hodge2_parts nrm area m h : primal_hodge2 nrm area m = Some h -> exists pv dv, face_volumes3 area m = Some pv /\ dual_edge_lengths3 nrm m = Some dv /\ hodge_primal2 pv dv = Some h.
Proof. unfold primal_hodge2. destruct (face_volumes3 area m) as [pv|]; [|discriminate]. destruct (dual_edge_lengths3 nrm m) as [dv|]; [|discriminate]. eauto. Qed.
Lemma qltb_ge x y : (y <= x)%Qc -> qltb x y = false.
Proof. intros H. destruct (qltb x y) eqn:E; auto. apply qltb_lt in E. exfalso. apply (Qclt_not_le _ _ E). auto. Qed.
(** area over dual length where the length is above the cutoff, else 0; the primal star is the other way round; they are inverse where both are above it *)
Theorem c110_stars nrm area m h h' pv dv i p d : dual_hodge2 nrm area m = Some h -> primal_hodge2 nrm area m = Some h' -> face_volumes3 area m = Some pv -> dual_edge_lengths3 nrm m = Some dv ->
  at_entry pv i = Some (Some p) -> at_entry dv i = Some (Some d) ->
  exists a b, at_entry h i = Some (Some a) /\ at_entry h' i = Some (Some b) /\ (cutoff < d -> a * d = p) /\ (d <= cutoff -> a = 0) /\ (cutoff < p -> b * p = d) /\ (p <= cutoff -> b = 0) /\ (cutoff < d -> cutoff < p -> a * b = 1).
Proof.
  intros H H' HP HD EP ED. apply dual_hodge2_parts in H as (pv1 & dv1 & P1 & D1 & H). apply primal_hodge2_parts in H' as (pv2 & dv2 & P2 & D2 & H').
  rewrite HP in P1, P2. rewrite HD in D1, D2. apply Some_inj in P1, P2, D1, D2. subst pv1 pv2 dv1 dv2.
  rewrite (hodge_entry _ _ _ _ _ _ H EP ED), (hodge_entry' _ _ _ _ _ _ H' EP ED). unfold oratio.
  assert (C0 : 0 < cutoff) by reflexivity. assert (NZ : forall x, cutoff < x -> x <> 0) by (intros x L ->; apply (Qclt_not_le _ _ L); apply Qclt_le_weak; auto).
  exists (if qltb cutoff d then p / d else 0), (if qltb cutoff p then d / p else 0). split; [destruct (qltb cutoff d); auto|]. split; [destruct (qltb cutoff p); auto|].
  split; [intros L; rewrite (proj2 (qltb_lt _ _) L); field; auto|]. split; [intros L; rewrite (qltb_ge _ _ L); auto|]. split; [intros L; rewrite (proj2 (qltb_lt _ _) L); field; auto|]. split; [intros L; rewrite (qltb_ge _ _ L); auto|].
  intros L L'. rewrite (proj2 (qltb_lt _ _) L), (proj2 (qltb_lt _ _) L'). field. auto.
Qed.
(** nothing flows through the input mesh: the weight of its faces is 0 *)
Theorem c110_mesh_face_zero nrm area m h i f t : dual_hodge2 nrm area m = Some h -> is_cut_face m i f -> cf_id f = MeshFace t -> cf_ext f = None -> at_entry h i = Some (Some 0).
Proof.
  intros H HF EI EX. destruct (dual_hodge2_parts _ _ _ _ H) as (pv & dv & HP & HD & HH). assert (ED : at_entry dv i = Some (Some 0)) by (eapply c109_zero; eauto).
  assert (LP : length pv = length dv) by (unfold hodge_dual2 in HH; destruct (Nat.eqb_spec (length pv) (length dv)); [auto|discriminate]).
  assert (EP : exists p, at_entry pv i = Some p). { unfold at_entry in *. destruct (i <? 0)%Z; [discriminate|]. destruct (nth_error pv (Z.to_nat i)) eqn:E; eauto. apply nth_error_None in E. rewrite LP in E. apply nth_error_None in E. congruence. }
  destruct EP as [p EP]. rewrite (hodge_entry _ _ _ _ _ _ HH EP ED). reflexivity.
Qed.
(** a face on a grid plane between two cut cells: its area over the spacing *)
Theorem c110_interior_face nrm area m h i f a c : dual_hodge2 nrm area m = Some h -> m_origF m <> [] -> pos_shape (list3 (m_vshape m)) -> is_cut_face m i f -> cf_id f = AxialFace a c -> (0 <= a < 3)%Z -> cf_ext f = None ->
  cutoff < q3_at (m_dx m) (Z.to_nat a) -> exists pts, face_points m f pts /\ at_entry h i = Some (Some (qabs (q3_at (vector_area pts) (Z.to_nat a)) / q3_at (m_dx m) (Z.to_nat a))).
Proof.
  intros H N PS HF EI A EX L. destruct (dual_hodge2_parts _ _ _ _ H) as (pv & dv & HP & HD & HH). assert (ED := c109_interior _ _ _ _ _ _ _ HD HF EI EX).
  destruct (c108_plane_face _ _ _ _ _ _ _ HP N PS HF EI A) as (pts & F & EP). exists pts. split; auto. rewrite (hodge_entry _ _ _ _ _ _ HH EP ED). unfold oratio. rewrite (proj2 (qltb_lt _ _) L). auto.
Qed.
(** in every generated mesh the weight of an exterior face on the boundary of the domain is computed from an uninitialised length *)
Theorem c110_boundary_uninitialised_refuted nrm area m cubes0 h k f : generated m cubes0 -> dual_hodge2 nrm area m = Some h -> nth_error (m_afaces m) k = Some f ->
  adaptive_on_boundary (cells_per_axis (m_vshape m)) f -> at_entry h (num_cut_faces m + Z.of_nat k) = Some None.
Proof.
  intros OK H HK B. destruct (dual_hodge2_parts _ _ _ _ H) as (pv & dv & HP & HD & HH). assert (ED := c109_boundary_uninitialised_refuted _ _ _ _ _ _ OK HD HK B).
  assert (LP : length pv = length dv) by (unfold hodge_dual2 in HH; destruct (Nat.eqb_spec (length pv) (length dv)); [auto|discriminate]).
  assert (EP : exists p, at_entry pv (num_cut_faces m + Z.of_nat k) = Some p). { unfold at_entry in *. destruct (_ <? 0)%Z; [discriminate|]. destruct (nth_error pv _) eqn:E; eauto. apply nth_error_None in E. rewrite LP in E. apply nth_error_None in E. congruence. }
  destruct EP as [p EP]. rewrite (hodge_entry _ _ _ _ _ _ HH EP ED). auto.
Qed.
(** cut faces without input triangles (a mesh whose input was not kept): the two vectors differ in length and the quotient is undefined *)
Theorem c110_no_triangles_refuted nrm area m : m_origF m = [] -> m_faces m <> [] -> dual_hodge2 nrm area m = None /\ primal_hodge2 nrm area m = None.
Proof.
  intros E N. unfold dual_hodge2, primal_hodge2. destruct (face_volumes3 area m) as [pv|] eqn:HP; auto. destruct (dual_edge_lengths3 nrm m) as [dv|] eqn:HD; auto.
  destruct (c108_no_triangles_refuted area m pv E N HP) as [L1 _]. assert (L2 : Z.of_nat (length dv) = face_size m).
  { apply dual_lengths_eq in HD as (ws & _ & ->). rewrite app_length, map_length, zseq_len. unfold ag_dual_lengths. rewrite map_length. unfold face_size, num_cut_faces. lia. }
  unfold hodge_dual2, hodge_primal2. destruct (Nat.eqb_spec (length pv) (length dv)); [|auto]. congruence.
Qed.

(** ** C111: divergence and Laplacian *)
Theorem c111_sizes m h2 : Z.of_nat (length h2) = face_size m -> face_size m <> cell_size m -> divergence3 m h2 = None /\ laplacian3 m h2 = None.
Proof.
  intros L N. unfold divergence3, laplacian3, boundary_matrix. destruct (boundary3 m false) as [B|]; cbn [option_map]; auto. unfold mat_diag. cbn [mat_cols]. rewrite L. rewrite (proj2 (Z.eqb_neq (cell_size m) (face_size m))) by congruence. auto.
Qed.
Lemma box_has_corner b : (0 < snd b)%Z -> in_box b (fst b). Proof. intros H d Hd. lia. Qed.
Lemma get3_add3_low (p : c3) : get3 (add3 p 0 (-1)) 0 = (get3 p 0 - 1)%Z. Proof. destruct p as [[x y] z]. cbn. lia. Qed.
(** an uncut grid has more faces than cells: each cell has a face on its low side along the first axis, and the last ones have one more *)
Lemma more_faces shape cubes0 : AdaptiveFaces.pos3 shape -> wf_cells shape cubes0 -> disjoint_cells cubes0 -> AdaptiveSpec.tiles shape (fun _ => True) cubes0 -> (length cubes0 < length (make_faces shape cubes0))%nat.
Proof.
  intros PS W D [T1 T2]. destruct (c26_one_face_per_meeting_pair shape cubes0 PS W D) as (ND & _ & EX).
  set (keys := map (fun f => (af_axis f, af_dual f)) (make_faces shape cubes0)) in *.
  assert (LOW : forall i b, In (i, b) cubes0 -> exists l, meet shape cubes0 0 l i).
  { intros i b I. destruct (proj2 W i b I) as (NI & WB & GB). assert (IC := box_has_corner b WB). assert (GC := GB _ IC). destruct (Z.eq_dec (get3 (fst b) 0) 0) as [E|E].
    - exists (-2)%Z. right. left. split; auto. exists (fst b). split; auto. exists b. auto.
    - assert (G' : AdaptiveSpec.in_grid shape (add3 (fst b) 0 (-1))). { intros d Hd. assert (X := GC d Hd). rewrite add3_get by auto. destruct (Nat.eqb_spec d 0) as [->|]; lia. }
      destruct (T2 _ G' Logic.I) as ([j c] & [J1 J2] & _). cbn [snd] in J2. exists j. left. split.
      + intros ->. assert (c = b). { apply (cellsi shape cubes0 W) in J1. apply (cellsi shape cubes0 W) in I. congruence. } subst. assert (X := J2 0%nat ltac:(lia)). rewrite add3_get in X by lia. cbn in X. lia.
      + exists (add3 (fst b) 0 (-1)). split; [exists c; auto|]. exists b. split; auto. destruct b as [[[x y] z] w]. cbn in *. replace (x + -1 + 1)%Z with x by lia. auto. }
  assert (OUT : exists a, meet shape cubes0 0 a (-2)).
  { set (q := (get3 shape 0 - 1, 0, 0)%Z). assert (G : AdaptiveSpec.in_grid shape q). { intros d Hd. assert (X := PS d Hd). subst q. destruct d as [|[|[|d]]]; cbn [get3]; try lia; try apply X. } destruct (T2 q G Logic.I) as ([j c] & [J1 J2] & _). exists j. right. right. split; auto. exists q. split; [exists c; auto|reflexivity]. }
  (* every owner, and -2, occurs as the upper end of a key of axis 0 *)
  assert (INC : incl (-2 :: map fst cubes0)%Z (map (fun k => snd (snd k)) keys)).
  { assert (K : forall l h, meet shape cubes0 0 l h -> In h (map (fun k => snd (snd k)) keys)). { intros l h M. apply EX in M; [|lia]. destruct M as (f & F1 & F2 & F3). apply in_map_iff. exists (af_axis f, af_dual f). split; [rewrite F3; auto|]. unfold keys. apply in_map_iff. eauto. }
    intros h [<-|I]; [destruct OUT as [a M]; eauto|]. apply in_map_iff in I as ([i b] & <- & I). destruct (LOW _ _ I) as [l M]. eauto. }
  assert (NDI : NoDup (-2 :: map fst cubes0)%Z).
  { constructor; [|apply (ssorted_NoDup Zcompare_total), W]. intros I. apply in_map_iff in I as ([i b] & E & I). cbn in E. subst. apply (proj2 W) in I. lia. }
  assert (L := NoDup_incl_length NDI INC). cbn [length] in L. unfold keys in L. rewrite !map_length in L. lia.
Qed.
(** so on a generated mesh without cuts neither operator is defined, whatever weights are used *)
Theorem c111_uncut_refuted m cubes0 h2 : generated m cubes0 -> m_faces m = [] -> m_cells m = [] -> AdaptiveSpec.tiles (cshape m) (fun _ => True) cubes0 -> Z.of_nat (length h2) = face_size m ->
  divergence3 m h2 = None /\ laplacian3 m h2 = None.
Proof.
  intros OK EF EC T L. apply c111_sizes; auto. assert (M := more_faces _ _ (g_pos m cubes0 OK) (g_wf m cubes0 OK) (g_disj m cubes0 OK) T). unfold face_size, cell_size, num_cut_faces, num_cut_cells. rewrite EF, EC, (g_faces m cubes0 OK), (g_cubes m cubes0 OK).
  unfold renumber. rewrite map_length, combine_length, List.seq_length. cbn [length]. lia.
Qed.
(** when the numbers happen to agree, the result weights the column of cell c by the star of face number c *)
Theorem c111_defined_partial m cubes0 h2 : generated m cubes0 -> Z.of_nat (length h2) = face_size m -> face_size m = cell_size m ->
  exists B D, boundary3 m false = Some B /\ divergence3 m h2 = Some D /\ mat_rows D = face_size m /\ mat_cols D = cell_size m /\
    forall r c, (0 <= c)%Z -> coeff (mat_entries D) r c = coeff B r c * nth (Z.to_nat c) h2 0.
Proof.
  intros OK L E. destruct (c73_coefficients m cubes0 false OK) as (B & HB & _). unfold divergence3, boundary_matrix. rewrite HB. cbn [option_map]. unfold mat_diag. cbn [mat_cols mat_rows mat_entries]. rewrite L, E, Z.eqb_refl. eexists _, _. split; [reflexivity|]. split; [reflexivity|]. cbn [mat_rows mat_cols mat_entries]. split; auto. split; auto.
  intros r c Hc. unfold coeff. rewrite lsum_map. rewrite Qcmult_comm, <- lsum_scale. apply lsum_ext. intros [[r' c'] v] _. unfold t_row, t_col, t_val. cbn [fst snd]. destruct (r' =? r)%Z; cbn [andb]; [|ring]. destruct (Z.eqb_spec c' c); subst; ring.
Qed.
Lemma coeff_mat_mul A B i j : coeff (flat_map (fun '(r, c, v) => flat_map (fun '(r', c', v') => if (c =? r')%Z then [(r, c', v * v')] else []) B) A) i j = mulv A (fun k => coeff B k j) i.
Proof.
  rewrite coeff_flat. apply lsum_ext. intros [[r c] v] _. unfold t_row, t_col, t_val. cbn [fst snd]. rewrite coeff_flat. unfold coeff. destruct (Z.eqb_spec r i) as [->|N].
  - rewrite <- lsum_scale. apply lsum_ext. intros [[r' c'] v'] _. unfold t_row, t_col, t_val. cbn [fst snd]. rewrite (Z.eqb_sym r' c). destruct (c =? r')%Z; cbn [lsum fst snd andb]; [rewrite Z.eqb_refl; cbn [andb]; destruct (c' =? j)%Z; ring|ring].
  - apply lsum_0. intros [[r' c'] v'] _. destruct (c =? r')%Z; cbn [lsum]; auto. unfold t_row, t_col, t_val. cbn [fst snd]. rewrite (proj2 (Z.eqb_neq r i)) by auto. cbn [andb]. ring.
Qed.
(** and then the Laplacian is a symmetric face-by-face matrix: entry (r, c) is the sum over the columns k of B(r,k) h(k) B(c,k) *)
Theorem c111_laplacian_partial m cubes0 h2 : generated m cubes0 -> Z.of_nat (length h2) = face_size m -> face_size m = cell_size m ->
  exists B L, boundary3 m false = Some B /\ laplacian3 m h2 = Some L /\ mat_rows L = face_size m /\ mat_cols L = face_size m /\
    (forall r c, coeff (mat_entries L) r c = mulv B (fun k => nth (Z.to_nat k) h2 0 * coeff B c k) r) /\
    (forall r c, coeff (mat_entries L) r c = coeff (mat_entries L) c r).
Proof.
  intros OK L E. destruct (c73_coefficients m cubes0 false OK) as (B & HB & _). unfold laplacian3, boundary_matrix. rewrite HB. cbn [option_map]. unfold mat_diag. cbn [mat_cols mat_rows mat_entries]. rewrite L, E, Z.eqb_refl. unfold mat_mul, transpose. cbn [mat_cols mat_rows mat_entries]. rewrite Z.eqb_refl.
  assert (FORM : forall r c, coeff (flat_map (fun '(r, c, v) => flat_map (fun '(r', c', v') => if (c =? r')%Z then [(r, c', v * v')] else []) (map (fun '(r, c, v) => (c, r, v)) B)) (map (fun '(r, c, v) => (r, c, v * nth (Z.to_nat c) h2 0)) B)) r c = mulv B (fun k => nth (Z.to_nat k) h2 0 * coeff B c k) r).
  { intros r c. rewrite coeff_mat_mul. unfold mulv. rewrite lsum_map. apply lsum_ext. intros [[r' c'] v] _. unfold t_row, t_col, t_val. cbn [fst snd]. destruct (r' =? r)%Z; auto.
    replace (coeff (map (fun '(r, c, v) => (c, r, v)) B) c' c) with (coeff B c c'); [ring|]. unfold coeff. rewrite lsum_map. apply lsum_ext. intros [[r2 c2] v2] _. unfold t_row, t_col, t_val. cbn [fst snd]. rewrite andb_comm. auto. }
  eexists _, _. split; [reflexivity|]. split; [reflexivity|]. cbn [mat_rows mat_cols mat_entries]. split; auto. split; auto. split; [exact FORM|].
  intros r c. rewrite !FORM. unfold mulv, coeff.
  assert (X : forall r c, lsum (fun t => if (t_row t =? r)%Z then t_val t * (nth (Z.to_nat (t_col t)) h2 0 * lsum (fun t0 => if ((t_row t0 =? c)%Z && (t_col t0 =? t_col t)%Z)%bool then t_val t0 else 0) B) else 0) B
    = lsum (fun t => lsum (fun t0 => if ((t_row t =? r) && (t_row t0 =? c) && (t_col t0 =? t_col t))%Z%bool then t_val t * (nth (Z.to_nat (t_col t)) h2 0 * t_val t0) else 0) B) B).
  { intros r0 c0. apply lsum_ext. intros t _. destruct (t_row t =? r0)%Z; cbn [andb]; [|symmetry; apply lsum_0; auto]. rewrite Qcmult_assoc, <- lsum_scale. apply lsum_ext. intros t0 _. destruct ((t_row t0 =? c0)%Z && (t_col t0 =? t_col t)%Z)%bool; ring. }
  rewrite !X. rewrite lsum_swap. apply lsum_ext. intros t _. apply lsum_ext. intros t0 _. rewrite (Z.eqb_sym (t_col t) (t_col t0)). destruct (Z.eqb_spec (t_col t0) (t_col t)) as [->|]; rewrite ?andb_false_r; auto.
  rewrite !andb_true_r, (andb_comm (t_row t0 =? r)%Z). destruct ((t_row t =? c)%Z && (t_row t0 =? r)%Z)%bool; ring.
Qed.

(** ** C112: cell volumes *)
Lemma renumber_cons n i b cells : renumber n ((i, b) :: cells) = (n, b) :: renumber (n + 1) cells.
Proof.
  unfold renumber. cbn [length seq combine map]. f_equal; [f_equal; lia|]. rewrite <- seq_shift. generalize (seq 0 (length cells)) as s. intros s. revert cells. induction s as [|k s IH]; intros [|[j c] cells]; cbn; auto. rewrite IH. f_equal. f_equal. lia.
Qed.
Lemma renumber_nth n cells k : nth_error (renumber n cells) k = option_map (fun ib => (n + Z.of_nat k, snd ib)%Z) (nth_error cells k).
Proof. revert n k. induction cells as [|[i b] cells IH]; intros n k; [destruct k; auto|]. rewrite renumber_cons. destruct k as [|k]; cbn [nth_error option_map snd]; [f_equal; f_equal; lia|]. rewrite IH. destruct (nth_error cells k); cbn; auto. f_equal. f_equal. lia. Qed.
Lemma renumber_len n cells : length (renumber n cells) = length cells. Proof. unfold renumber. rewrite map_length, combine_length, List.seq_length. lia. Qed.
Lemma fold_found (vol : acell -> Qc) (cells : acells) (n k : Z) acc : (forall i b, In (i, b) cells -> i - n <> k)%Z -> fold_left (fun acc '(i, b) => if (i - n =? k)%Z then Some (vol b) else acc) cells acc = acc.
Proof. revert acc. induction cells as [|[i b] l IH]; intros acc H; cbn; auto. rewrite (proj2 (Z.eqb_neq _ _)) by (eapply H; left; eauto). apply IH. intros; eapply H; right; eauto. Qed.
Lemma ag_cell_volumes_renumber dx n cells : ag_cell_volumes dx (renumber n cells) = map (fun ib => Some (AdaptiveGrid.cell_volume (prod3 dx) (snd ib))) cells.
Proof.
  destruct cells as [|[i0 b0] cells0]; auto. unfold ag_cell_volumes. rewrite renumber_cons at 1. set (cells := (i0, b0) :: cells0). rewrite renumber_len. fold cells.
  apply nth_error_ext. intros k. rewrite !nth_error_map, nth_error_zseq. destruct (Z.ltb_spec (Z.of_nat k) (Z.of_nat (length cells))) as [L|L]; cbn [option_map].
  - destruct (nth_error cells k) as [[i b]|] eqn:E; [|apply nth_error_None in E; lia]. cbn [option_map snd]. f_equal. assert (RN := renumber_nth n cells k). rewrite E in RN. cbn [option_map snd] in RN. apply nth_error_split in RN as (l1 & l2 & E' & L1). rewrite E', fold_left_app. cbn [fold_left].
    replace (n + Z.of_nat k - n =? Z.of_nat k)%Z with true by (symmetry; apply Z.eqb_eq; lia). apply (fold_found (AdaptiveGrid.cell_volume (prod3 dx))). intros j c I. apply In_nth_error in I as [q Q]. assert (Q' : nth_error (renumber n cells) (length l1 + S q) = Some (j, c)). { rewrite E', nth_error_app2 by lia. replace (length l1 + S q - length l1)%nat with (S q) by lia. auto. }
    rewrite renumber_nth in Q'. destruct (nth_error cells (length l1 + S q)); [|discriminate]. cbn [option_map] in Q'. apply Some_inj, pair_equal_spec in Q' as [Q' _]. lia.
  - rewrite (proj2 (nth_error_None cells k)) by lia. auto.
Qed.
(** one entry per cell: the signed volume of each cut cell, then dx dy dz w^3 for each exterior cube *)
Theorem c112_volumes m cubes0 v : generated m cubes0 -> cell_volumes3 m = Some v -> exists cv, cut_cell_volumes (Vcol m) (face_loops m) (map ce_faces (m_cells m)) = Some cv /\
  Z.of_nat (length v) = cell_size m /\
  (forall i q, nth_error cv i = Some q -> at_entry v (Z.of_nat i) = Some (Some q)) /\
  (forall k i b, nth_error cubes0 k = Some (i, b) -> at_entry v (num_cut_cells m + Z.of_nat k) = Some (Some (q3_at (m_dx m) 0 * q3_at (m_dx m) 1 * q3_at (m_dx m) 2 * (Z2Qc (snd b) * Z2Qc (snd b) * Z2Qc (snd b))))).
Proof.
  intros OK. unfold cell_volumes3. destruct (cut_cell_volumes _ _ _) as [cv|] eqn:C; [|discriminate]. intros H. apply Some_inj in H. subst v. exists cv. split; auto.
  assert (LC : length cv = length (m_cells m)). { apply volumes_some in C as [_ ->]. rewrite !map_length. auto. }
  rewrite (g_cubes m cubes0 OK), ag_cell_volumes_renumber. split; [|split].
  - rewrite app_length, !map_length. unfold cell_size, num_cut_cells. rewrite (g_cubes m cubes0 OK), renumber_len. lia.
  - intros i q E. unfold at_entry. rewrite (proj2 (Z.ltb_ge _ 0)) by lia. rewrite Nat2Z.id, nth_error_app1 by (rewrite map_length; apply nth_error_Some; congruence). rewrite nth_error_map, E. auto.
  - intros k i b E. unfold at_entry, num_cut_cells. rewrite (proj2 (Z.ltb_ge _ 0)) by lia. rewrite nth_error_app2 by (rewrite map_length; lia). rewrite map_length. replace (Z.to_nat _ - length cv)%nat with k by lia. rewrite nth_error_map, E. cbn [option_map snd]. do 2 f_equal. destruct (m_dx m) as [[x y] z]. reflexivity.
Qed.
(** primal star: the reciprocal of the volume, 0 for cells of volume below the cutoff *)
Theorem c112_stars m i v h : cell_volumes3 m = Some v -> primal_hodge3 m = Some h -> forall q, at_entry v i = Some (Some q) ->
  dual_hodge3 m = Some v /\ exists b, at_entry h i = Some (Some b) /\ (cutoff <= qabs q -> q * b = 1) /\ (qabs q < cutoff -> b = 0).
Proof.
  unfold primal_hodge3, dual_hodge3. intros H. rewrite H. cbn [option_map]. intros E q HQ. apply Some_inj in E. subst h. split; auto. unfold at_entry in *. destruct (i <? 0)%Z; [discriminate|]. rewrite nth_error_map, HQ. cbn [option_map]. eexists. split; [reflexivity|]. split.
  - intros L. rewrite (qltb_ge _ _ L). field. intros ->. assert (X : qabs 0 = 0) by reflexivity. rewrite X in L. apply (Qclt_not_le 0 cutoff); [reflexivity|auto].
  - intros L. rewrite (proj2 (qltb_lt _ _) L). auto.
Qed.
(** the exterior part adds up to the volume of the uncut part of the grid *)
Theorem c112_exterior_total m cubes0 (P : c3 -> bool) : generated m cubes0 -> AdaptiveSpec.tiles (cshape m) (fun p => P p = true) cubes0 ->
  lsum (fun x => match x with Some q => q | None => 0 end) (ag_cell_volumes (m_dx m) (m_cubes m)) = prod3 (m_dx m) * Z2Qc (Z.of_nat (length (filter P (loop3 (0, 0, 0)%Z (cshape m))))).
Proof.
  intros OK T. rewrite (g_cubes m cubes0 OK), ag_cell_volumes_renumber, lsum_map. rewrite <- (c58_volumes_add_up _ _ P (prod3 (m_dx m)) (g_wf m cubes0 OK) T). clear. induction cubes0 as [|x l IH]; cbn; auto. rewrite IH. auto.
Qed.

(** *** the 2x2x2 grid with one cut cell, spacing (1, 1, 2), an interior face on the plane x = 1 (7) and two pieces (6, 8) of one input triangle *)
Definition with_loops (f : cut_face) (ls : list (list Z)) : cut_face := mkCutFace (cf_mask f) ls (cf_id f) (cf_N f) (cf_ext f) (cf_tri f) (cf_triV f).
Definition piece (t : Z) (l : list Z) : cut_face := mkCutFace [None; None; None] [l] (MeshFace t) (0, 0, 0) None (Some [(9, 3, 1)]%Z) None.
Definition sampleH : mesh3 := mkMesh (0, 0, 0) (1, 1, 1 + 1) (3, 3, 3)%Z [] [] (fun p => c3_eqb p (0, 0, 0)%Z) [(1, 0, 0); (0, 1, 0); (0, 0, 1)] [(0, 1, 2)%Z]
  (m_faces sample3 ++ [piece 0 [9; 3; 1]; with_loops (axial 0 1 None) [[9; 12; 13; 10]]; piece 0 [9; 3; 1]]%Z)
  [mkCutCell [(0, true); (1, false); (2, true); (3, false); (4, true); (5, false); (6, true); (7, false)]%Z 0 0 (0, 0, 0)%Z] []
  [(6%Z, mkBary [(1, 0, 0); (0, 1, 0); (qhalf, 0, qhalf)] 0%Z); (8%Z, mkBary [(qhalf, 0, qhalf); (0, 1, 0); (0, 0, 1)] 0%Z)]
  (renumber 1 seven) (make_faces (2, 2, 2)%Z seven) [].
Definition norm1 (v : q3) : Qc := qabs (q3_at v 0) + qabs (q3_at v 1) + qabs (q3_at v 2).
Lemma norm1_like : norm_like norm1.
Proof.
  split; [intros v; unfold norm1; assert (A := qabs_nonneg (q3_at v 0)); assert (B := qabs_nonneg (q3_at v 1)); assert (C := qabs_nonneg (q3_at v 2)); qc_lra|].
  intros v d Hd O. unfold norm1. assert (Z0 : qabs 0 = 0) by reflexivity. destruct d as [|[|[|d]]]; try lia.
  - rewrite (O 1%nat), (O 2%nat), Z0 by lia. ring.
  - rewrite (O 0%nat), (O 2%nat), Z0 by lia. ring.
  - rewrite (O 0%nat), (O 1%nat), Z0 by lia. ring.
Qed.
Lemma sampleH_ok : generated sampleH seven.
Proof.
  destruct (proj1 c73_nonvacuous) as [_ P W D I _ _ X]. split; auto.
  - intros [|[|i]] c H; try discriminate. apply Some_inj in H. subst c. split; [reflexivity|]. split.
    + cbn. repeat (apply NoDup_cons; [cbn; intuition lia|]). apply NoDup_nil.
    + intros f s. cbn. intros H. repeat (destruct H as [H|H]; [apply pair_equal_spec in H as [<- _]; lia|]). destruct H.
  - intros f o s HI. cbn [m_faces sampleH] in HI. apply in_app_iff in HI as [HI|HI]; [apply X; auto|]. cbn in HI. repeat (destruct HI as [<-|HI]; [discriminate|]). destruct HI.
Qed.
Definition shown (v : list (option Qc)) : list (option Q) := map (option_map this) v.
Example c108_example : exists v, face_volumes3 (fun _ => 1 + 1 + 1) sampleH = Some v /\ shown (firstn 12 v) = map Some [0; 0; 0; 0; 0; 0; 3 # 2; 2; 3 # 2; 1; 1; 1]%Q.
Proof. eexists. split; [vm_compute; reflexivity|vm_compute; reflexivity]. Qed.
Example c108_total_example : lsum (fun p => if (bf_parent (snd p) =? 0)%Z then match face_volumes3 (fun _ => 1 + 1 + 1) sampleH with Some v => value_at v (fst p) | None => 0 end else 0) (m_bary sampleH) = 1 + 1 + 1.
Proof. apply Qc_is_canon. vm_compute. reflexivity. Qed.
Example c108_tiles_example : tiles (map (fun p => bf_barys (snd p)) (filter (fun p => (bf_parent (snd p) =? 0)%Z) (m_bary sampleH))).
Proof.
  exists [((0, 1), (qhalf, 0))], [1], [1], [qhalf; 1]. split; [reflexivity|]. split; [reflexivity|]. split; [reflexivity|]. repeat (split; [discriminate|]).
  assert (S0 : forall a b : q2, on_segment a b 0 = a) by (intros [a1 a2] [b1 b2]; unfold on_segment; cbn [fst snd]; f_equal; ring). assert (S1 : forall a b : q2, on_segment a b 1 = b) by (intros [a1 a2] [b1 b2]; unfold on_segment; cbn [fst snd]; f_equal; ring).
  assert (SH : on_segment (0, 0) (1, 0) qhalf = (qhalf, 0)) by (unfold on_segment; cbn [fst snd]; f_equal; ring).
  cbn [m_bary sampleH filter map flat_map bf_parent bf_barys snd fst Z.eqb app cut_segment]. rewrite !S0, !S1, SH. unfold PropsInterp.sides, top2. cbn [combine tl firstn app fst snd].
  match goal with |- Permutation [?A; ?B; ?C; ?D; ?E; ?F] _ => apply (Permutation_cons_app [B; D] [E; F; C] A), perm_skip, (Permutation_cons_app [D; E; F] [] C) end. apply Permutation_refl.
Qed.
Example c109_example : exists v, dual_edge_lengths3 norm1 sampleH = Some v /\ shown (firstn 12 v) = [Some 0; Some 1; Some 0; Some 1; Some 0; Some 2; Some 0; Some 1; Some 0; None; None; None]%Q.
Proof. eexists. split; [vm_compute; reflexivity|vm_compute; reflexivity]. Qed.
Example c110_example : exists h h', dual_hodge2 norm1 (fun _ => 1 + 1 + 1) sampleH = Some h /\ primal_hodge2 norm1 (fun _ => 1 + 1 + 1) sampleH = Some h' /\ shown (firstn 10 h) = [Some 0; Some 0; Some 0; Some 0; Some 0; Some 0; Some 0; Some 2; Some 0; None]%Q /\ nth_error (shown h') 7 = Some (Some (1 # 2)%Q).
Proof. eexists _, _. split; [vm_compute; reflexivity|]. split; [vm_compute; reflexivity|]. split; vm_compute; reflexivity. Qed.
(** an uncut 2x2x2 grid: eight cells, 36 faces *)
Definition eight : acells := factory_cells (2, 2, 2)%Z (fun _ => false) (Some 0%Z).
Definition sampleU : mesh3 := mkMesh (0, 0, 0) (1, 1, 1) (3, 3, 3)%Z [] [] (fun _ => false) [] [] [] [] [] [] (renumber 0 eight) (make_faces (2, 2, 2)%Z eight) [].
Example c111_example : generated sampleU eight /\ AdaptiveSpec.tiles (cshape sampleU) (fun _ => True) eight /\ face_size sampleU = 36%Z /\ cell_size sampleU = 8%Z.
Proof.
  destruct (c24_cells_tile_the_inactive_region_partial 1 (fun _ => false) (Some 0%Z)) as ([T1 T2] & W & D & I); [lia|left; exists 0%Z; split; [auto|lia]|]. change (cube3 (2 ^ Z.of_nat 1)) with (2, 2, 2)%Z in *. fold eight in *.
  split; [|split; [|split; vm_compute; reflexivity]].
  - split; auto; [intros [|i] c H; discriminate|intros [|[|[|d]]] Hd; cbn; lia|intros i b H; apply I in H; apply H|intros f o s []].
  - change (cshape sampleU) with (2, 2, 2)%Z. split; [intros i b p H1 H2; destruct (T1 i b p H1 H2); auto|intros p G _; apply T2; auto].
Qed.
Example c112_example : exists v, cell_volumes3 sampleU = Some v /\ shown v = repeat (Some 1%Q) 8.
Proof. eexists. split; [vm_compute; reflexivity|vm_compute; reflexivity]. Qed.
