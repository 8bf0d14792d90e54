(** C136: face_centroids() of a 3D mesh. *)
From Verif Require Import Base Num CoordMask Vertex VertexProofs Grid SmallestEdge AdaptiveGrid AdaptiveSpec AdaptiveProofs AdaptiveFaces Mesh Sparse Mesh2 Interp Boundary3 Volume Queries3 Incidence3
  PropsVolume PropsTriang PropsAdaptive PropsAdaptive2 PropsMesh2 PropsBoundary3 PropsQueries3.
Set Implicit Arguments.
Local Open Scope Z_scope.

(** the positions of the vertices of a face, one per mention in a loop *)
Definition face_points (m : mesh3) (f : cut_face) (ps : list q3) : Prop := Forall2 (fun j p => 0 <= j /\ vertex3 m j = Some p) (concat (cf_loops f)) ps.
(** position along a direction *)
Definition along (a p : q3) : Qc := (q3_at a 0 * q3_at p 0 + q3_at a 1 * q3_at p 1 + q3_at a 2 * q3_at p 2)%Qc.
(** twice the area of the triangle a b c seen along N *)
Definition tri_area (N a b c : q3) : Qc :=
  (q3_at N 0 * ((q3_at b 1 - q3_at a 1) * (q3_at c 2 - q3_at a 2) - (q3_at b 2 - q3_at a 2) * (q3_at c 1 - q3_at a 1)) +
   q3_at N 1 * ((q3_at b 2 - q3_at a 2) * (q3_at c 0 - q3_at a 0) - (q3_at b 0 - q3_at a 0) * (q3_at c 2 - q3_at a 2)) +
   q3_at N 2 * ((q3_at b 0 - q3_at a 0) * (q3_at c 1 - q3_at a 1) - (q3_at b 1 - q3_at a 1) * (q3_at c 0 - q3_at a 0)))%Qc.
(** the triangles of the fan of a polygon *)
Fixpoint fan (a : q3) (l : list q3) : list (q3 * q3 * q3) := match l with b :: (c :: _) as t => (a, b, c) :: fan a t | _ => [] end.
Definition fan_of (l : list q3) : list (q3 * q3 * q3) := match l with a :: t => fan a t | [] => [] end.
(** c is the centre of mass of the polygon: its area times c is the sum of the triangles' areas times their centres *)
Definition mass_centre (N : q3) (l : list q3) (c : q3) : Prop := forall d, (d < 3)%nat ->
  (lsum (fun '(a, b, e) => tri_area N a b e) (fan_of l) * q3_at c d * Z2Qc 3 = lsum (fun '(a, b, e) => tri_area N a b e * (q3_at a d + q3_at b d + q3_at e d)) (fan_of l))%Qc.

Lemma q3_ext (p q : q3) : (forall d, (d < 3)%nat -> q3_at p d = q3_at q d) -> p = q.
Proof. destruct p as [[x y] z], q as [[u v] w]. intros H. assert (A := H 0%nat ltac:(lia)). assert (B := H 1%nat ltac:(lia)). assert (C := H 2%nat ltac:(lia)). cbn in A, B, C. subst. auto. Qed.
Lemma vadd_at p q d : q3_at (vadd p q) d = (q3_at p d + q3_at q d)%Qc.
Proof. destruct p as [[x y] z], q as [[u v] w]. destruct d as [|[|d]]; reflexivity. Qed.
Lemma vscale_at k p d : q3_at (vscale k p) d = (k * q3_at p d)%Qc.
Proof. destruct p as [[x y] z]. destruct d as [|[|d]]; reflexivity. Qed.
Lemma vzero_at d : q3_at vzero d = 0%Qc. Proof. destruct d as [|[|d]]; reflexivity. Qed.
Lemma vsum_at ps d : q3_at (fold_left vadd ps vzero) d = lsum (fun p => q3_at p d) ps.
Proof.
  assert (G : forall ps v, q3_at (fold_left vadd ps v) d = (q3_at v d + lsum (fun p => q3_at p d) ps)%Qc).
  { induction ps0 as [|p l IH]; intros v; cbn [fold_left lsum]; [ring|]. rewrite IH, vadd_at. ring. }
  rewrite G, vzero_at. ring.
Qed.
Lemma of_nat_pos (A : Type) (l : list A) : l <> [] -> (0 < Z2Qc (Z.of_nat (length l)))%Qc.
Proof. intros H. change 0%Qc with (Z2Qc 0). apply Z2Qc_lt. destruct l; [congruence|cbn [length]; lia]. Qed.
Lemma Forall2_map_l (A B C : Type) (f : A -> B) (R : B -> C -> Prop) l r : Forall2 R (map f l) r <-> Forall2 (fun a c => R (f a) c) l r.
Proof. revert r. induction l as [|a l IH]; intros r; split; intros H; inversion H; subst; cbn in *; constructor; auto; apply IH; auto. Qed.

Section Cols.
  Variable m : mesh3.
  Hypothesis PS : pos_shape (list3 (m_vshape m)).
  Lemma vertex_read j : (if j <? 0 then None else nth_error (vertices3 m) (Z.to_nat j)) = if j <? 0 then None else vertex3 m j.
  Proof. destruct (Z.ltb_spec j 0); auto. apply c83_vertices; auto. Qed.
  Lemma points_read f ps : sequence (map (fun j => if j <? 0 then None else nth_error (vertices3 m) (Z.to_nat j)) (concat (cf_loops f))) = Some ps <-> face_points m f ps.
  Proof.
    unfold face_points. rewrite (map_ext _ _ vertex_read). split; intros H.
    - apply sequence_forall2 in H. revert H. clear. generalize (concat (cf_loops f)). induction 1 as [|j p l r E F IH]; constructor; auto. destruct (Z.ltb_spec j 0); [discriminate|]. auto.
    - induction H as [|j p l r [L E] F IH]; auto. cbn [map sequence]. rewrite (proj2 (Z.ltb_ge j 0) L), E, IH. auto.
  Qed.
  Lemma face_centroid_spec f c : face_centroid m f = Some c <-> exists ps, face_points m f ps /\ c = match ps with [] => vzero | _ => vscale (/ Z2Qc (Z.of_nat (length ps)))%Qc (fold_left vadd ps vzero) end.
  Proof.
    unfold face_centroid. split.
    - destruct (sequence _) as [ps|] eqn:E; [|discriminate]. intros H. apply Some_inj in H. exists ps. split; [apply points_read; auto|]. subst c. destruct ps; auto.
    - intros (ps & F & ->). apply points_read in F. rewrite F. destruct ps; auto.
  Qed.
  Lemma face_points_fun f ps qs : face_points m f ps -> face_points m f qs -> ps = qs.
  Proof. intros A B. apply points_read in A, B. congruence. Qed.
End Cols.
Lemma boundary_centroid_def m f : boundary_centroid m f <> None.
Proof.
  unfold boundary_centroid. destruct (is_valid_edge _ _) eqn:E; [|discriminate]. unfold is_valid_edge in E. apply andb_true_iff in E as [_ E].
  destruct (cell_at _ (fst _)); [|discriminate]. destruct (cell_at _ (snd _)); discriminate.
Qed.
Lemma seq_none_iff (A B : Type) (f : A -> option B) l : sequence (map f l) <> None <-> forall a, In a l -> f a <> None.
Proof.
  split.
  - intros H a I E. apply H. apply sequence_none. rewrite <- E. apply in_map. auto.
  - intros H. destruct (sequence_map f l H) as (r & -> & _). discriminate.
Qed.

(** face_centroids() is defined exactly if the loops of every face mention vertices of the mesh only; one column per face, cut faces first. *)
Theorem c136_defined m : pos_shape (list3 (m_vshape m)) -> (face_centroids m <> None <-> forall i f j, is_cut_face m i f -> In j (concat (cf_loops f)) -> 0 <= j /\ vertex3 m j <> None) /\
  forall C, face_centroids m = Some C -> Z.of_nat (length C) = face_size m.
Proof.
  intros PS. unfold face_centroids. destruct (sequence_map (boundary_centroid m) (m_afaces m)) as (b & Eb & Fb); [intros; apply boundary_centroid_def|]. rewrite Eb. split.
  - transitivity (sequence (map (face_centroid m) (m_faces m)) <> None); [destruct (sequence (map (face_centroid m) _)); split; intros H; discriminate || congruence|]. rewrite seq_none_iff. split.
    + intros H i f j [Hi Hf] Ij. specialize (H f (nth_error_In _ _ Hf)). destruct (face_centroid m f) as [c|] eqn:E; [|congruence]. apply (face_centroid_spec _ PS _ _) in E as (ps & F & _).
      clear -F Ij. unfold face_points in F. induction F as [|x p l r [L E] F IH]; [destruct Ij|]. destruct Ij as [ -> | Ij]; [split; [auto|congruence]|auto].
    + intros H f If E. apply In_nth_error in If as [n Hn]. assert (X : forall j, In j (concat (cf_loops f)) -> 0 <= j /\ vertex3 m j <> None) by (intros j; apply (H (Z.of_nat n) f j); split; [lia|rewrite Nat2Z.id; auto]).
      unfold face_centroid in E. match type of E with context [sequence ?x] => destruct (sequence x) as [ps|] eqn:S end; [discriminate|]. revert S. apply seq_none_iff. intros j Ij. destruct (X j Ij) as [L V]. rewrite vertex_read by auto. rewrite (proj2 (Z.ltb_ge j 0) L). auto.
  - intros C. destruct (sequence (map (face_centroid m) (m_faces m))) as [a|] eqn:Ea; [|discriminate]. intros E. apply Some_inj in E. subst C. apply sequence_forall2 in Ea. apply Forall2_nth in Ea as [La _]. apply Forall2_nth in Fb as [Lb _].
    rewrite app_length. unfold face_size, num_cut_faces. lia.
Qed.
(** The column of a cut face is the mean of its vertices (0 if it has none), so it lies in every half space, and in every plane, that all of them lie in. *)
Theorem c136_cut_faces m C i f : pos_shape (list3 (m_vshape m)) -> face_centroids m = Some C -> is_cut_face m i f ->
  exists c ps, nth_error C (Z.to_nat i) = Some c /\ face_points m f ps /\
    (forall d, (d < 3)%nat -> (Z2Qc (Z.of_nat (length ps)) * q3_at c d = lsum (fun p => q3_at p d) ps)%Qc) /\ (ps = [] -> c = vzero) /\
    (ps <> [] -> forall a k, (forall p, In p ps -> (along a p <= k)%Qc) -> (along a c <= k)%Qc) /\
    (ps <> [] -> forall a k, (forall p, In p ps -> along a p = k) -> along a c = k).
Proof.
  intros PS EC [Hi Hf]. unfold face_centroids in EC. destruct (sequence (map (face_centroid m) (m_faces m))) as [A|] eqn:EA; [|discriminate]. destruct (sequence (map (boundary_centroid m) _)) as [Bc|]; [|discriminate]. apply Some_inj in EC. subst C.
  apply sequence_forall2 in EA. apply Forall2_nth in EA as [LA EA]. assert (L : (Z.to_nat i < length (m_faces m))%nat) by (apply nth_error_Some; congruence). destruct (nth_error A (Z.to_nat i)) as [c|] eqn:Ec; [|apply nth_error_None in Ec; lia].
  specialize (EA _ _ _ Hf Ec). apply (face_centroid_spec _ PS _ _) in EA as (ps & F & Ecv). exists c, ps. split; [rewrite nth_error_app1 by lia; auto|]. split; auto.
  assert (MEAN : forall d, (d < 3)%nat -> (Z2Qc (Z.of_nat (length ps)) * q3_at c d = lsum (fun p => q3_at p d) ps)%Qc).
  { intros d _. subst c. destruct ps as [|p ps']; [rewrite vzero_at; cbn [length lsum]; change (Z2Qc (Z.of_nat 0)) with (Z2Qc 0); rewrite Z2Qc_0; ring|]. set (l := p :: ps') in *. rewrite vscale_at, vsum_at.
    assert (P := of_nat_pos (l := l) ltac:(discriminate)). field. intros Z0. rewrite Z0 in P. revert P. apply Qcle_not_lt. apply Qcle_refl. }
  split; auto. split; [intros ->; auto|].
  assert (SUM : forall a, (Z2Qc (Z.of_nat (length ps)) * along a c = lsum (along a) ps)%Qc).
  { intros a. unfold along. transitivity (q3_at a 0 * (Z2Qc (Z.of_nat (length ps)) * q3_at c 0) + q3_at a 1 * (Z2Qc (Z.of_nat (length ps)) * q3_at c 1) + q3_at a 2 * (Z2Qc (Z.of_nat (length ps)) * q3_at c 2))%Qc; [ring|].
    rewrite !MEAN by lia. clear. induction ps as [|p l IH]; cbn [lsum]; [ring|]. rewrite <- IH. ring. }
  assert (LE : forall a k l, (forall p, In p l -> (along a p <= k)%Qc) -> (lsum (along a) l <= Z2Qc (Z.of_nat (length l)) * k)%Qc).
  { intros a k l. induction l as [|p l IH]; intros H; cbn [lsum length]; [change (Z2Qc (Z.of_nat 0)) with (Z2Qc 0); rewrite Z2Qc_0; replace (0 * k)%Qc with 0%Qc by ring; apply Qcle_refl|].
    rewrite Nat2Z.inj_succ, <- Z.add_1_r, Z2Qc_plus, Z2Qc_1. specialize (IH (fun p' I => H p' (or_intror I))). assert (H0 := H p (or_introl eq_refl)).
    replace ((Z2Qc (Z.of_nat (length l)) + 1) * k)%Qc with (k + Z2Qc (Z.of_nat (length l)) * k)%Qc by ring. apply Qcplus_le_compat; auto. }
  split.
  - intros NE a k H. assert (P := of_nat_pos NE). specialize (LE a k ps H). rewrite <- SUM in LE. rewrite (Qcmult_comm _ (along a c)), (Qcmult_comm _ k) in LE.
    destruct (Qclt_le_dec k (along a c)) as [X|X]; auto. exfalso. apply (Qcmult_lt_compat_r _ _ _ P) in X. apply (Qcle_not_lt _ _ LE). auto.
  - intros NE a k H. assert (P := of_nat_pos NE). assert (E : (lsum (along a) ps = Z2Qc (Z.of_nat (length ps)) * k)%Qc).
    { clear -H. induction ps as [|p l IH]; cbn [lsum length]; [change (Z2Qc (Z.of_nat 0)) with (Z2Qc 0); rewrite Z2Qc_0; ring|]. rewrite IH by (intros; apply H; right; auto). rewrite (H p (or_introl eq_refl)), Nat2Z.inj_succ, <- Z.add_1_r, Z2Qc_plus, Z2Qc_1. ring. }
    rewrite <- SUM in E. apply (f_equal (fun x => x / Z2Qc (Z.of_nat (length ps))))%Qc in E. assert (N0 : Z2Qc (Z.of_nat (length ps)) <> 0%Qc) by (intros Z0; rewrite Z0 in P; revert P; apply Qcle_not_lt; apply Qcle_refl).
    transitivity (Z2Qc (Z.of_nat (length ps)) * along a c / Z2Qc (Z.of_nat (length ps)))%Qc; [field; auto|]. rewrite E. field. auto.
Qed.
(** It is the centre of mass of a triangle and of a parallelogram, *)
Theorem c136_simple_faces m C i f l ps : pos_shape (list3 (m_vshape m)) -> face_centroids m = Some C -> is_cut_face m i f -> cf_loops f = [l] -> Forall2 (fun j p => 0 <= j /\ vertex3 m j = Some p) l ps ->
  (exists a b c, ps = [a; b; c]) \/ (exists a b c d, ps = [a; b; c; d] /\ vadd a c = vadd b d) ->
  exists c, nth_error C (Z.to_nat i) = Some c /\ forall N, mass_centre N ps c.
Proof.
  intros PS EC HF EL FP CASE. destruct (@c136_cut_faces m C i f PS EC HF) as (c & qs & N1 & N2 & N3 & _). exists c. split; auto.
  assert (E : qs = ps). { eapply face_points_fun; [exact PS|exact N2|]. unfold face_points. rewrite EL. cbn [concat]. rewrite app_nil_r. auto. } subst qs. intros N d Hd.
  destruct CASE as [(a & b & e & ->)|(a & b & e & g & -> & PG)].
  - specialize (N3 d Hd). cbn [length lsum fan_of fan] in *. change (Z.of_nat 3) with 3 in N3. transitivity (tri_area N a b e * (Z2Qc 3 * q3_at c d))%Qc; [ring|]. rewrite N3. ring.
  - specialize (N3 d Hd). cbn [length lsum fan_of fan] in *. change (Z.of_nat 4) with 4 in N3.
    assert (PG' : forall k, (k < 3)%nat -> (q3_at g k = q3_at a k + q3_at e k - q3_at b k)%Qc). { intros k _. assert (X := f_equal (fun p => q3_at p k) PG). cbv beta in X. rewrite !vadd_at in X. rewrite X. ring. }
    assert (EA : tri_area N a e g = tri_area N a b e) by (unfold tri_area; rewrite !PG' by lia; ring).
    assert (F4 : (Z2Qc 4 * q3_at c d = Z2Qc 4 * (qhalf * (q3_at a d + q3_at e d)))%Qc). { rewrite N3, (PG' d Hd). replace (Z2Qc 4) with (1 + 1 + 1 + 1)%Qc by (apply Qc_is_canon; reflexivity). assert (HH : (qhalf + qhalf = 1)%Qc) by (apply Qc_is_canon; reflexivity).
      transitivity ((1 + 1) * (qhalf + qhalf) * (q3_at a d + q3_at e d))%Qc; [rewrite HH; ring|ring]. }
    assert (F5 : q3_at c d = (qhalf * (q3_at a d + q3_at e d))%Qc). { assert (N4 : Z2Qc 4 <> 0%Qc) by (intros Z0; apply (f_equal this) in Z0; vm_compute in Z0; discriminate). apply (f_equal (fun x => x / Z2Qc 4)%Qc) in F4.
      transitivity (Z2Qc 4 * q3_at c d / Z2Qc 4)%Qc; [field; auto|]. rewrite F4. field. auto. }
    rewrite EA, F5, (PG' d Hd). replace (Z2Qc 3) with (1 + 1 + 1)%Qc by (apply Qc_is_canon; reflexivity). assert (HH : (qhalf + qhalf = 1)%Qc) by (apply Qc_is_canon; reflexivity).
    transitivity ((qhalf + qhalf) * (tri_area N a b e * (q3_at a d + q3_at e d) * (1 + 1 + 1)))%Qc; [ring|]. rewrite HH. ring.
Qed.
(** but not of a trapezoid. *)
Definition trapezoid : mesh3 := mkMesh (0, 0, 0)%Qc (1, 1, 1)%Qc (4, 4, 4) [] [] (fun _ => false) [] [] [mkCutFace [None; None; Some 0] [[0; 48; 20; 4]] (AxialFace 2 0) (0, 0, 1)%Qc None None None] [] [] [] [] [] [].
Lemma trapezoid_world x y z : to_world trapezoid (Z2Qc x, Z2Qc y, Z2Qc z) = (Z2Qc x, Z2Qc y, Z2Qc z).
Proof. unfold to_world, trapezoid, vadd, vmul. cbn [m_origin m_dx]. f_equal; [f_equal|]; ring. Qed.
Theorem c136_trapezoid_refuted : exists C c ps, face_centroids trapezoid = Some C /\ nth_error C 0 = Some c /\ Forall2 (fun j p => 0 <= j /\ vertex3 trapezoid j = Some p) [0; 48; 20; 4] ps /\
  ~ mass_centre (0, 0, 1)%Qc ps c.
Proof.
  assert (PS : pos_shape (list3 (m_vshape trapezoid))) by (repeat constructor).
  assert (V : forall x y z, 0 <= x < 4 -> 0 <= y < 4 -> 0 <= z < 4 -> 0 <= x * 16 + y * 4 + z /\ vertex3 trapezoid (x * 16 + y * 4 + z) = Some (Z2Qc x, Z2Qc y, Z2Qc z)).
  { intros x y z X Y Z. split; [lia|]. replace (x * 16 + y * 4 + z) with (ravel (list3 (m_vshape trapezoid)) [x; y; z]) by (cbn; lia). rewrite c83_grid_vertex; [rewrite trapezoid_world; auto|]. cbn.
    repeat (apply andb_true_iff; split); auto; try apply Z.leb_le; try apply Z.ltb_lt; lia. }
  assert (FP : Forall2 (fun j p => 0 <= j /\ vertex3 trapezoid j = Some p) [0; 48; 20; 4] [(Z2Qc 0, Z2Qc 0, Z2Qc 0); (Z2Qc 3, Z2Qc 0, Z2Qc 0); (Z2Qc 1, Z2Qc 1, Z2Qc 0); (Z2Qc 0, Z2Qc 1, Z2Qc 0)]).
  { constructor; [apply (V 0 0 0); lia|]. constructor; [apply (V 3 0 0); lia|]. constructor; [apply (V 1 1 0); lia|]. constructor; [apply (V 0 1 0); lia|constructor]. }
  destruct (face_centroids trapezoid) as [C|] eqn:EC.
  2:{ exfalso. revert EC. apply (c136_defined trapezoid PS). intros i f j [Hi Hf] Ij. cbn in Hf. destruct (Z.to_nat i) as [|[|n]]; try discriminate. apply Some_inj in Hf. subst f. cbn in Ij.
      clear -FP Ij. change (In j [0; 48; 20; 4]) in Ij. induction FP as [|x p l r [L E] F IH]; [destruct Ij|]. destruct Ij as [ -> | Ij]; [split; [auto|congruence]|auto]. }
  destruct (@c136_cut_faces trapezoid C 0 _ PS EC (conj (Z.le_refl 0) eq_refl)) as (c & qs & N1 & N2 & N3 & _). exists C, c, [(Z2Qc 0, Z2Qc 0, Z2Qc 0); (Z2Qc 3, Z2Qc 0, Z2Qc 0); (Z2Qc 1, Z2Qc 1, Z2Qc 0); (Z2Qc 0, Z2Qc 1, Z2Qc 0)]. split; [auto|]. split; [exact N1|]. split; [exact FP|].
  assert (E : qs = [(Z2Qc 0, Z2Qc 0, Z2Qc 0); (Z2Qc 3, Z2Qc 0, Z2Qc 0); (Z2Qc 1, Z2Qc 1, Z2Qc 0); (Z2Qc 0, Z2Qc 1, Z2Qc 0)]) by (eapply face_points_fun; [exact PS|exact N2|exact FP]). subst qs.
  specialize (N3 0%nat ltac:(lia)). intros MC. specialize (MC 0%nat ltac:(lia)). clear N1 N2 FP V EC PS. set (cx := q3_at c 0) in *. clearbody cx.
  cbn [length lsum fan_of fan] in N3, MC. unfold tri_area in MC. unfold q3_at in *. cbn [fst snd] in N3, MC. change (Z.of_nat 4) with 4 in N3.
  assert (N4 : Z2Qc 4 <> 0%Qc) by (intros Z0; apply (f_equal this) in Z0; vm_compute in Z0; discriminate).
  assert (E1 : cx = 1%Qc). { transitivity (Z2Qc 4 * cx / Z2Qc 4)%Qc; [field; auto|]. rewrite N3. apply Qc_is_canon. vm_compute. reflexivity. }
  subst cx. apply (f_equal this) in MC. vm_compute in MC. discriminate.
Qed.
(** ** exterior faces *)
(** p is the centre of face f moved by k cells along the axis of the face *)
Definition centre_moved (f : aface) (k : Z) (p : q3) : Prop := forall d, (d < 3)%nat ->
  (q3_at p d = if Nat.eqb d (af_axis f) then Z2Qc (get3 (af_corner f) d + k) else Z2Qc (get3 (af_corner f) d) + Z2Qc (af_width f) * qhalf)%Qc.
Lemma square_center_at c k w d : (d < 3)%nat -> q3_at (square_center c k w) d = (Z2Qc (get3 c d) + if Nat.eqb d k then 0 else Z2Qc w * qhalf)%Qc.
Proof. intros H. destruct c as [[x y] z]. destruct d as [|[|[|d]]]; try lia; reflexivity. Qed.
Lemma exterior_col m C j f : face_centroids m = Some C -> nth_error (m_afaces m) j = Some f -> exists c, nth_error C (length (m_faces m) + j) = Some c /\ boundary_centroid m f = Some c.
Proof.
  unfold face_centroids. destruct (sequence (map (face_centroid m) (m_faces m))) as [A|] eqn:EA; [|discriminate]. destruct (sequence (map (boundary_centroid m) (m_afaces m))) as [B|] eqn:EB; [|discriminate]. intros E N. apply Some_inj in E. subst C.
  apply sequence_forall2 in EA, EB. apply Forall2_nth in EA as [LA _]. apply Forall2_nth in EB as [LB EB]. assert (L : (j < length (m_afaces m))%nat) by (apply nth_error_Some; congruence).
  destruct (nth_error B j) as [c|] eqn:Ec; [|apply nth_error_None in Ec; lia]. exists c. split; [rewrite nth_error_app2 by lia; rewrite LA; replace (length A + j - length A)%nat with j by lia; auto|]. eapply EB; eauto.
Qed.
(** An exterior face between two exterior cells, when the faces name the cells by the ids in use: the centre of its square, unless the lower cell is the narrower one
    (then one width of that cell too low). *)
Theorem c136_exterior_partial m C j f ca cb : AdaptiveFaces.pos3 (cshape m) -> wf_cells (cshape m) (m_cubes m) -> disjoint_cells (m_cubes m) -> (forall i c, In (i, c) (m_cubes m) -> dyadic c) ->
  m_afaces m = make_faces (cshape m) (m_cubes m) -> face_centroids m = Some C -> nth_error (m_afaces m) j = Some f -> In (fst (af_dual f), ca) (m_cubes m) -> In (snd (af_dual f), cb) (m_cubes m) ->
  exists p, nth_error C (length (m_faces m) + j) = Some (to_world m p) /\ centre_moved f (if snd ca <? snd cb then - snd ca else 0) p.
Proof.
  intros P W D DY EF EC N Ha Hb. destruct (exterior_col _ _ EC N) as (c & N1 & N2). assert (If : In f (make_faces (cshape m) (m_cubes m))) by (rewrite <- EF; eapply nth_error_In; eauto).
  destruct (af_dual f) as [a b] eqn:ED. cbn [fst snd] in Ha, Hb.
  assert (AB : a <> b).
  { destruct f as [c0 d w e]. cbn in ED. subst e. assert (Hd : (d < 3)%nat) by (apply faces_In in If; apply If). assert (M : meet (cshape m) (m_cubes m) d a b) by (apply faces_exist; auto; eexists; split; eauto).
    assert (NA := proj1 (proj2 W _ _ Ha)). assert (NB := proj1 (proj2 W _ _ Hb)). destruct M as [(X & _)|[( -> & _)|( -> & _)]]; auto; lia. }
  destruct (@c55_projection_square_partial (cshape m) (m_cubes m) f a b ca cb P W D DY If ED Ha Hb) as (E1 & E2 & E3).
  assert (Hax : (af_axis f < 3)%nat) by (apply faces_In in If; apply If).
  apply (cellsi (cshape m) (m_cubes m) W) in Ha, Hb. unfold boundary_centroid, is_valid_edge in N2. rewrite ED in N2. cbn [fst snd] in N2. unfold cell_at in N2. unfold cell_at in Ha, Hb. rewrite Ha, Hb in N2. rewrite (proj2 (Z.eqb_neq a b) AB) in N2. cbn [negb andb] in N2. apply Some_inj in N2.
  exists (square_center (proj_corner ca cb) (proj_axis ca cb) (Z.min (snd ca) (snd cb))). rewrite N2. split; auto. intros d Hd. rewrite square_center_at, E1, E2 by auto.
  destruct (Z.ltb_spec (snd ca) (snd cb)) as [L|L].
  - rewrite <- E3, add3_get by auto. destruct (Nat.eqb_spec d (af_axis f)) as [->|Nd]; auto. replace (get3 (proj_corner ca cb) (af_axis f) + snd ca + - snd ca) with (get3 (proj_corner ca cb) (af_axis f)) by lia. ring.
  - rewrite <- E3. destruct (Nat.eqb_spec d (af_axis f)) as [->|Nd]; auto. rewrite Z.add_0_r. ring.
Qed.
(** On the walls of the domain (and wherever the dual edge is not between two existing cells) the column is the world origin. *)
Theorem c136_walls_refuted m C j f : (forall i b, In (i, b) (m_cubes m) -> 0 <= i) -> face_centroids m = Some C -> nth_error (m_afaces m) j = Some f -> fst (af_dual f) = -2 \/ snd (af_dual f) = -2 ->
  nth_error C (length (m_faces m) + j) = Some (0, 0, 0)%Qc.
Proof.
  intros P EC N DE. destruct (exterior_col _ _ EC N) as (c & N1 & N2). rewrite N1. unfold boundary_centroid in N2. destruct (is_valid_edge (m_cubes m) (af_dual f)) eqn:V.
  - exfalso. unfold is_valid_edge in V. apply andb_true_iff in V as [_ V]. assert (X : cell_at (m_cubes m) (-2) = None).
    { unfold cell_at. clear -P. induction (m_cubes m) as [|[i b] l IH]; auto. cbn [map_find]. assert (0 <= i) by (apply (P i b); left; auto). destruct (Z.compare_spec (-2) i); try lia; auto. }
    destruct DE as [E|E]; rewrite E, X in V; [discriminate|]. destruct (cell_at _ (fst _)); discriminate.
  - apply Some_inj in N2. subst c. reflexivity.
Qed.
Definition two_cubes : mesh3 := mkMesh (Z2Qc 5, 0, 0)%Qc (Z2Qc 2, 1, 1)%Qc (3, 2, 2) [] [] (fun _ => true) [] [] [mkCutFace [Some 0; None; None] [[0; 1; 3; 2]] (AxialFace 0 0) (1, 0, 0)%Qc None None None] [] [] []
  [(0, ((0, 0, 0), 1)); (1, ((1, 0, 0), 1))] (make_faces (2, 1, 1) [(0, ((0, 0, 0), 1)); (1, ((1, 0, 0), 1))]) [].
Example c136_case : AdaptiveFaces.pos3 (cshape two_cubes) /\ wf_cells (cshape two_cubes) (m_cubes two_cubes) /\ disjoint_cells (m_cubes two_cubes) /\ (forall i c, In (i, c) (m_cubes two_cubes) -> dyadic c) /\
  (exists j f, nth_error (m_afaces two_cubes) j = Some f /\ af_dual f = (0, 1)) /\ (exists j f, nth_error (m_afaces two_cubes) j = Some f /\ fst (af_dual f) = -2) /\
  match face_centroids two_cubes with Some C => map (fun p => map (fun d => Qred (this (q3_at p d))) [0; 1; 2]%nat) C = [[5 # 1; 1 # 2; 1 # 2]; [0; 0; 0]; [7 # 1; 1 # 2; 1 # 2]; [0; 0; 0]; [0; 0; 0]; [0; 0; 0]; [0; 0; 0]; [0; 0; 0]; [0; 0; 0]; [0; 0; 0]; [0; 0; 0]; [0; 0; 0]]%Q | None => False end.
Proof.
  split; [intros [|[|[|d]]] Hd; cbn; lia|]. split; [|split; [|split; [|split; [|split]]]].
  - split; [repeat constructor|]. intros i b [[= <- <-]|[[= <- <-]|[]]]; (split; [lia|split; [cbn; lia|]]); intros p; unfold in_box, in_grid; rewrite !all3; cbn; lia.
  - intros i a j b p [[= <- <-]|[[= <- <-]|[]]] [[= <- <-]|[[= <- <-]|[]]]; auto; unfold in_box; rewrite !all3; cbn; lia.
  - intros i b [[= <- <-]|[[= <- <-]|[]]]; exists 0; (split; [lia|split; [reflexivity|]]); rewrite all3; cbn; repeat split; apply Z.divide_1_l.
  - exists 1%nat. eexists. split; vm_compute; reflexivity.
  - exists 0%nat. eexists. split; vm_compute; reflexivity.
  - vm_compute. reflexivity.
Qed.
