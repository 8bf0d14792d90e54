(** Property C94: planar slicing. *)
From Verif Require Import Base Num SmallestEdge AdaptiveGrid Mesh Volume VolumeProofs Interp Queries3 Slicer.
Local Open Scope Qc_scope.
Local Arguments Qcplus : simpl never. Local Arguments Qcmult : simpl never. Local Arguments Qcopp : simpl never. Local Arguments Qcminus : simpl never. Local Arguments Qcdiv : simpl never. Local Arguments Qcinv : simpl never. Local Arguments Q2Qc : simpl never.

(** ** specification *)
Definition mat_mul (A B : mat3) : mat3 :=
  let col k := (q3_at (row0 B) k, q3_at (row1 B) k, q3_at (row2 B) k) in
  let r R := (dot R (col 0%nat), dot R (col 1%nat), dot R (col 2%nat)) in mkMat3 (r (row0 A)) (r (row1 A)) (r (row2 A)).
Definition mat_id : mat3 := mkMat3 (1, 0, 0) (0, 1, 0) (0, 0, 1).
(** the plane through [origin] whose points all have the third basis coordinate of [origin] *)
Definition cut_plane (basis : mat3) (origin x : q3) : Prop := dot (row2 basis) x = dot (row2 basis) origin.

(** ** the transform *)
(** the points sent to z = 0 form a plane parallel to the intended one, displaced by the difference between the third coordinates of B o and B^-1 o *)
Theorem c94_transform_plane basis inverse origin x :
  qz (get_transform basis inverse origin x) = 0 <-> dot (row2 basis) x = dot (row2 inverse) origin.
Proof. unfold get_transform, mat_vec, qz. vec. cbn. split; intros H; qc_lra. Qed.
Theorem c94_transform_iff basis inverse origin : mat_mul inverse basis = mat_id ->
  ((forall x, qz (get_transform basis inverse origin x) = 0 <-> cut_plane basis origin x) <-> dot (row2 basis) origin = dot (row2 inverse) origin).
Proof.
  intros _. split.
  - intros H. specialize (proj2 (H origin) eq_refl). intros E. apply c94_transform_plane in E. auto.
  - intros E x. rewrite c94_transform_plane. unfold cut_plane. rewrite E. tauto.
Qed.
(** REFUTED: slicing through a point cuts there.  A quarter turn about the x axis sends the plane through (0, 1, 0) to z = 2 *)
Definition quarter : mat3 := mkMat3 (1, 0, 0) (0, 0, - (1)) (0, 1, 0).
Definition quarter_inv : mat3 := mkMat3 (1, 0, 0) (0, 0, 1) (0, - (1), 0).
Theorem c94_transform_refuted : mat_mul quarter_inv quarter = mat_id /\ mat_mul quarter quarter_inv = mat_id /\
  get_transform quarter quarter_inv (0, 1, 0) (0, 1, 0) = (0, 0, 1 + 1) /\ get_transform quarter quarter_inv (0, 1, 0) (0, - (1), 0) = (0, 0, 0).
Proof.
  assert (E : forall a b : q3, map this [fst (fst a); snd (fst a); snd a] = map this [fst (fst b); snd (fst b); snd b] -> a = b).
  { intros [[a b] c] [[d e] f] H. cbn in H. injection H as H1 H2 H3. rewrite (Qc_is_canon a d), (Qc_is_canon b e), (Qc_is_canon c f); auto; rewrite ?H1, ?H2, ?H3; reflexivity. }
  assert (M : forall A B, row0 A = row0 B -> row1 A = row1 B -> row2 A = row2 B -> A = B) by (intros [? ? ?] [? ? ?]; cbn; intros; subst; auto).
  split; [|split; [|split]]; try apply M; apply E; vm_compute; reflexivity.
Qed.

(** ** the embedding grid *)
Lemma Some_inj (A : Type) (a b : A) : Some a = Some b -> a = b. Proof. congruence. Qed.
Notation px p := (fst (fst p)). Notation py p := (snd (fst p)). Notation pz p := (snd p).
Lemma qmin_spec a b : qmin a b <= a /\ qmin a b <= b /\ (qmin a b = a \/ qmin a b = b).
Proof. unfold qmin. destruct (qltb b a) eqn:E; [apply qltb_lt in E|apply qltb_ge in E]; repeat split; auto; try qc_lra; apply Qcle_refl. Qed.
Lemma qmax_spec a b : a <= qmax a b /\ b <= qmax a b /\ (qmax a b = a \/ qmax a b = b).
Proof. unfold qmax. destruct (qltb a b) eqn:E; [apply qltb_lt in E|apply qltb_ge in E]; repeat split; auto; try qc_lra; apply Qcle_refl. Qed.
Definition is_min (f : q3 -> Qc) (l : list q3) (m : Qc) : Prop := (forall v, In v l -> m <= f v) /\ exists v, In v l /\ f v = m.
Definition is_max (f : q3 -> Qc) (l : list q3) (m : Qc) : Prop := (forall v, In v l -> f v <= m) /\ exists v, In v l /\ f v = m.
Lemma fold_min (f : q3 -> Qc) t : (forall a b, f (qmin3 a b) = qmin (f a) (f b)) -> forall v, is_min f (v :: t) (f (fold_left qmin3 t v)).
Proof.
  intros H. induction t as [|a t IH]; intros v; cbn [fold_left].
  - split; [intros u [<-|[]]; apply Qcle_refl|exists v; cbn; auto].
  - destruct (IH (qmin3 v a)) as [L (w & Iw & Ew)]. destruct (qmin_spec (f v) (f a)) as (A & B & C). rewrite <- H in A, B, C. assert (X := L (qmin3 v a) (or_introl eq_refl)). split.
    + intros u [<-|[<-|I]]; [eapply Qcle_trans; eauto|eapply Qcle_trans; eauto|apply L; cbn; auto].
    + destruct Iw as [<-|I]; [|exists w; cbn; auto]. rewrite <- Ew. destruct C as [C|C]; rewrite C; [exists v|exists a]; cbn; auto.
Qed.
Lemma fold_max (f : q3 -> Qc) t : (forall a b, f (qmax3 a b) = qmax (f a) (f b)) -> forall v, is_max f (v :: t) (f (fold_left qmax3 t v)).
Proof.
  intros H. induction t as [|a t IH]; intros v; cbn [fold_left].
  - split; [intros u [<-|[]]; apply Qcle_refl|exists v; cbn; auto].
  - destruct (IH (qmax3 v a)) as [L (w & Iw & Ew)]. destruct (qmax_spec (f v) (f a)) as (A & B & C). rewrite <- H in A, B, C. assert (X := L (qmax3 v a) (or_introl eq_refl)). split.
    + intros u [<-|[<-|I]]; [eapply Qcle_trans; eauto|eapply Qcle_trans; eauto|apply L; cbn; auto].
    + destruct Iw as [<-|I]; [|exists w; cbn; auto]. rewrite <- Ew. destruct C as [C|C]; rewrite C; [exists v|exists a]; cbn; auto.
Qed.
Lemma embedding_spec V g : embedding V = Some g -> exists x0 x1 y0 y1 zm,
  is_min (fun p => px p) V x0 /\ is_max (fun p => px p) V x1 /\ is_min (fun p => py p) V y0 /\ is_max (fun p => py p) V y1 /\
  (forall v, In v V -> - zm <= pz v /\ pz v <= zm) /\ (exists v, In v V /\ (pz v = zm \/ pz v = - zm)) /\
  g = mkSGrid (q11 * x0, q11 * y0, - (q11 * zm)) (q11 * (x1 - x0), q11 * (y1 - y0), q11 * zm).
Proof.
  unfold embedding, slice_box, bbox. destruct V as [|v t]; [discriminate|]. set (lo := fold_left qmin3 t v). set (hi := fold_left qmax3 t v).
  assert (A := fold_min (fun p => px p) t ltac:(intros [[? ?] ?] [[? ?] ?]; reflexivity) v). assert (B := fold_min (fun p => py p) t ltac:(intros [[? ?] ?] [[? ?] ?]; reflexivity) v). assert (C := fold_min (fun p => pz p) t ltac:(intros [[? ?] ?] [[? ?] ?]; reflexivity) v).
  assert (A' := fold_max (fun p => px p) t ltac:(intros [[? ?] ?] [[? ?] ?]; reflexivity) v). assert (B' := fold_max (fun p => py p) t ltac:(intros [[? ?] ?] [[? ?] ?]; reflexivity) v). assert (C' := fold_max (fun p => pz p) t ltac:(intros [[? ?] ?] [[? ?] ?]; reflexivity) v).
  fold lo in A, B, C. fold hi in A', B', C'. clearbody lo hi. destruct lo as [[x0 y0] z0], hi as [[x1 y1] z1]. cbn [fst snd] in *. cbn [option_map].
  intros E. apply Some_inj in E. subst g. exists x0, x1, y0, y1, (qmax z1 (- z0)). destruct (qmax_spec z1 (- z0)) as (M1 & M2 & M3).
  repeat (split; [assumption|]). split; [|split].
  - intros u I. destruct C as [C _], C' as [C' _]. specialize (C u I). specialize (C' u I). split; qc_lra.
  - destruct M3 as [M3|M3]; rewrite M3; [destruct C' as [_ (u & I & E)]|destruct C as [_ (u & I & E)]]; exists u; split; auto. right. rewrite E. ring.
  - generalize (qmax z1 (- z0)). intros zm. unfold vscale, vadd, vneg. f_equal; [f_equal; ring|]. f_equal; [f_equal; field; discriminate|]. field. discriminate.
Qed.
Lemma q11_pos : 0 < q11. Proof. reflexivity. Qed.
(** the middle layer of the grid is the plane z = 0, whatever the mesh; local coordinates are undefined (division by zero) exactly when the mesh is flat along x or y, or lies in the plane *)
Theorem c94_middle_plane V g : embedding V = Some g -> forall a b, pz (world_coord g (a, b, 1)) = 0.
Proof. intros H a b. destruct (embedding_spec V g H) as (x0 & x1 & y0 & y1 & zm & _ & _ & _ & _ & _ & _ & ->). cbn. ring. Qed.
Theorem c94_spacing V g : embedding V = Some g ->
  (px (sg_dx g) = 0 <-> forall u v, In u V -> In v V -> px u = px v) /\ (py (sg_dx g) = 0 <-> forall u v, In u V -> In v V -> py u = py v) /\ (pz (sg_dx g) = 0 <-> forall v, In v V -> pz v = 0) /\
  0 <= px (sg_dx g) /\ 0 <= py (sg_dx g) /\ 0 <= pz (sg_dx g).
Proof.
  intros H. destruct (embedding_spec V g H) as (x0 & x1 & y0 & y1 & zm & [A1 (a1 & Ia1 & Ea1)] & [A2 (a2 & Ia2 & Ea2)] & [B1 (b1 & Ib1 & Eb1)] & [B2 (b2 & Ib2 & Eb2)] & C & (c & Ic & Ec) & ->). cbn [sg_dx fst snd].
  assert (Z0 : forall k, q11 * k = 0 <-> k = 0) by (intros k; split; [intros E; apply Qcmult_integral in E; destruct E; [discriminate|auto]|intros ->; ring]).
  assert (P0 : forall k, 0 <= k -> 0 <= q11 * k). { intros k K. replace 0 with (0 * k) by ring. apply Qcmult_le_compat_r; auto. discriminate. }
  assert (X := A1 a2 Ia2). assert (Y := B1 b2 Ib2). destruct (C c Ic) as [C1 C2]. rewrite !Z0. cbn beta in *. split; [|split; [|split; [|split; [|split]]]].
  - split; [intros E u v Iu Iv|intros E]. { apply Qcle_antisym; assert (U1 := A1 u Iu); assert (U2 := A2 u Iu); assert (V1 := A1 v Iv); assert (V2 := A2 v Iv); cbn in *; qc_lra. } assert (W := E a1 a2 Ia1 Ia2). rewrite Ea1, Ea2 in W. rewrite W. ring.
  - split; [intros E u v Iu Iv|intros E]. { apply Qcle_antisym; assert (U1 := B1 u Iu); assert (U2 := B2 u Iu); assert (V1 := B1 v Iv); assert (V2 := B2 v Iv); cbn in *; qc_lra. } assert (W := E b1 b2 Ib1 Ib2). rewrite Eb1, Eb2 in W. rewrite W. ring.
  - split; [intros E v Iv|intros E]. { destruct (C v Iv). apply Qcle_antisym; qc_lra. } specialize (E c Ic). destruct Ec; qc_lra.
  - apply P0. rewrite <- Ea2. qc_lra.
  - apply P0. rewrite <- Eb2. qc_lra.
  - apply P0. qc_lra.
Qed.
(** with all spacings nonzero, coordinates round-trip and the side of the plane is the side of layer 1 *)
Theorem c94_local V g p : embedding V = Some g -> px (sg_dx g) <> 0 -> py (sg_dx g) <> 0 -> pz (sg_dx g) <> 0 ->
  world_coord g (local_coord g p) = p /\ (pz (local_coord g p) = 1 <-> pz p = 0) /\ (1 <= pz (local_coord g p) <-> 0 <= pz p) /\
  (In p V -> 0 <= pz (local_coord g p) /\ pz (local_coord g p) <= 1 + 1).
Proof.
  intros H NX NY NZ. destruct (c94_spacing V g H) as (_ & _ & _ & _ & _ & PZ). destruct (embedding_spec V g H) as (x0 & x1 & y0 & y1 & zm & _ & _ & _ & _ & C & _ & ->). destruct p as [[x y] z]. cbn [sg_dx sg_origin fst snd local_coord world_coord] in *.
  set (D := q11 * zm) in *. assert (PD : 0 < D) by (destruct (Qc_dec D 0) as [[L|L]|L]; auto; [exfalso; qc_lra|contradiction]).
  assert (E : (z - - D) / D = 1 + z / D) by (field; auto).
  assert (EZ : z = z / D * D) by (field; auto).
  assert (M : forall k, 0 <= k -> 0 <= k * D) by (intros k K; replace 0 with (0 * D) by ring; apply Qcmult_le_compat_r; auto; qc_lra).
  assert (M' : forall k, 0 <= k * D -> 0 <= k).
  { intros k K. destruct (Qclt_le_dec k 0) as [L|L]; auto. exfalso. assert (Q := Qcmult_lt_compat_r _ _ _ PD L). qc_lra. }
  split; [|split; [|split]].
  - set (DX := q11 * (x1 - x0)) in *. set (DY := q11 * (y1 - y0)) in *. clearbody DX DY. repeat f_equal; field; auto.
  - rewrite E. split; intros W; [assert (Q : z / D = 0) by qc_lra; rewrite EZ, Q; ring|rewrite W; field; auto].
  - rewrite E. split; intros W; [rewrite EZ; apply M; qc_lra|]. assert (0 <= z / D) by (apply M'; rewrite <- EZ; auto). qc_lra.
  - intros I. destruct (C _ I) as [C1 C2]. cbn [snd] in C1, C2. rewrite E.
    assert (Z1 : 0 <= zm) by qc_lra. assert (BD : zm <= D). { unfold D. assert (Q : 0 <= (q11 - 1) * zm) by (replace 0 with (0 * zm) by ring; apply Qcmult_le_compat_r; auto; discriminate). revert Q. unfold Qcle. q_push. intros. lra. }
    split.
    + assert (0 <= 1 + z / D); [|auto]. apply M'. assert (Q : (1 + z / D) * D = D + z) by (rewrite Qcmult_plus_distr_l, <- EZ; ring). rewrite Q. qc_lra.
    + assert (0 <= 1 - z / D); [|qc_lra]. apply M'. assert (Q : (1 - z / D) * D = D - z) by (unfold Qcminus; rewrite Qcmult_plus_distr_l; replace (- (z / D) * D) with (- (z / D * D)) by ring; rewrite <- EZ; ring). rewrite Q. qc_lra.
Qed.
(** REFUTED: the grid contains the mesh.  Scaling both corners by 1.1 about the origin only encloses the mesh along x (or y) when the mesh has points on both sides of 0 *)
Theorem c94_contains_iff V g : embedding V = Some g ->
  ((forall v, In v V -> px (sg_origin g) <= px v /\ px v <= px (sg_origin g) + px (sg_dx g)) <-> (exists u, In u V /\ px u <= 0) /\ (exists u, In u V /\ 0 <= px u)) /\
  ((forall v, In v V -> py (sg_origin g) <= py v /\ py v <= py (sg_origin g) + py (sg_dx g)) <-> (exists u, In u V /\ py u <= 0) /\ (exists u, In u V /\ 0 <= py u)) /\
  (forall v, In v V -> pz (sg_origin g) <= pz v /\ pz v <= pz (sg_origin g) + (1 + 1) * pz (sg_dx g)).
Proof.
  intros H. destruct (embedding_spec V g H) as (x0 & x1 & y0 & y1 & zm & A1 & A2 & B1 & B2 & C & (c & Ic & Ec) & ->). cbn [sg_dx sg_origin fst snd].
  assert (T : q11 = 1 + Q2Qc (1 # 10)) by (apply Qc_is_canon; reflexivity). set (t := Q2Qc (1 # 10)) in *. assert (PT : 0 < t) by reflexivity. clearbody t. rewrite T. clear T H.
  assert (NN : forall k, 0 <= k -> 0 <= t * k) by (intros k K; rewrite Qcmult_comm; replace 0 with (0 * t) by ring; apply Qcmult_le_compat_r; auto; qc_lra).
  assert (NN' : forall k, 0 <= t * k -> 0 <= k). { intros k K. destruct (Qclt_le_dec k 0) as [L|L]; auto. exfalso. assert (Q := Qcmult_lt_compat_r _ _ _ PT L). rewrite (Qcmult_comm k) in Q. qc_lra. }
  assert (G : forall (f : q3 -> Qc) lo hi, is_min f V lo -> is_max f V hi ->
    ((forall v, In v V -> (1 + t) * lo <= f v /\ f v <= (1 + t) * lo + (1 + t) * (hi - lo)) <-> (exists u, In u V /\ f u <= 0) /\ (exists u, In u V /\ 0 <= f u))).
  { intros f lo hi [L1 (l & Il & El)] [H1 (h & Ih & Eh)]. split.
    - intros Q. destruct (Q l Il) as [Q1 _]. destruct (Q h Ih) as [_ Q2]. rewrite El in Q1. rewrite Eh in Q2. split; [exists l|exists h]; split; auto.
      + rewrite El. assert (0 <= - lo); [|qc_lra]. apply NN'. revert Q1. unfold Qcle. q_push. intros. lra.
      + rewrite Eh. apply NN'. revert Q2. unfold Qcle. q_push. intros. lra.
    - intros [(u & Iu & Eu) (w & Iw & Ew)] v Iv. assert (X1 := L1 u Iu). assert (X2 := H1 w Iw). assert (Y1 := L1 v Iv). assert (Y2 := H1 v Iv).
      assert (N1 : 0 <= t * (- lo)) by (apply NN; qc_lra). assert (N2 : 0 <= t * hi) by (apply NN; qc_lra). revert N1 N2 Y1 Y2. generalize (f v). intros fv. unfold Qcle. q_push. intros. split; lra. }
  split; [apply G; auto|]. split; [apply G; auto|].
  intros v Iv. destruct (C v Iv) as [C1 C2]. destruct (C c Ic) as [D1 D2]. assert (N : 0 <= t * zm) by (apply NN; qc_lra). revert N C1 C2. generalize (pz v). intros z. unfold Qcle. q_push. intros. split; lra.
Qed.
Theorem c94_contains_refuted : exists V g v, embedding V = Some g /\ In v V /\ px v < px (sg_origin g).
Proof. exists [(1, 0, 0); (1 + 1, 1, 1)]. eexists. exists (1, 0, 0). split; [reflexivity|]. split; [cbn; auto|]. vm_compute. reflexivity. Qed.

(** ** selection and the way back *)
(** when no face crosses the plane, the faces kept are those in the closed upper half space, and every face dropped is in the closed lower one *)
Theorem c94_kept V faces f : In f faces ->
  (In f (kept V faces) <-> forall i, In i f -> 0 <= qz (V i)) /\
  ((forall i j, In i f -> In j f -> ~ (qz (V i) < 0 /\ 0 < qz (V j))) -> ~ In f (kept V faces) -> forall i, In i f -> qz (V i) <= 0).
Proof.
  intros I. assert (A : In f (kept V faces) <-> forall i, In i f -> 0 <= qz (V i)).
  { unfold kept. rewrite filter_In. unfold above. rewrite forallb_forall. split.
    - intros [_ H] i Ii. specialize (H i Ii). apply Bool.negb_true_iff, qltb_ge in H. auto.
    - intros H. split; auto. intros i Ii. apply Bool.negb_true_iff, qltb_ge. auto. }
  split; auto. intros NS NK i Ii. destruct (Qclt_le_dec 0 (qz (V i))) as [L|L]; auto. exfalso. apply NK, A. intros j Ij. destruct (Qclt_le_dec (qz (V j)) 0) as [L'|L']; auto. destruct (NS j i Ij Ii). auto.
Qed.
(** mesh vertices and crossings come back where the inverse transform puts them; the vertices added by the cap's triangulation are returned untransformed *)
Theorem c94_back inv newV extra k p :
  (nth_error newV k = Some p -> nth_error (back inv newV extra) k = Some (inv p)) /\
  (nth_error extra k = Some p -> nth_error (back inv newV extra) (length newV + k) = Some p).
Proof.
  unfold back. rewrite firstn_app, Nat.sub_diag, firstn_all, firstn_O, app_nil_r, skipn_app, Nat.sub_diag, skipn_all, skipn_O. cbn [app]. split; intros H.
  - rewrite nth_error_app1; [apply map_nth_error; auto|]. rewrite map_length. apply nth_error_Some. congruence.
  - rewrite nth_error_app2 by (rewrite map_length; lia). rewrite map_length. replace (length newV + k - length newV)%nat with k by lia. auto.
Qed.
(** so an input vertex comes back unchanged *)
Theorem c94_input_restored V g T inv newV extra k v : embedding (map T V) = Some g -> px (sg_dx g) <> 0 -> py (sg_dx g) <> 0 -> pz (sg_dx g) <> 0 -> (forall x, inv (T x) = x) ->
  nth_error newV k = Some (world_coord g (local_coord g (T v))) -> nth_error (back inv newV extra) k = Some v.
Proof.
  intros H NX NY NZ HI E. destruct (c94_local _ g (T v) H NX NY NZ) as (R & _). rewrite R in E. destruct (c94_back inv newV extra k (T v)) as [B _]. rewrite (B E), HI. auto.
Qed.
(** REFUTED for added vertices unless the inverse transform happens to fix them *)
Theorem c94_extra_refuted inv newV extra k p : nth_error extra k = Some p -> (nth_error (back inv newV extra) (length newV + k) = Some (inv p) <-> inv p = p).
Proof. intros H. destruct (c94_back inv newV extra k p) as [_ B]. rewrite (B H). split; intros E; [apply Some_inj in E; auto|congruence]. Qed.
Example c94_example : let V := [(- (1), - (1), - (1)); (1, - (1), - (1)); (0, 1, 1 + 1)] in exists g, embedding V = Some g /\ px (sg_dx g) <> 0 /\ py (sg_dx g) <> 0 /\ pz (sg_dx g) <> 0 /\ this (pz (sg_dx g)) = (11 # 5)%Q /\
  kept (fun i => nth (Z.to_nat i) V (0, 0, 0)) [[0; 1; 2]; [2]]%Z = [[2]]%Z.
Proof. eexists. split; [reflexivity|]. split; [discriminate|]. split; [discriminate|]. split; [discriminate|]. split; vm_compute; reflexivity. Qed.
