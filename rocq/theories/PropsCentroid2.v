(** C131-C132: centroids and triangulations of 2D cut faces (model: Centroid2.v) *)
From Verif Require Import Base Num CoordMask Vertex VertexProofs Grid SmallestEdge AdaptiveGrid Mesh ExteriorGrid ExteriorProofs PropsExterior Sparse Volume VolumeProofs PropsVolume Queries3 Interp Mesh2 PropsMesh2 Triangulate PropsTriang Centroid2.
From Coq Require Import Permutation.
Set Implicit Arguments.
Local Open Scope Z_scope.
Local Notation q2 := (Qc * Qc)%type (only parsing).

(** ** Specification: plane triangles *)
Definition point := (Qc * Qc)%type.
Definition triangle := (point * point * point)%type.
Definition swap_side (e : point * point) : point * point := (snd e, fst e).
Definition tri_sides (t : triangle) : list (point * point) := let '(a, b, c) := t in [(a, b); (b, c); (c, a)].
Definition corners (t : triangle) : list point := let '(a, b, c) := t in [a; b; c].
(** signed area, positive if a, b, c turn to the left *)
Definition area (t : triangle) : Qc :=
  let '(a, b, c) := t in (((fst b - fst a) * (snd c - snd a) - (fst c - fst a) * (snd b - snd a)) / Z2Qc 2)%Qc.
Definition dotp (n p : point) : Qc := (fst n * fst p + snd n * snd p)%Qc.
Definition mid (t : triangle) : point :=
  let '(a, b, c) := t in (((fst a + fst b + fst c) / Z2Qc 3)%Qc, ((snd a + snd b + snd c) / Z2Qc 3)%Qc).
(** the triangles T fill the area enclosed by the loops: their sides are the sides of the loops and inner sides, each used in both directions *)
Definition fills (loops : list (list point)) (T : list triangle) : Prop :=
  exists D, Permutation (flat_map tri_sides T) (flat_map (@cyc_pairs point) loops ++ D ++ map swap_side D).
(** enclosed area of a closed polygon, twice *)
Definition twice_enclosed (l : list point) : Qc := lsum (fun e => (fst (fst e) * snd (snd e) - fst (snd e) * snd (fst e))%Qc) (cyc_pairs l).

(** ** auxiliary *)
Lemma z2_2 : Z2Qc 2 <> 0%Qc. Proof. discriminate. Qed.
Lemma z2_3 : Z2Qc 3 <> 0%Qc. Proof. discriminate. Qed.
Lemma z2_6 : Z2Qc 6 <> 0%Qc. Proof. discriminate. Qed.
Lemma z236 : Z2Qc 6 = (Z2Qc 2 * Z2Qc 3)%Qc. Proof. apply Qc_is_canon. vm_compute. reflexivity. Qed.
Lemma z22 : (1 + 1)%Qc = Z2Qc 2. Proof. apply Qc_is_canon. vm_compute. reflexivity. Qed.
Lemma z33 : (Z2Qc 3 = 1 + 1 + 1)%Qc. Proof. apply Qc_is_canon. vm_compute. reflexivity. Qed.
Lemma cyc_combine (A : Type) (ps : list A) : combine ps (tl ps ++ firstn 1 ps) = cyc_pairs ps.
Proof. destruct ps; reflexivity. Qed.
Lemma shoelace_twice ps : shoelace ps = (twice_enclosed ps / Z2Qc 2)%Qc.
Proof. unfold shoelace, twice_enclosed. rewrite z22, cyc_combine. f_equal. apply lsum_ext. intros ((a1 & a2) & (b1 & b2)) _. reflexivity. Qed.
Lemma moment_pairs d ps : poly_moment d ps = lsum (side_moment d) (cyc_pairs ps).
Proof. unfold poly_moment. rewrite cyc_combine. reflexivity. Qed.
Lemma swap_sum (g : point * point -> Qc) D : (forall e, g (swap_side e) = (- g e)%Qc) -> lsum g (map swap_side D) = (- lsum g D)%Qc.
Proof. intros H. induction D as [|e D IH]; cbn [map lsum]; [ring|]. rewrite IH, H. ring. Qed.
Lemma fills_sum (g : point * point -> Qc) loops T : (forall e, g (swap_side e) = (- g e)%Qc) -> fills loops T ->
  lsum (fun t => lsum g (tri_sides t)) T = lsum (fun l => lsum g (cyc_pairs l)) loops.
Proof.
  intros AS (D & P). rewrite <- !lsum_flat. rewrite (lsum_perm g P), !lsum_app, swap_sum by auto. ring.
Qed.
Lemma lsum_div (A : Type) (f : A -> Qc) k l : lsum (fun a => (f a / k)%Qc) l = (lsum f l / k)%Qc.
Proof. unfold Qcdiv. induction l as [|a l IH]; cbn [lsum]; [ring|]. rewrite IH. ring. Qed.
Lemma fills_area loops T : fills loops T -> lsum area T = (lsum twice_enclosed loops / Z2Qc 2)%Qc.
Proof.
  intros F. assert (E := @fills_sum (fun e => (fst (fst e) * snd (snd e) - fst (snd e) * snd (fst e))%Qc) loops T). transitivity (lsum (fun t => lsum (fun e : point * point => (fst (fst e) * snd (snd e) - fst (snd e) * snd (fst e))%Qc) (tri_sides t)) T / Z2Qc 2)%Qc; [|f_equal; apply E; auto; intros ((a & b) & (c & d)); cbn; ring].
  rewrite <- lsum_div. apply lsum_ext. intros (((a1 & a2) & (b1 & b2)) & (c1 & c2)) _. cbn [area tri_sides lsum fst snd]. field. apply z2_2.
Qed.
Lemma fills_moment d loops T : fills loops T -> lsum (fun t => (area t * axis2 (mid t) d)%Qc) T = lsum (poly_moment d) loops.
Proof.
  intros F. transitivity (lsum (fun l => lsum (side_moment d) (@cyc_pairs point l)) loops); [|apply lsum_ext; intros; symmetry; apply moment_pairs].
  etransitivity; [|apply (@fills_sum (side_moment d) loops T)]; [|intros ((a & b) & (c & e)); unfold swap_side, side_moment; cbn [fst snd]; destruct d; cbn [axis2 fst snd]; field; apply z2_6|auto].
  apply lsum_ext. intros (((a1 & a2) & (b1 & b2)) & (c1 & c2)) _. cbn [area tri_sides lsum fst snd mid side_moment]. destruct d; cbn [axis2 fst snd]; rewrite z236; field; (split; [apply z2_3|apply z2_2]).
Qed.
Lemma curve_some ps c : curve_centroid ps = Some c <-> twice_enclosed ps <> 0%Qc /\ c = ((poly_moment 0 ps / shoelace ps)%Qc, (poly_moment 1 ps / shoelace ps)%Qc).
Proof.
  unfold curve_centroid. destruct (qeqb (shoelace ps) 0) eqn:E.
  - apply qeqb_eq in E. rewrite shoelace_twice in E. split; [discriminate|]. intros (H & _). exfalso. apply H. transitivity (twice_enclosed ps / Z2Qc 2 * Z2Qc 2)%Qc; [field; apply z2_2|]. rewrite E. ring.
  - apply qeqb_neq in E. split.
    + intros H. apply Some_inj in H. subst c. split; auto. intros Z. apply E. rewrite shoelace_twice, Z. unfold Qcdiv. ring.
    + intros (_ & ->). reflexivity.
Qed.
Lemma shoelace_nz ps : twice_enclosed ps <> 0%Qc -> shoelace ps <> 0%Qc.
Proof. intros H E. apply H. rewrite shoelace_twice in E. transitivity (twice_enclosed ps / Z2Qc 2 * Z2Qc 2)%Qc; [field; apply z2_2|]. rewrite E. ring. Qed.
Lemma steps_some loops : forall x y t r, fold_left centroid_step loops (Some ((x, y), t)) = Some r <->
  Forall (fun l => twice_enclosed l <> 0%Qc) loops /\ r = (((x + lsum (poly_moment 0) loops)%Qc, (y + lsum (poly_moment 1) loops)%Qc), (t + lsum twice_enclosed loops / Z2Qc 2)%Qc).
Proof.
  assert (N : forall ls, fold_left centroid_step ls None = None) by (induction ls; auto).
  induction loops as [|l loops IH]; intros x y t r; cbn [fold_left lsum].
  - split.
    + intros H. apply Some_inj in H. subst r. split; [constructor|]. unfold Qcdiv. repeat (f_equal; try ring).
    + intros (_ & ->). unfold Qcdiv. f_equal. repeat (f_equal; try ring).
  - unfold centroid_step at 2. destruct (curve_centroid l) as [(cx & cy)|] eqn:E.
    + apply curve_some in E as (Z & E). apply pair_equal_spec in E as [-> ->]. rewrite IH. assert (S := shoelace_nz Z).
      assert (M : forall k, (poly_moment k l / shoelace l * shoelace l)%Qc = poly_moment k l) by (intros; field; auto). rewrite !M, shoelace_twice.
      split; intros (F & ->); (split; [first [constructor; assumption | inversion F; assumption]|]); unfold Qcdiv; repeat (f_equal; try ring).
    + rewrite N. split; [discriminate|]. intros (F & _). inversion F as [|? ? H]; subst. exfalso.
      assert (C : curve_centroid l = Some ((poly_moment 0 l / shoelace l)%Qc, (poly_moment 1 l / shoelace l)%Qc)) by (apply curve_some; auto). congruence.
Qed.

(** ** C131: the centroid of a face *)
(** it is a number exactly if every loop of the face, and the whole face, encloses an area *)
Theorem c131_defined loops : brep_centroid2 loops <> None <-> (forall l, In l loops -> twice_enclosed l <> 0%Qc) /\ lsum twice_enclosed loops <> 0%Qc.
Proof.
  unfold brep_centroid2. destruct (fold_left centroid_step loops (Some ((0, 0), 0)%Qc)) as [((x & y) & t)|] eqn:E.
  - apply steps_some in E as (F & E). apply pair_equal_spec in E as [_ ->]. rewrite Forall_forall in F. rewrite Qcplus_0_l.
    assert (Q : (lsum twice_enclosed loops / Z2Qc 2)%Qc = 0%Qc <-> lsum twice_enclosed loops = 0%Qc).
    { split; intros H; [transitivity (lsum twice_enclosed loops / Z2Qc 2 * Z2Qc 2)%Qc; [field; apply z2_2|rewrite H; ring]|rewrite H; unfold Qcdiv; ring]. }
    destruct (qeqb _ 0) eqn:Z.
    + apply qeqb_eq in Z. apply Q in Z. split; [congruence|]. intros (_ & H). auto.
    + apply qeqb_neq in Z. split; [|discriminate]. intros _. split; auto. intros H. apply Z, Q, H.
  - split; [congruence|]. intros (H1 & H2). assert (S := proj2 (steps_some loops 0 0 0 _) (conj (proj2 (Forall_forall _ _) H1) eq_refl)). rewrite E in S. discriminate.
Qed.
(** it is the centre of mass of the enclosed area: the mean of the centres of any triangles that fill the face, weighted by their areas *)
Theorem c131_centroid loops T c : fills loops T -> brep_centroid2 loops = Some c ->
  lsum area T <> 0%Qc /\
  (lsum area T * fst c = lsum (fun t => area t * fst (mid t)) T)%Qc /\ (lsum area T * snd c = lsum (fun t => area t * snd (mid t)) T)%Qc.
Proof.
  intros F H. unfold brep_centroid2 in H. destruct (fold_left centroid_step loops (Some ((0, 0), 0)%Qc)) as [((x & y) & t)|] eqn:E; [|discriminate].
  apply steps_some in E as (_ & E). apply pair_equal_spec in E as [E ->]. apply pair_equal_spec in E as [-> ->]. rewrite !Qcplus_0_l in H. rewrite <- (fills_area F) in H.
  destruct (qeqb _ 0) eqn:Z; [discriminate|]. apply qeqb_neq in Z. apply Some_inj in H. subst c. cbn [fst snd].
  rewrite <- (@fills_moment 0 _ _ F), <- (@fills_moment 1 _ _ F). cbn [axis2]. split; auto. split; field; auto.
Qed.
Lemma lsum_pos_ex (A : Type) (f : A -> Qc) l : (forall a, In a l -> 0 <= f a)%Qc -> lsum f l <> 0%Qc -> exists a, In a l /\ (0 < f a)%Qc.
Proof.
  induction l as [|a l IH]; cbn [lsum]; intros N Z; [congruence|]. destruct (Qclt_le_dec 0 (f a)) as [L|L]; [exists a; cbn; auto|].
  assert (E : f a = 0%Qc) by (apply Qcle_antisym; auto; apply N; cbn; auto). destruct IH as (b & I & P); [intros; apply N; cbn; auto|intros E2; apply Z; rewrite E, E2; ring|]. exists b. cbn. auto.
Qed.
Lemma lsum_lt (A : Type) (f g : A -> Qc) l x : (forall a, In a l -> f a <= g a)%Qc -> In x l -> (f x < g x)%Qc -> (lsum f l < lsum g l)%Qc.
Proof.
  induction l as [|a l IH]; cbn [In lsum]; intros LE I L; [tauto|].
  assert (TL : (lsum f l <= lsum g l)%Qc). { clear - LE. induction l as [|b l IH]; cbn [lsum]; [apply Qcle_refl|]. assert (A1 := LE b (or_intror (or_introl eq_refl))). assert (A2 : (lsum f l <= lsum g l)%Qc) by (apply IH; intros c [->|I]; apply LE; cbn; auto). qc_lra. }
  assert (A1 := LE a (or_introl eq_refl)). destruct I as [->|I]; [qc_lra|]. assert (A2 : (lsum f l < lsum g l)%Qc) by (apply IH; auto). qc_lra.
Qed.
Lemma mid_dot n t : (Z2Qc 3 * dotp n (mid t) = lsum (dotp n) (corners t))%Qc.
Proof. destruct t as (((a1 & a2) & (b1 & b2)) & (c1 & c2)). cbn [mid corners lsum dotp fst snd]. unfold dotp. cbn [fst snd]. field. apply z2_3. Qed.
Lemma flat_area n k t : n <> (0, 0)%Qc -> (forall p, In p (corners t) -> dotp n p = k) -> area t = 0%Qc.
Proof.
  destruct t as (((a1 & a2) & (b1 & b2)) & (c1 & c2)), n as (n1 & n2). unfold dotp. cbn [corners fst snd In]. intros N H.
  assert (A := H _ (or_introl eq_refl)). assert (B := H _ (or_intror (or_introl eq_refl))). assert (C := H _ (or_intror (or_intror (or_introl eq_refl)))). cbn [fst snd] in A, B, C.
  cbn [area fst snd]. set (X := ((b1 - a1) * (c2 - a2) - (c1 - a1) * (b2 - a2))%Qc). enough (E : X = 0%Qc) by (rewrite E; unfold Qcdiv; ring).
  assert (E1 : (n1 * (b1 - a1) + n2 * (b2 - a2) = 0)%Qc) by (transitivity ((n1 * b1 + n2 * b2) - (n1 * a1 + n2 * a2))%Qc; [ring|rewrite A, B; ring]).
  assert (E2 : (n1 * (c1 - a1) + n2 * (c2 - a2) = 0)%Qc) by (transitivity ((n1 * c1 + n2 * c2) - (n1 * a1 + n2 * a2))%Qc; [ring|rewrite A, C; ring]).
  assert (P1 : (n1 * X = 0)%Qc). { transitivity ((n1 * (b1 - a1) + n2 * (b2 - a2)) * (c2 - a2) - (n1 * (c1 - a1) + n2 * (c2 - a2)) * (b2 - a2))%Qc; [unfold X; ring|rewrite E1, E2; ring]. }
  assert (P2 : (n2 * X = 0)%Qc). { transitivity ((n1 * (c1 - a1) + n2 * (c2 - a2)) * (b1 - a1) - (n1 * (b1 - a1) + n2 * (b2 - a2)) * (c1 - a1))%Qc; [unfold X; ring|rewrite E1, E2; ring]. }
  apply Qcmult_integral in P1 as [Z1|]; auto. apply Qcmult_integral in P2 as [Z2|]; auto. exfalso. apply N. congruence.
Qed.
(** if the triangles do not overlap, the centroid lies in the face's convex hull: strictly on the right side of every line that has all
    corners on one side *)
Theorem c131_hull loops T c n k : fills loops T -> brep_centroid2 loops = Some c -> (forall t, In t T -> 0 <= area t)%Qc ->
  n <> (0, 0)%Qc -> (forall t p, In t T -> In p (corners t) -> k <= dotp n p)%Qc -> (k < dotp n c)%Qc.
Proof.
  intros F H P N K. destruct (c131_centroid F H) as (Z & X & Y). destruct (@lsum_pos_ex _ area T P Z) as (t & It & Pt).
  assert (TOT : (0 < lsum area T)%Qc). { rewrite <- (@lsum_0 _ (fun _ => 0%Qc) T) by auto. apply (@lsum_lt _ _ _ T t); auto. }
  assert (C : (lsum area T * dotp n c = lsum (fun t => area t * dotp n (mid t)) T)%Qc).
  { rewrite (@lsum_ext _ (fun t => area t * dotp n (mid t))%Qc (fun t => fst n * (area t * fst (mid t)) + snd n * (area t * snd (mid t)))%Qc) by (intros; unfold dotp; ring).
    rewrite lsum_add, !lsum_scale, <- X, <- Y. unfold dotp. ring. }
  assert (M : forall u, In u T -> (k <= dotp n (mid u))%Qc).
  { intros u Iu. assert (A := mid_dot n u). destruct u as ((a & b) & d). cbn [corners lsum] in A. assert (Ka := K _ a Iu (or_introl eq_refl)). assert (Kb := K _ b Iu (or_intror (or_introl eq_refl))). assert (Kd := K _ d Iu (or_intror (or_intror (or_introl eq_refl)))).
    rewrite z33 in A. revert A Ka Kb Kd. generalize (dotp n (mid (a, b, d))), (dotp n a), (dotp n b), (dotp n d). intros; qc_lra. }
  assert (S : (k < dotp n (mid t))%Qc).
  { assert (A := mid_dot n t). destruct t as ((a & b) & d). cbn [corners lsum] in A. assert (Ka := K _ a It (or_introl eq_refl)). assert (Kb := K _ b It (or_intror (or_introl eq_refl))). assert (Kd := K _ d It (or_intror (or_intror (or_introl eq_refl)))).
    destruct (Qclt_le_dec k (dotp n (mid (a, b, d)))) as [L|L]; auto. exfalso.
    assert (Z0 : area (a, b, d) = 0%Qc). { apply (@flat_area n k); auto. rewrite z33 in A. intros p [<-|[<-|[<-|[]]]]; revert A Ka Kb Kd L; generalize (dotp n (mid (a, b, d))), (dotp n a), (dotp n b), (dotp n d); intros; apply Qcle_antisym; qc_lra. }
    rewrite Z0 in Pt. revert Pt. apply Qcle_not_lt, Qcle_refl. }
  assert (L : (lsum (fun t => k * area t) T < lsum (fun t => area t * dotp n (mid t)) T)%Qc).
  { apply (@lsum_lt _ _ _ T t); auto.
    - intros u Iu. assert (A := P u Iu). assert (B := M u Iu). revert A B. generalize (area u), (dotp n (mid u)). intros a d A B. rewrite (Qcmult_comm k a), (Qcmult_comm a k), (Qcmult_comm a d). apply Qcmult_le_compat_r; auto.
    - rewrite (Qcmult_comm (area t)). apply Qcmult_lt_compat_r; auto. }
  rewrite <- C, lsum_scale, (Qcmult_comm (lsum area T)) in L.
  destruct (Qclt_le_dec k (dotp n c)) as [G|G]; auto. exfalso. apply (Qcle_not_lt (dotp n c * lsum area T) (k * lsum area T)); auto. apply Qcmult_le_compat_r; auto. apply Qclt_le_weak; auto.
Qed.

(** *** centroids(): one column per cell, in the numbering of the other queries *)
Theorem c131_layout m : Z.of_nat (length (centroids2 m)) = num_faces2 m /\
  (forall k f, is_face m k f -> nth_error (centroids2 m) (Z.to_nat k) = Some (face_centroid2 m f)) /\
  (forall i x y, nth_error (cell_coords (m2_cells m) (m2_mask m)) i = Some [x; y] ->
     nth_error (centroids2 m) (Z.to_nat (num_cutfaces m) + i) =
       Some (Some ((fst (m2_origin m) + fst (m2_dx m) * (Z2Qc x + qhalf))%Qc, (snd (m2_origin m) + snd (m2_dx m) * (Z2Qc y + qhalf))%Qc))).
Proof.
  unfold centroids2, num_faces2, ext_cells, num_cutfaces. destruct (c33_index_bijection (m2_cells m) (m2_mask m)) as (L & _). split; [|split].
  - rewrite app_length, !map_length, <- L. lia.
  - intros k f (K & N). rewrite nth_error_app1 by (rewrite map_length; apply nth_error_Some; congruence). rewrite nth_error_map, N. reflexivity.
  - intros i x y H. rewrite Nat2Z.id. rewrite nth_error_app2 by (rewrite map_length; lia). rewrite map_length. replace (length (m2_faces m) + i - length (m2_faces m))%nat with i by lia. rewrite nth_error_map, H. reflexivity.
Qed.
Lemma half_in x : (Z2Qc x < Z2Qc x + qhalf /\ Z2Qc x + qhalf < Z2Qc (x + 1))%Qc.
Proof. rewrite Z2Qc_plus, Z2Qc_1. assert (A : (0 < qhalf)%Qc) by reflexivity. assert (B : (qhalf < 1)%Qc) by reflexivity. revert A B. generalize qhalf, (Z2Qc x). intros; split; qc_lra. Qed.
Lemma mul_lt_l a b d : (0 < d)%Qc -> (a < b)%Qc -> (a * d < d * b)%Qc.
Proof. intros D L. rewrite (Qcmult_comm d b). apply Qcmult_lt_compat_r; auto. Qed.
(** point location of the centroid of an uncut cell gives that cell back *)
Theorem c131_exterior_located wn m i p : (0 < fst (m2_dx m))%Qc -> (0 < snd (m2_dx m))%Qc -> length (m2_cells m) = 2%nat -> owners_valid m ->
  num_cutfaces m <= i < num_faces2 m -> nth_error (centroids2 m) (Z.to_nat i) = Some (Some p) -> cell_index2 wn m p = i.
Proof.
  intros D0 D1 L2 OV R H. destruct (c131_layout m) as (_ & _ & LY). destruct (c33_index_bijection (m2_cells m) (m2_mask m)) as (L & B & B' & _).
  set (j := Z.to_nat (i - num_cutfaces m)). assert (NF : 0 <= num_cutfaces m) by (unfold num_cutfaces; lia).
  unfold num_faces2, ext_cells in R. rewrite <- L in R. assert (J : (j < length (cell_coords (m2_cells m) (m2_mask m)))%nat) by (unfold j; lia).
  destruct (nth_error (cell_coords (m2_cells m) (m2_mask m)) j) as [c|] eqn:E; [|apply nth_error_None in E; lia]. destruct (B' j c E) as (EX & IX).
  assert (LC : exists x y, c = [x; y]). { destruct EX as (S & _). apply in_shape_length in S. rewrite L2 in S. destruct c as [|x [|y [|? ?]]]; cbn in S; try lia. eauto. }
  destruct LC as (x & y & ->). specialize (LY j x y E). replace (Z.to_nat (num_cutfaces m) + j)%nat with (Z.to_nat i) in LY by (unfold j; lia). rewrite LY in H. apply Some_inj, Some_inj in H. subst p.
  assert (HC : in_grid_cell m [x; y] ((fst (m2_origin m) + fst (m2_dx m) * (Z2Qc x + qhalf))%Qc, (snd (m2_origin m) + snd (m2_dx m) * (Z2Qc y + qhalf))%Qc)).
  { exists x, y. split; auto. cbn [fst snd]. destruct (half_in x) as (X1 & X2), (half_in y) as (Y1 & Y2).
    assert (A1 := @mul_lt_l _ _ _ D0 X1). assert (A2 := Qcmult_lt_compat_r _ _ _ D0 X2). assert (A3 := @mul_lt_l _ _ _ D1 Y1). assert (A4 := Qcmult_lt_compat_r _ _ _ D1 Y2). rewrite (Qcmult_comm (Z2Qc x + qhalf)) in A2. rewrite (Qcmult_comm (Z2Qc y + qhalf)) in A4.
    revert A1 A2 A3 A4. generalize (fst (m2_dx m) * (Z2Qc x + qhalf))%Qc, (snd (m2_dx m) * (Z2Qc y + qhalf))%Qc, (Z2Qc x * fst (m2_dx m))%Qc, (Z2Qc (x + 1) * fst (m2_dx m))%Qc, (Z2Qc y * snd (m2_dx m))%Qc, (Z2Qc (y + 1) * snd (m2_dx m))%Qc, (fst (m2_origin m)), (snd (m2_origin m)).
    intros; split; [|split; [|split]]; qc_lra. }
  destruct (@c38_point_location wn m _ _ D0 D1 OV HC) as (_ & A & _). destruct (A EX) as (i' & N & ->). destruct (B' i' _ N) as (_ & IX'). unfold j in IX. lia.
Qed.
(** the centroid of a face whose corners lie in one closed grid cell lies inside that grid cell, so point location looks among the faces
    recorded for it; it answers the face if the winding test accepts the face and no other face of the cell *)
Definition in_closed_grid_cell (m : mesh2) (x y : Z) (p : point) : Prop :=
  (fst (m2_origin m) + Z2Qc x * fst (m2_dx m) <= fst p /\ fst p <= fst (m2_origin m) + Z2Qc (x + 1) * fst (m2_dx m) /\
   snd (m2_origin m) + Z2Qc y * snd (m2_dx m) <= snd p /\ snd p <= snd (m2_origin m) + Z2Qc (y + 1) * snd (m2_dx m))%Qc.
Theorem c131_in_grid_cell m f loops T c x y : (0 < fst (m2_dx m))%Qc -> (0 < snd (m2_dx m))%Qc ->
  Forall2 (fun l ps => Forall2 (fun v p => vertex2 m v = Some p) l ps) (f2_loops f) loops ->
  fills loops T -> (forall t, In t T -> 0 <= area t)%Qc -> (forall t p, In t T -> In p (corners t) -> exists l, In l loops /\ In p l) ->
  (forall l p, In l loops -> In p l -> in_closed_grid_cell m x y p) ->
  face_centroid2 m f = Some c -> in_grid_cell m [x; y] c.
Proof.
  intros D0 D1 PT F P CR BX H. assert (E : face_points m f = Some loops).
  { unfold face_points. clear - PT. induction PT as [|l ps ls lps H _ IH]; cbn [map sequence]; [reflexivity|].
    assert (E : sequence (map (vertex2 m) l) = Some ps). { clear - H. induction H as [|v p l ps E _ IH]; cbn [map sequence]; [reflexivity|]. rewrite E, IH. reflexivity. }
    rewrite E, IH. reflexivity. }
  unfold face_centroid2 in H. rewrite E in H.
  assert (B : forall t p, In t T -> In p (corners t) -> in_closed_grid_cell m x y p) by (intros t p It Ip; destruct (CR t p It Ip) as (l & Il & Ipl); eapply BX; eauto).
  exists x, y. split; auto.
  assert (H1 : (fst (m2_origin m) + Z2Qc x * fst (m2_dx m) < dotp (1, 0)%Qc c)%Qc). { apply (@c131_hull loops T c (1, 0)%Qc _ F H P); [discriminate|]. intros t p It Ip. destruct (B t p It Ip) as (A & _). unfold dotp. cbn [fst snd]. replace (1 * fst p + 0 * snd p)%Qc with (fst p) by ring. auto. }
  assert (H2 : (- (fst (m2_origin m) + Z2Qc (x + 1) * fst (m2_dx m)) < dotp (- (1), 0)%Qc c)%Qc). { apply (@c131_hull loops T c (- (1), 0)%Qc _ F H P); [discriminate|]. intros t p It Ip. destruct (B t p It Ip) as (_ & A & _). unfold dotp. cbn [fst snd]. replace (- (1) * fst p + 0 * snd p)%Qc with (- fst p)%Qc by ring. apply Qcopp_le_compat. auto. }
  assert (H3 : (snd (m2_origin m) + Z2Qc y * snd (m2_dx m) < dotp (0, 1)%Qc c)%Qc). { apply (@c131_hull loops T c (0, 1)%Qc _ F H P); [discriminate|]. intros t p It Ip. destruct (B t p It Ip) as (_ & _ & A & _). unfold dotp. cbn [fst snd]. replace (0 * fst p + 1 * snd p)%Qc with (snd p) by ring. auto. }
  assert (H4 : (- (snd (m2_origin m) + Z2Qc (y + 1) * snd (m2_dx m)) < dotp (0, - (1))%Qc c)%Qc). { apply (@c131_hull loops T c (0, - (1))%Qc _ F H P); [discriminate|]. intros t p It Ip. destruct (B t p It Ip) as (_ & _ & _ & A). unfold dotp. cbn [fst snd]. replace (0 * fst p + - (1) * snd p)%Qc with (- snd p)%Qc by ring. apply Qcopp_le_compat. auto. }
  unfold dotp in *. cbn [fst snd] in *. revert H1 H2 H3 H4. generalize (fst (m2_origin m) + Z2Qc x * fst (m2_dx m))%Qc, (fst (m2_origin m) + Z2Qc (x + 1) * fst (m2_dx m))%Qc, (snd (m2_origin m) + Z2Qc y * snd (m2_dx m))%Qc, (snd (m2_origin m) + Z2Qc (y + 1) * snd (m2_dx m))%Qc, (fst c), (snd c). intros; split; [|split; [|split]]; qc_lra.
Qed.
Corollary c131_cut_located wn m k f loops T c x y : (0 < fst (m2_dx m))%Qc -> (0 < snd (m2_dx m))%Qc -> owners_valid m -> is_face m k f ->
  Forall2 (fun l ps => Forall2 (fun v p => vertex2 m v = Some p) l ps) (f2_loops f) loops ->
  fills loops T -> (forall t, In t T -> 0 <= area t)%Qc -> (forall t p, In t T -> In p (corners t) -> exists l, In l loops /\ In p l) ->
  (forall l p, In l loops -> In p l -> in_closed_grid_cell m x y p) ->
  in_shape (m2_cells m) [x; y] = true -> m2_mask m [x; y] = false -> In k (owners m [x; y]) ->
  nth_error (centroids2 m) (Z.to_nat k) = Some (Some c) -> contains wn f c ->
  (forall k' f', In k' (owners m [x; y]) -> is_face m k' f' -> contains wn f' c -> k' = k) -> cell_index2 wn m c = k.
Proof.
  intros D0 D1 OV IF PT F P CR BX S M IK H CT U. destruct (c131_layout m) as (_ & LY & _). rewrite (LY _ _ IF) in H. apply Some_inj in H.
  assert (HC := @c131_in_grid_cell m f loops T c x y D0 D1 PT F P CR BX H).
  destruct (@c38_point_location wn m _ _ D0 D1 OV HC) as (_ & _ & A). destruct (A S M) as [(_ & N)|(k' & f' & E & I & IF' & C')].
  - exfalso. apply (N k f); auto.
  - rewrite E. apply (U k' f'); auto.
Qed.
(** refuted: an open piece of the input inside a face (a loop that runs along one edge and back) makes the centroid NaN *)
Theorem c131_open_piece_refuted loops a b : In [a; b] loops -> brep_centroid2 loops = None.
Proof.
  intros I. destruct (brep_centroid2 loops) eqn:E; auto. exfalso. assert (N : brep_centroid2 loops <> None) by congruence. apply c131_defined in N as (N & _). apply (N _ I).
  destruct a, b. unfold twice_enclosed. cbn [cyc_pairs app combine lsum fst snd]. ring.
Qed.

(** ** C132: triangulations *)
Definition place (V : Z -> point) (t : c3) : triangle := let '(a, b, c) := t in (V a, V b, V c).
(** the fan of a loop fills it *)
Theorem c132_fan_fills (V : Z -> point) l F : (3 <= length l)%nat -> fan_tris l = Some F -> fills [map V l] (map (place V) F).
Proof.
  intros L H. destruct (fan_shape _ H) as (i0 & i1 & rest & -> & ->). clear H. destruct rest as [|i2 rest]; [cbn in L; lia|]. clear L. unfold fills. cbn [flat_map]. 
  revert i1 i2. induction rest as [|i3 rest IH]; intros i1 i2.
  - exists []. cbn. apply Permutation_refl.
  - destruct (IH i2 i3) as (D & P). exists ((V i0, V i2) :: D).
    assert (E1 : map (fun '(a, b) => (i0, a, b)) (combine (i1 :: i2 :: i3 :: rest) (i2 :: i3 :: rest)) = (i0, i1, i2) :: map (fun '(a, b) => (i0, a, b)) (combine (i2 :: i3 :: rest) (i3 :: rest))) by reflexivity.
    rewrite E1. clear E1. cbn [map flat_map place tri_sides]. rewrite app_nil_r in *.
    set (X := flat_map tri_sides (map (place V) (map (fun '(a, b) => (i0, a, b)) (combine (i2 :: i3 :: rest) (i3 :: rest))))) in *. change (flat_map tri_sides (map (place V) (map (fun '(a, b) => (i0, a, b)) (combine (i2 :: i3 :: rest) (i3 :: rest))))) with X.
    assert (E2 : cyc_pairs (map V (i0 :: i2 :: i3 :: rest)) = (V i0, V i2) :: combine (map V (i2 :: i3 :: rest)) (map V (i3 :: rest) ++ [V i0])) by reflexivity.
    assert (E3 : cyc_pairs (map V (i0 :: i1 :: i2 :: i3 :: rest)) = (V i0, V i1) :: (V i1, V i2) :: combine (map V (i2 :: i3 :: rest)) (map V (i3 :: rest) ++ [V i0])) by reflexivity.
    change (V i0 :: V i1 :: V i2 :: V i3 :: map V rest) with (map V (i0 :: i1 :: i2 :: i3 :: rest)). rewrite E3. rewrite E2 in P. set (C := combine (map V (i2 :: i3 :: rest)) (map V (i3 :: rest) ++ [V i0])) in *. cbn [app map swap_side fst snd].
    apply perm_skip. apply perm_skip. etransitivity; [apply perm_skip, P|]. cbn [app].
    etransitivity; [apply perm_swap|]. etransitivity; [|apply Permutation_middle]. apply perm_skip. rewrite !app_assoc. etransitivity; [apply Permutation_middle|]. reflexivity.
Qed.
(** the faces the generator makes carry the number 0 of an input face, so triangulate always answers with the fan of the face's loop: n - 2
    triangles on its vertices, no new vertices, areas adding up to the enclosed area *)
Theorem c132_generated X V loops add : 
  (triangulate2 X V default_id loops add <> None <-> exists l, loops = [l] /\ (2 <= length l)%nat) /\
  (forall W F, triangulate2 X V default_id loops add = Some (W, F) -> exists l, loops = [l] /\ W = [] /\ Z.of_nat (length F) = Z.of_nat (length l) - 2 /\
     (forall t v, In t F -> In v (let '(a, b, c) := t in [a; b; c]) -> In v l) /\
     (forall P : Z -> point, lsum area (map (place P) F) = (twice_enclosed (map P l) / Z2Qc 2)%Qc)).
Proof.
  unfold triangulate2, default_id, triangulate_fan. split.
  - destruct loops as [|l [|? ?]]; cbn [option_map].
    + split; [congruence|]. intros (l & H & _). discriminate.
    + unfold fan_tris. destruct l as [|i0 [|i1 rest]]; cbn [option_map]; (split; [congruence || (intros _; eexists; split; [reflexivity|cbn; lia])|]); intros (l & H & L); injection H as <-; cbn in L; try lia; discriminate.
    + split; [congruence|]. intros (l' & H & _). discriminate.
  - intros W F H. destruct loops as [|l [|? ?]]; try discriminate. destruct (fan_tris l) as [F'|] eqn:E; [|discriminate]. cbn [option_map] in H. injection H as <- <-. exists l. destruct (c96_fan_vertices _ E) as (LF & VF). split; [auto|split; [auto|split; [auto|split]]].
    + intros ((a & b) & c) v It [<-|[<-|[<-|[]]]]; rewrite Forall_forall in VF; specialize (VF _ It); cbn in VF; tauto.
    + intros P. destruct (Nat.le_gt_cases 3 (length l)) as [G|G].
      * rewrite (@fills_area [map P l] _ (@c132_fan_fills P _ _ G E)). cbn [lsum]. f_equal. ring.
      * destruct l as [|i0 [|i1 [|? ?]]]; cbn in E, G; try discriminate; try lia. injection E as <-. cbn [map lsum]. destruct (P i0), (P i1). unfold twice_enclosed. cbn [map cyc_pairs app combine lsum fst snd]. field. apply z2_2.
Qed.
(** refuted: on a face that is not star-shaped from its first vertex, triangles lie outside the face *)
Theorem c132_nonconvex_refuted X V add : exists (P : Z -> point) l F, triangulate2 X V default_id [l] add = Some ([], F) /\ NoDup (map P l) /\
  (exists t, In t (map (place P) F) /\ (area t < 0)%Qc) /\ (0 < twice_enclosed (map P l))%Qc /\ (lsum (fun t => qabs (area t)) (map (place P) F) = twice_enclosed (map P l))%Qc.
Proof.
  exists (fun i => match i with 0 => (0, 0)%Qc | 1 => (Z2Qc 2, Z2Qc 1)%Qc | 2 => (Z2Qc 4, 0)%Qc | _ => (Z2Qc 2, Z2Qc 3)%Qc end), [0; 1; 2; 3], [(0, 1, 2); (0, 2, 3)].
  split; [reflexivity|]. split; [|split; [|split]].
  - cbn [map]. repeat constructor; cbn [In]; intros H; repeat destruct H as [H|H]; try discriminate; auto.
  - eexists. split; [cbn [map place]; left; reflexivity|]. reflexivity.
  - reflexivity.
  - apply Qc_is_canon. vm_compute. reflexivity.
Qed.
(** refuted: a face with several loops never gets triangles, whatever its identity: the call fails, or (for an axial face, when no vertices may
    be added and the Triangle library adds one nevertheless) the answer is empty *)
Theorem c132_several_loops_refuted X V id loops add R : (2 <= length loops)%nat -> (exists l v, In l loops /\ In v l) ->
  triangulate2 X V id loops add = Some R -> R = ([], []) /\ add = false /\ exists a c, id = AxialFace a c.
Proof.
  intros L (l & v & Il & Iv) H. unfold triangulate2 in H. destruct id as [k|a c].
  - destruct loops as [|l1 [|l2 loops]]; cbn in L, H; try lia; discriminate.
  - assert (H' : triangulate_triangle2 X V loops add = Some R) by (destruct loops as [|l1 [|l2 loops]]; cbn in L; try lia; exact H). clear H.
    unfold triangulate_triangle2 in H'. destruct (used_vertices loops) as [|u us] eqn:U.
    + exfalso. assert (I : In v (used_vertices loops)) by (apply used_In; eauto). rewrite U in I. destruct I.
    + destruct (tri_input V loops) as [(P & E)|]; [|discriminate]. destruct (te_tri X P E) as (nV & nF). destruct (sequence _); [|discriminate].
      destruct add; cbn [negb andb] in H'; [rewrite andb_false_r in H'; discriminate|]. destruct (_ && true); [|discriminate]. injection H' as <-. split; auto. split; auto. eauto.
Qed.
(** caching keeps what was there when the new part is empty *)
Theorem c132_cache (old : option (list point) * option (list c3)) W F :
  cache_triangulation2 old (W, F) = (match W with [] => fst old | _ => Some W end, match F with [] => snd old | _ => Some F end).
Proof. unfold cache_triangulation2, keep_new. destruct W, F; reflexivity. Qed.

(** *** faces(): the polygons handed to ear clipping are exactly the loops of the cells *)
Theorem c132_polygons m : exists L, faces2_input m = Some L /\
  forall l, In l L <-> exists i ls, 0 <= i < num_faces2 m /\ cell2 m i = Some ls /\ In l ls.
Proof.
  unfold faces2_input. assert (NF : 0 <= num_cutfaces m) by (unfold num_cutfaces; lia). destruct (c33_index_bijection (m2_cells m) (m2_mask m)) as (LN & _).
  assert (DEF : forall i, 0 <= i -> exists ls, cell2 m i = Some ls).
  { intros i Hi. unfold cell2. destruct (Z.ltb_spec i (num_cutfaces m)) as [A|A].
    - rewrite (proj2 (Z.ltb_ge i 0)) by auto. destruct (nth_error (m2_faces m) (Z.to_nat i)) as [f|] eqn:E; [eexists; reflexivity|]. apply nth_error_None in E. unfold num_cutfaces in A. lia.
    - destruct (Z.ltb_spec (i - num_cutfaces m) (ext_cells m)) as [B|B]; [|eexists; reflexivity]. destruct (nth_error (cell_coords _ _) _) eqn:E; [eexists; reflexivity|]. apply nth_error_None in E. unfold ext_cells in B. lia. }
  rewrite (@sequence_all _ _ (cell2 m) (fun i => match cell2 m i with Some ls => ls | None => [] end)).
  2: { intros i I. apply zseq_in in I. destruct (DEF i) as (ls & ->); auto. lia. }
  eexists. split; [reflexivity|]. intros l. rewrite in_concat. split.
  - intros (ls & I & J). apply in_map_iff in I as (i & <- & I). apply zseq_in in I. destruct (DEF i) as (ls & E); [lia|]. rewrite E in J. exists i, ls. auto.
  - intros (i & ls & R & E & J). exists ls. split; auto. apply in_map_iff. exists i. rewrite E. split; auto. apply zseq_in. auto.
Qed.
(** refuted: each loop is triangulated by itself, so the holes of a face are covered as well: with any triangulation of single polygons, the
    triangles of a face with a counterclockwise outer loop and clockwise holes have its area plus twice that of the holes *)
Theorem c132_holes_refuted (ear : list point -> list triangle) outer holes : 
  (forall l, lsum (fun t => qabs (area t)) (ear l) = (qabs (twice_enclosed l) / Z2Qc 2)%Qc) ->
  (0 <= twice_enclosed outer)%Qc -> (forall h, In h holes -> twice_enclosed h <= 0)%Qc ->
  (lsum (fun t => qabs (area t)) (flat_map ear (outer :: holes)) = lsum twice_enclosed (outer :: holes) / Z2Qc 2 + Z2Qc 2 * (lsum (fun h => qabs (twice_enclosed h) / Z2Qc 2) holes))%Qc.
Proof.
  intros EAR PO PH. rewrite lsum_flat. rewrite (@lsum_ext _ _ (fun l => qabs (twice_enclosed l) / Z2Qc 2)%Qc) by (intros; apply EAR). cbn [lsum].
  assert (Q : qabs (twice_enclosed outer) = twice_enclosed outer) by (unfold qabs; apply qltb_ge in PO; rewrite PO; auto). rewrite Q.
  assert (E : lsum twice_enclosed holes = (- (Z2Qc 2 * lsum (fun h => qabs (twice_enclosed h) / Z2Qc 2) holes))%Qc).
  { clear - PH. induction holes as [|h hs IH]; cbn [lsum]; [ring|]. rewrite IH by (intros; apply PH; cbn; auto). assert (A := PH h (or_introl eq_refl)).
    assert (B : qabs (twice_enclosed h) = (- twice_enclosed h)%Qc). { unfold qabs. destruct (qltb (twice_enclosed h) 0) eqn:Q; auto. apply qltb_ge in Q. assert (Z : twice_enclosed h = 0%Qc) by (apply Qcle_antisym; auto). rewrite Z. ring. }
    rewrite B. field. apply z2_2. }
  rewrite E, <- z22. field. discriminate.
Qed.

(** *** non-vacuity *)
(** the unit square with a quarter-size hole, filled by eight triangles; and a square with an open piece inside *)
Definition qd (a b : Z) : Qc := (Z2Qc a / Z2Qc b)%Qc.
Definition outer_ex : list point := [(0, 0); (1, 0); (1, 1); (0, 1)]%Qc.
Definition hole_ex : list point := [(qd 1 4, qd 1 4); (qd 1 4, qd 3 4); (qd 3 4, qd 3 4); (qd 3 4, qd 1 4)].
Definition tris_ex : list triangle :=
  let o i := nth i outer_ex (0, 0)%Qc in let h i := nth i hole_ex (0, 0)%Qc in
  [(o 0%nat, o 1%nat, h 0%nat); (o 1%nat, h 3%nat, h 0%nat); (o 1%nat, o 2%nat, h 3%nat); (o 2%nat, h 2%nat, h 3%nat);
   (o 2%nat, o 3%nat, h 2%nat); (o 3%nat, h 1%nat, h 2%nat); (o 3%nat, o 0%nat, h 1%nat); (o 0%nat, h 0%nat, h 1%nat)].
Definition inner_ex : list (point * point) :=
  let o i := nth i outer_ex (0, 0)%Qc in let h i := nth i hole_ex (0, 0)%Qc in
  [(o 1%nat, h 0%nat); (h 0%nat, o 0%nat); (o 1%nat, h 3%nat); (o 2%nat, h 3%nat); (o 2%nat, h 2%nat); (o 3%nat, h 2%nat); (o 3%nat, h 1%nat); (o 0%nat, h 1%nat)].
Fixpoint remove_one (e : point * point) (l : list (point * point)) : option (list (point * point)) :=
  match l with [] => None | f :: t => if (qeqb (fst (fst e)) (fst (fst f)) && qeqb (snd (fst e)) (snd (fst f)) && qeqb (fst (snd e)) (fst (snd f)) && qeqb (snd (snd e)) (snd (snd f))) then Some t else option_map (cons f) (remove_one e t) end.
Fixpoint is_perm (l l' : list (point * point)) : bool := match l with [] => match l' with [] => true | _ => false end | e :: t => match remove_one e l' with Some r => is_perm t r | None => false end end.
Lemma remove_one_perm e l r : remove_one e l = Some r -> Permutation (e :: r) l.
Proof.
  revert r. induction l as [|f l IH]; cbn [remove_one]; intros r H; [discriminate|]. destruct (_ && _) eqn:B.
  - apply Some_inj in H. subst r. rewrite !andb_true_iff, !qeqb_eq in B. destruct e as ((e1 & e2) & (e3 & e4)), f as ((f1 & f2) & (f3 & f4)). cbn in B. destruct B as (((-> & ->) & ->) & ->). apply Permutation_refl.
  - destruct (remove_one e l) as [r'|] eqn:R; [|discriminate]. cbn in H. apply Some_inj in H. subst r. etransitivity; [apply perm_swap|]. apply perm_skip. auto.
Qed.
Lemma is_perm_sound l : forall l', is_perm l l' = true -> Permutation l l'.
Proof.
  induction l as [|e l IH]; cbn [is_perm]; intros l' H; [destruct l'; [constructor|discriminate]|]. destruct (remove_one e l') as [r|] eqn:R; [|discriminate].
  etransitivity; [|apply (remove_one_perm _ _ R)]. apply perm_skip. auto.
Qed.
Example c131_example : fills [outer_ex; hole_ex] tris_ex /\ (forall t, In t tris_ex -> 0 <= area t)%Qc /\ option_map (fun p => (this (fst p), this (snd p))) (brep_centroid2 [outer_ex; hole_ex]) = Some (1 # 2, 1 # 2)%Q /\
  lsum area tris_ex = qd 3 4 /\ brep_centroid2 [outer_ex; [(qd 1 4, qd 1 4); (qd 3 4, qd 1 2)]] = None /\ lsum twice_enclosed [outer_ex; [(qd 1 4, qd 1 4); (qd 3 4, qd 1 2)]] = Z2Qc 2.
Proof.
  split; [exists inner_ex; apply is_perm_sound; vm_compute; reflexivity|]. split.
  - assert (B : forallb (fun t => qleb 0 (area t)) tris_ex = true) by (vm_compute; reflexivity). rewrite forallb_forall in B. intros t I. apply qleb_le. apply (B t I).
  - split; [|split; [|split]].
    + vm_compute. reflexivity.
    + apply Qc_is_canon. vm_compute. reflexivity.
    + apply (@c131_open_piece_refuted _ (qd 1 4, qd 1 4) (qd 3 4, qd 1 2)). cbn. auto.
    + apply Qc_is_canon. vm_compute. reflexivity.
Qed.
(** a 2x1 mesh: the left cell is a cut face, the right one is uncut; both centroids are found again *)
Example c131_example_mesh : map (fun p => match p with Some q => cell_index2 sample_wn sample2 q | None => -5 end) (centroids2 sample2) = [0; 1] /\
  map (option_map (fun p => (this (fst p), this (snd p)))) (centroids2 sample2) = [Some (1 # 2, 1 # 2)%Q; Some (3 # 2, 1 # 2)%Q].
Proof. split; vm_compute; reflexivity. Qed.
Example c132_example X V : triangulate2 X V default_id [[4; 5; 7; 9]] true = Some ([], [(4, 5, 7); (4, 7, 9)]) /\ triangulate2 X V default_id [[4; 5; 7; 9]; [1; 2; 3]] true = None /\
  faces2_input sample2 = Some [loop_left; [2; 3; 5; 4]].
Proof. split; [reflexivity|]. split; vm_compute; reflexivity. Qed.
