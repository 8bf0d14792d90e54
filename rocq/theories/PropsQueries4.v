(** C85, C87, C88: region centroids and triangulated cells of a CutCellMesh<3>. *)
From Coq Require Import Permutation.
From Verif Require Import Base Num CoordMask Vertex Grid SmallestEdge AdaptiveGrid Mesh Sparse Mesh2 PropsMesh2 Interp Boundary3 Volume VolumeProofs PropsVolume Queries3 PropsQueries3.
Set Implicit Arguments.
Local Open Scope Z_scope.
Local Arguments Qcplus : simpl never. Local Arguments Qcmult : simpl never. Local Arguments Qcopp : simpl never. Local Arguments Qcminus : simpl never.
Local Arguments Qcdiv : simpl never. Local Arguments Qcinv : simpl never. Local Arguments Q2Qc : simpl never.

(** ** C85: region centroids *)
(** specification: a solid glued from tetrahedra, its volume and first moment *)
Definition tet := (q3 * q3 * q3 * q3)%type.
Definition vminus (a b : q3) : q3 := vadd a (vneg b).
Definition tet_volume (t : tet) : Qc := let '(a, b, c, d) := t in (dot (vminus b a) (cross (vminus c a) (vminus d a)) / Z2Qc 6)%Qc.
Definition tet_centre (t : tet) : q3 := let '(a, b, c, d) := t in vscale (/ Z2Qc 4)%Qc (vadd (vadd a b) (vadd c d)).
(** outward oriented sides *)
Definition tet_sides (t : tet) : list tri3 := let '(a, b, c, d) := t in [(a, c, b); (a, b, d); (a, d, c); (b, c, d)].
Definition turn (t : tri3) : tri3 := let '(a, b, c) := t in (b, c, a).
Definition flip_tri (t : tri3) : tri3 := let '(a, b, c) := t in (b, a, c).
Definition same_tri (s t : tri3) : Prop := s = t \/ s = turn t \/ s = turn (turn t).
Definition solid_volume (s : list tet) : Qc := lsum tet_volume s.
(** coordinate d of the centre of mass *)
Definition solid_centre (s : list tet) (d : nat) : Qc := (lsum (fun t => tet_volume t * q3_at (tet_centre t) d) s / solid_volume s)%Qc.
(** the triangles of a region, those on side [true] as they are and the others turned around, bound the solid: up to the starting corner of each triangle, the
    sides of the tetrahedra are these triangles and pairs of opposite inner triangles *)
Definition bounds (T : Z -> tri3) (p : sides) (s : list tet) : Prop :=
  exists L inner, Forall2 same_tri (flat_map tet_sides s) L /\
    Permutation L (map T (fst p) ++ map (fun f => flip_tri (T f)) (snd p) ++ flat_map (fun t => [t; flip_tri t]) inner).

Section Functional.
  Variables (g : tri3 -> Qc) (G : tet -> Qc).
  Hypothesis Hrot : forall t, g (turn t) = g t.
  Hypothesis Hflip : forall t, g (flip_tri t) = (- g t)%Qc.
  Hypothesis Htet : forall t, lsum g (tet_sides t) = G t.
  Lemma bounds_sum T p s : bounds T p s -> (lsum (fun f => g (T f)) (fst p) - lsum (fun f => g (T f)) (snd p) = lsum G s)%Qc.
  Proof.
    intros (L & inner & F & P). assert (E1 : lsum g (flat_map tet_sides s) = lsum g L).
    { clear P. revert F. generalize (flat_map tet_sides s) as K. intros K F. induction F as [|x y K L H F IH]; cbn [lsum]; auto. rewrite IH. f_equal. destruct H as [ -> | [ -> | -> ] ]; rewrite ?Hrot; auto. }
    rewrite lsum_flat in E1. rewrite (lsum_ext (fun a => lsum g (tet_sides a)) G) in E1 by auto. rewrite E1, (lsum_perm g P), !lsum_app, !lsum_map, lsum_flat.
    rewrite (lsum_ext (fun a => g (flip_tri (T a))) (fun a => (- (1) * g (T a))%Qc)) by (intros; rewrite Hflip; ring). rewrite lsum_scale.
    rewrite (lsum_0 (fun a => lsum g [a; flip_tri a])) by (intros; cbn [lsum]; rewrite Hflip; ring). ring.
  Qed.
End Functional.
Ltac tri := repeat match goal with p : q3 |- _ => destruct p as [[? ?] ?] end; cbv beta iota delta [tri_moment tri_sum det3 vminus vadd vneg vscale vzero dot cross q3_at turn flip_tri tet_sides tet_volume tet_centre lsum fst snd].
Lemma K6 : Z2Qc 6 = (1 + 1 + 1 + 1 + 1 + 1)%Qc. Proof. apply Qc_is_canon; reflexivity. Qed.
Lemma K4 : Z2Qc 4 = (1 + 1 + 1 + 1)%Qc. Proof. apply Qc_is_canon; reflexivity. Qed.
Lemma K3 : Z2Qc 3 = (1 + 1 + 1)%Qc. Proof. apply Qc_is_canon; reflexivity. Qed.
Lemma N3 : (1 + 1 + 1 <> 0)%Qc. Proof. rewrite <- K3. discriminate. Qed.
Lemma N4 : (1 + 1 + 1 + 1 <> 0)%Qc. Proof. rewrite <- K4. discriminate. Qed.
Lemma N6 : (1 + 1 + 1 + 1 + 1 + 1 <> 0)%Qc. Proof. rewrite <- K6. discriminate. Qed.
Lemma det_tet t : lsum det3 (tet_sides t) = (Z2Qc 6 * tet_volume t)%Qc.
Proof. destruct t as [[[a b] c] d]. tri. cbn [lsum]. rewrite K6. field. exact N6. Qed.
Lemma moment_tet d t : lsum (fun s => q3_at (tri_moment s) d) (tet_sides t) = (Z2Qc 24 * (tet_volume t * q3_at (tet_centre t) d))%Qc.
Proof.
  assert (K : Z2Qc 24 = (Z2Qc 6 * Z2Qc 4)%Qc) by (apply Qc_is_canon; reflexivity). rewrite K, K6, K4.
  destruct t as [[[a b] c] e]. destruct d as [|[|d]]; tri; cbn [lsum fst snd]; rewrite K6, K4; field; repeat split; first [exact N4|exact N6].
Qed.
Lemma fold_vadd (A : Type) (h : A -> q3) d l : forall a, q3_at (fold_left (fun c f => vadd c (h f)) l a) d = (q3_at a d + lsum (fun f => q3_at (h f) d) l)%Qc.
Proof. induction l as [|x l IH]; intros a; cbn [fold_left lsum]; [ring|]. rewrite IH, q3_at_add. ring. Qed.
Lemma q3_at_neg a d : q3_at (vneg a) d = (- q3_at a d)%Qc.
Proof. destruct a as [[? ?] ?], d as [|[|?]]; reflexivity. Qed.
Lemma q3_at_zero d : q3_at vzero d = 0%Qc.
Proof. destruct d as [|[|?]]; reflexivity. Qed.
Lemma acc_moment_sum T p d : q3_at (acc_moment T p) d = (lsum (fun f => q3_at (tri_moment (T f)) d) (fst p) - lsum (fun f => q3_at (tri_moment (T f)) d) (snd p))%Qc.
Proof.
  unfold acc_moment. rewrite (fold_vadd (fun f => tri_moment (T f))), (fold_vadd (fun f => vneg (tri_moment (T f)))), q3_at_zero.
  rewrite (lsum_ext (fun f => q3_at (vneg (tri_moment (T f))) d) (fun f => (- (1) * q3_at (tri_moment (T f)) d)%Qc)) by (intros; rewrite q3_at_neg; ring). rewrite lsum_scale. ring.
Qed.
Lemma acc_vol_sum T p : acc_vol T p = (lsum (fun f => det3 (T f)) (fst p) - lsum (fun f => det3 (T f)) (snd p))%Qc.
Proof.
  unfold acc_vol. assert (P : forall l a, fold_left (fun v f => (v + det3 (T f))%Qc) l a = (a + lsum (fun f => det3 (T f)) l)%Qc) by (induction l as [|x l IH]; intros a; cbn [fold_left lsum]; [ring|rewrite IH; ring]).
  assert (N : forall l a, fold_left (fun v f => (v - det3 (T f))%Qc) l a = (a - lsum (fun f => det3 (T f)) l)%Qc) by (induction l as [|x l IH]; intros a; cbn [fold_left lsum]; [ring|rewrite IH; ring]).
  rewrite P, N. ring.
Qed.
Lemma bounds_vol T p s : bounds T p s -> acc_vol T p = (Z2Qc 6 * solid_volume s)%Qc.
Proof.
  intros B. rewrite acc_vol_sum. unfold solid_volume. rewrite <- lsum_scale. apply (@bounds_sum det3 (fun t => (Z2Qc 6 * tet_volume t)%Qc)); auto.
  - intros [[a b] c]. tri. ring.
  - intros [[a b] c]. tri. ring.
  - exact det_tet.
Qed.
Lemma bounds_moment T p s d : bounds T p s -> q3_at (acc_moment T p) d = (Z2Qc 24 * lsum (fun t => tet_volume t * q3_at (tet_centre t) d)%Qc s)%Qc.
Proof.
  intros B. rewrite acc_moment_sum. rewrite <- lsum_scale. apply (@bounds_sum (fun t => q3_at (tri_moment t) d) (fun t => (Z2Qc 24 * (tet_volume t * q3_at (tet_centre t) d))%Qc)); auto.
  - intros [[a b] c]. destruct d as [|[|?]]; tri; cbn [fst snd]; ring.
  - intros [[a b] c]. destruct d as [|[|?]]; tri; cbn [fst snd]; ring.
  - exact (moment_tet d).
Qed.
(** For every region but region 0 whose triangles bound a solid glued from tetrahedra, the point returned is 4/3 of the centre of mass (measured from the
    origin of the coordinate system), as the code divides by 3 where 4 is due.  Missing: the claim itself (see c85_region_centroid_refuted). *)
Theorem c85_region_centroid_partial m T r p s d : (r <> 0)%nat -> bounds T p s -> (eps8 < qabs (Z2Qc 6 * solid_volume s))%Qc ->
  q3_at (region_centroid m T r p) d = (Z2Qc 4 / Z2Qc 3 * solid_centre s d)%Qc.
Proof.
  intros R B V. unfold region_centroid. rewrite (proj2 (Nat.eqb_neq r 0)) by auto. rewrite q3_at_scale, (bounds_moment d B), (bounds_vol B). unfold sel_vol.
  rewrite (proj2 (qltb_lt _ _) V). unfold solid_centre. assert (NZ : solid_volume s <> 0%Qc).
  { intros Z. rewrite Z in V. replace (Z2Qc 6 * 0)%Qc with 0%Qc in V by ring. revert V. vm_compute. discriminate. }
  assert (K : Z2Qc 24 = (Z2Qc 6 * Z2Qc 4)%Qc) by (apply Qc_is_canon; reflexivity). rewrite K, K6, K4, K3. field. repeat split; auto; [exact N3|exact N6].
Qed.
(** a flat region, or one too small for the threshold, yields its undivided moment over 3 *)
Theorem c85_small_region m T r p s d : (r <> 0)%nat -> bounds T p s -> (qabs (Z2Qc 6 * solid_volume s) <= eps8)%Qc ->
  q3_at (region_centroid m T r p) d = (Z2Qc 8 * lsum (fun t => tet_volume t * q3_at (tet_centre t) d)%Qc s)%Qc.
Proof.
  intros R B V. unfold region_centroid. rewrite (proj2 (Nat.eqb_neq r 0)) by auto. rewrite q3_at_scale, (bounds_moment d B), (bounds_vol B). unfold sel_vol.
  rewrite (proj2 (qltb_ge _ _) V). assert (K : Z2Qc 24 = (Z2Qc 8 * Z2Qc 3)%Qc) by (apply Qc_is_canon; reflexivity). rewrite K, K3. field. exact N3.
Qed.
(** the box used for region 0 *)
Definition box_centre (m : mesh3) : q3 := vadd (m_origin m) (vscale (/ Z2Qc 2)%Qc (bb_sizes m)).
Theorem c85_outer_empty_partial m T d : prod3 (bb_sizes m) <> (- (1))%Qc -> q3_at (region_centroid m T 0 ([], [])) d = (prod3 (bb_sizes m) / (1 + prod3 (bb_sizes m)) * q3_at (m_origin m) d)%Qc.
Proof.
  intros NZ. unfold region_centroid. cbn [Nat.eqb fst snd acc_moment acc_vol fold_left]. rewrite q3_at_scale, q3_at_add, q3_at_scale, q3_at_scale, q3_at_add, q3_at_zero.
  assert (S : sel_vol 0 = 1%Qc) by (vm_compute; apply Qc_is_canon; reflexivity). unfold acc_vol. cbn [fold_left fst snd]. rewrite S.
  assert (K : Q2Qc (3 # 2) = (Z2Qc 3 / Z2Qc 2)%Qc) by (apply Qc_is_canon; reflexivity). assert (K2 : Z2Qc 2 = (1 + 1)%Qc) by (apply Qc_is_canon; reflexivity). rewrite K, K2, K3.
  assert (NP : (1 + prod3 (bb_sizes m) <> 0)%Qc) by (intros Z; apply NZ; replace (prod3 (bb_sizes m)) with (1 + prod3 (bb_sizes m) - 1)%Qc by ring; rewrite Z; ring).
  assert (N2 : (1 + 1 <> 0)%Qc) by (rewrite <- K2; discriminate).
  field. split; [exact NP|split; discriminate].
Qed.
(** REFUTED: region_centroids() does not return centres of mass: for the tetrahedron (1,0,0), (2,0,0), (1,1,0), (1,0,1) it gives x = 5/3 instead of 5/4,
    and with no input triangle at all the point of region 0 is not the centre of the grid's box but lies below its lower corner *)
Theorem c85_region_centroid_refuted :
  (exists m T p s d, bounds T p s /\ (eps8 < qabs (Z2Qc 6 * solid_volume s))%Qc /\ q3_at (region_centroid m T 1 p) d <> solid_centre s d) /\
  (exists m d, (1 < prod3 (bb_sizes m))%Qc /\ (q3_at (region_centroid m (orig_tri m) 0 ([], [])) d < q3_at (m_origin m) d)%Qc /\ (q3_at (m_origin m) d < q3_at (box_centre m) d)%Qc).
Proof.
  split.
  - set (a := (1, 0, 0)%Qc : q3). set (b := (Z2Qc 2, 0, 0)%Qc : q3). set (c := (1, 1, 0)%Qc : q3). set (e := (1, 0, 1)%Qc : q3).
    exists ex_mesh, (fun f => nth (Z.to_nat f) (tet_sides (a, b, c, e)) (a, a, a)), ([0; 1; 2; 3], []), [(a, b, c, e)], O. split; [|split].
    + exists (tet_sides (a, b, c, e)), []. split; [|apply Permutation_refl]. cbn [flat_map app tet_sides]. repeat (constructor; [left; reflexivity|]). constructor.
    + vm_compute. reflexivity.
    + intros E. apply (f_equal this) in E. revert E. vm_compute. discriminate.
  - exists ex_mesh, O. repeat split; vm_compute; reflexivity.
Qed.
Example c85_example : exists s, bounds (fun f => nth (Z.to_nat f) (flip_tri (nth 0 (tet_sides ((0, 0, 0), (1, 0, 0), (0, 1, 0), (0, 0, 1)))%Qc (vzero, vzero, vzero)) :: tl (tet_sides ((0, 0, 0), (1, 0, 0), (0, 1, 0), (0, 0, 1)))%Qc) (vzero, vzero, vzero)) ([1; 2; 3], [0]) s
  /\ solid_volume s = (/ Z2Qc 6)%Qc /\ solid_centre s 0 = (/ Z2Qc 4)%Qc.
Proof.
  exists [((0, 0, 0), (1, 0, 0), (0, 1, 0), (0, 0, 1))]%Qc. split; [|split; apply Qc_is_canon; vm_compute; reflexivity].
  exists (tet_sides ((0, 0, 0), (1, 0, 0), (0, 1, 0), (0, 0, 1)))%Qc, []. split; [cbn [flat_map app tet_sides]; repeat (constructor; [left; reflexivity|]); constructor|].
  cbn. apply Permutation_sym. match goal with |- Permutation [?x; ?y; ?z; ?w] _ => apply (Permutation_sym (Permutation_middle [x; y; z] [] w)) end.
Qed.

(** ** C87: triangulations of a cell *)
(** specification: corner positions of a triangle, None for an index out of range *)
Definition at_index (W : list q3) (i : Z) : option q3 := if i <? 0 then None else nth_error W (Z.to_nat i).
Definition corners (W : list q3) (t : c3) : option tri3 :=
  let '(a, b, c) := t in match at_index W a, at_index W b, at_index W c with Some x, Some y, Some z => Some (x, y, z) | _, _, _ => None end.
(** a triangulated face refers to its own vertices if it has some, to those of the mesh otherwise *)
Definition face_vertices (base : list q3) (f : cut_face) : list q3 := match cf_triV f with Some v => v | None => base end.
Definition face_triangles (f : cut_face) : list c3 := match cf_tri f with Some t => t | None => [] end.
Definition in_range (W : list q3) (t : c3) : Prop := corners W t <> None.
(** the triangles of the side (f, b) of a cell, turned around for b = false *)
Definition side_triangles (base : list q3) (fs : Z -> cut_face) (x : Z * bool) : list (option tri3) :=
  map (fun t => option_map (fun p => if snd x then p else flip_tri p) (corners (face_vertices base (fs (fst x))) t)) (face_triangles (fs (fst x))).
Lemma at_index_app_l A B i : at_index A i <> None -> at_index (A ++ B) i = at_index A i.
Proof. unfold at_index. destruct (i <? 0); auto. intros H. apply nth_error_app1. apply nth_error_Some. auto. Qed.
Lemma at_index_app_r A B i : 0 <= i -> at_index (A ++ B) (i + Z.of_nat (length A)) = at_index B i.
Proof. intros H. unfold at_index. rewrite !(proj2 (Z.ltb_ge _ _)) by lia. rewrite nth_error_app2 by lia. f_equal. lia. Qed.
Lemma corners_mono A B t : in_range A t -> corners (A ++ B) t = corners A t.
Proof.
  destruct t as [[a b] c]. unfold in_range, corners. destruct (at_index A a) eqn:Ea; [|congruence]. destruct (at_index A b) eqn:Eb; [|congruence]. destruct (at_index A c) eqn:Ec; [|congruence].
  intros _. rewrite !at_index_app_l by congruence. rewrite Ea, Eb, Ec. auto.
Qed.
Lemma in_range_nonneg W a b c : in_range W (a, b, c) -> 0 <= a /\ 0 <= b /\ 0 <= c.
Proof. unfold in_range, corners, at_index. destruct (Z.ltb_spec a 0); [congruence|]. destruct (Z.ltb_spec b 0); [destruct (nth_error W (Z.to_nat a)); congruence|]. destruct (Z.ltb_spec c 0); [destruct (nth_error W (Z.to_nat a)), (nth_error W (Z.to_nat b)); congruence|]. auto. Qed.
Lemma corners_shift A B t : in_range B t -> corners (A ++ B) (shift_tri (Z.of_nat (length A)) t) = corners B t.
Proof. destruct t as [[a b] c]. intros H. apply in_range_nonneg in H as (? & ? & ?). unfold shift_tri, corners. rewrite !at_index_app_r by auto. auto. Qed.
Lemma corners_swap W t : corners W (swap01 t) = option_map flip_tri (corners W t).
Proof. destruct t as [[a b] c]. unfold swap01, corners. destruct (at_index W a), (at_index W b), (at_index W c); reflexivity. Qed.
Lemma corners_orient W b F : map (corners W) (orient b F) = map (fun t => option_map (fun p => if b : bool then p else flip_tri p) (corners W t)) F.
Proof. destruct b; cbn [orient]; [|rewrite map_map]; apply map_ext; intros t; [destruct (corners W t); auto|apply corners_swap]. Qed.
Definition tri_ok (base : list q3) (fs : Z -> cut_face) (c : list (Z * bool)) : Prop :=
  forall f b, In (f, b) c -> forall t, In t (face_triangles (fs f)) -> in_range (face_vertices base (fs f)) t.
(** triangulated_with_additional_vertices(faces, n) with n the number of mesh vertices: in the concatenation of the mesh's vertices and the additional ones, the
    triangles returned are those of the cell's faces, in order, with the orientation the cell has them *)
Theorem c87_additional_vertices fs c base V T : tri_ok base fs c -> triangulated_with_additional_vertices fs c (Z.of_nat (length base)) = (V, T) ->
  map (corners (base ++ V)) T = flat_map (side_triangles base fs) c /\ V = flat_map (fun x => match cf_tri (fs (fst x)), cf_triV (fs (fst x)) with Some _, Some v => v | _, _ => [] end) c.
Proof.
  unfold triangulated_with_additional_vertices. intros OK E.
  set (step := fun '((V, T), o) '(f, b) => match cf_tri (fs f) with
     | Some t => match cf_triV (fs f) with
                 | Some v => ((V ++ v, T ++ orient b (map (shift_tri o) t)), o + Z.of_nat (length v))
                 | None => ((V, T ++ orient b t), o) end
     | None => ((V, T), o) end) in E.
  assert (H : forall l V0 T0, (forall x, In x l -> In x c) ->
     let r := fold_left step l ((V0, T0), Z.of_nat (length base) + Z.of_nat (length V0)) in
     exists V1 T1, r = ((V0 ++ V1, T0 ++ T1), Z.of_nat (length base) + Z.of_nat (length (V0 ++ V1))) /\
       map (corners (base ++ V0 ++ V1)) T1 = flat_map (side_triangles base fs) l /\
       V1 = flat_map (fun x => match cf_tri (fs (fst x)), cf_triV (fs (fst x)) with Some _, Some v => v | _, _ => [] end) l).
  { induction l as [|[f b] l IH]; intros V0 T0 IN; cbn [fold_left flat_map].
    - exists [], []. rewrite !app_nil_r. auto.
    - assert (OKf : forall t, In t (face_triangles (fs f)) -> in_range (face_vertices base (fs f)) t) by (apply (OK f b); apply IN; cbn; auto).
      unfold step at 2. unfold side_triangles at 1. unfold face_triangles, face_vertices in *. cbn [fst snd]. destruct (cf_tri (fs f)) as [t|].
      + destruct (cf_triV (fs f)) as [v|].
        * replace (Z.of_nat (length base) + Z.of_nat (length V0) + Z.of_nat (length v)) with (Z.of_nat (length base) + Z.of_nat (length (V0 ++ v))) by (rewrite app_length; lia).
          destruct (IH (V0 ++ v) (T0 ++ orient b (map (shift_tri (Z.of_nat (length base) + Z.of_nat (length V0))) t)) ltac:(intros; apply IN; cbn; auto)) as (V1 & T1 & -> & M & EV).
          exists (v ++ V1), (orient b (map (shift_tri (Z.of_nat (length base) + Z.of_nat (length V0))) t) ++ T1). rewrite (app_assoc V0), (app_assoc T0). split; [reflexivity|]. rewrite <- EV. split; auto. rewrite map_app. f_equal; [|rewrite <- M; reflexivity].
          rewrite corners_orient, map_map. apply map_ext_in. intros x Ix. f_equal.
          replace (Z.of_nat (length base) + Z.of_nat (length V0)) with (Z.of_nat (length (base ++ V0))) by (rewrite app_length; lia). rewrite <- (app_assoc V0), (app_assoc base).
          rewrite corners_shift; [apply corners_mono; auto|]. unfold in_range. rewrite corners_mono by auto. apply OKf. auto.
        * destruct (IH V0 (T0 ++ orient b t) ltac:(intros; apply IN; cbn; auto)) as (V1 & T1 & -> & M & EV). exists V1, (orient b t ++ T1). rewrite (app_assoc T0). split; [reflexivity|]. split; auto.
          rewrite map_app. f_equal; auto. rewrite corners_orient. apply map_ext_in. intros x Ix. f_equal. apply corners_mono. auto.
      + destruct (IH V0 T0 ltac:(intros; apply IN; cbn; auto)) as (V1 & T1 & -> & M & EV). exists V1, T1. auto. }
  specialize (H c [] [] (fun _ h => h)). cbn [length Z.of_nat app] in H. rewrite Z.add_0_r in H. fold step in E. destruct H as (V1 & T1 & ER & M & EV). 
  change (fst (fold_left step c ([], [], Z.of_nat (length base))) = (V, T)) in E. rewrite ER in E. cbn [fst] in E. apply pair_equal_spec in E as [<- <-]. auto.
Qed.
(** triangulated(): the same without additional vertices *)
Theorem c87_triangulated fs c base : tri_ok base fs c -> (forall f b, In (f, b) c -> cf_triV (fs f) = None) ->
  map (corners base) (cell_triangulated fs c) = flat_map (side_triangles base fs) c.
Proof.
  intros _ NV. unfold cell_triangulated. rewrite flat_map_concat_map, concat_map, map_map, <- flat_map_concat_map. rewrite !flat_map_concat_map. f_equal. apply map_ext_in. intros [f b] I. specialize (NV f b I).
  unfold side_triangles, face_triangles, face_vertices. cbn [fst snd]. rewrite NV. destruct (cf_tri (fs f)); auto. apply corners_orient.
Qed.
(** triangulated_cell(i, use_base, use_flap) on a cell whose faces all have cached triangulations *)
Definition mesh_face (m : mesh3) (f : Z) : cut_face := nth (Z.to_nat f) (m_faces m) (ex_face [] (MeshFace 0)).
Definition cached (m : mesh3) (c : list (Z * bool)) : Prop := forall f b, In (f, b) c -> exists F, 0 <= f /\ nth_error (m_faces m) (Z.to_nat f) = Some F /\ cf_tri F <> None.
Definition selected (m : mesh3) (use_base use_flap : bool) (x : Z * bool) : bool := if is_flap m (fst x) then use_flap else use_base.
Lemma part_value m ub uf c : cached m c -> sequence (map (cell_part m ub uf) c) =
  Some (map (fun x => if selected m ub uf x then (match cf_triV (mesh_face m (fst x)) with Some v => v | None => [] end, orient (snd x) (face_triangles (mesh_face m (fst x)))) else ([], [])) c).
Proof.
  induction c as [|[f b] c IH]; intros H; cbn [map sequence]; auto. rewrite IH by (intros g s I; apply (H g s); cbn; auto). destruct (H f b (or_introl eq_refl)) as (F & P & E & N).
  unfold cell_part, selected, mesh_face, face_triangles. cbn [fst snd]. rewrite (proj2 (Z.ltb_ge f 0)) by auto. rewrite E, (nth_error_nth _ _ _ E). destruct (cf_tri F) as [t|]; [|congruence]. destruct (is_flap m f), ub, uf; reflexivity.
Qed.
Lemma concat_select (A B : Type) (p : A -> bool) (h : A -> list B) l : concat (map (fun x => if p x then h x else []) l) = flat_map h (filter p l).
Proof. induction l as [|x l IH]; cbn; auto. destruct (p x); cbn; rewrite IH; auto. Qed.
(** the faces it takes: folded ones for use_flap, the others for use_base; each triangle as in the face, turned around for a negative side *)
Theorem c87_selection m ub uf c V T : cached m c -> triangulated_cell m c ub uf = Some (V, T) ->
  T = flat_map (fun x => orient (snd x) (face_triangles (mesh_face m (fst x)))) (filter (selected m ub uf) c).
Proof.
  intros H. unfold triangulated_cell. rewrite (part_value ub uf H). cbn [option_map]. intros E. apply Some_inj in E. apply pair_equal_spec in E as [_ <-]. rewrite map_map. rewrite <- concat_select. f_equal. apply map_ext. intros x. destruct (selected m ub uf x); auto.
Qed.
(** base and flap triangles together are all the triangles *)
Theorem c87_base_and_flap m c Vb Tb Vf Tf V T : cached m c -> triangulated_cell m c true false = Some (Vb, Tb) -> triangulated_cell m c false true = Some (Vf, Tf) -> triangulated_cell m c true true = Some (V, T) ->
  Permutation T (Tb ++ Tf).
Proof.
  intros H Eb Ef E. rewrite (c87_selection true false H Eb), (c87_selection false true H Ef), (c87_selection true true H E). clear. induction c as [|x c IH]; cbn [filter flat_map]; auto.
  unfold selected in *. destruct (is_flap m (fst x)); cbn [flat_map].
  - eapply perm_trans; [apply Permutation_app_head; exact IH|]. rewrite !app_assoc. apply Permutation_app_tail. apply Permutation_app_comm.
  - rewrite <- app_assoc. apply Permutation_app_head. exact IH.
Qed.
Theorem c87_cell_partial m c V T : cached m c -> tri_ok (vertices3 m) (mesh_face m) c -> (forall f b, In (f, b) c -> cf_triV (mesh_face m f) = None) ->
  triangulated_cell m c true true = Some (V, T) -> V = [] /\ map (corners (vertices3 m ++ V)) T = flat_map (side_triangles (vertices3 m) (mesh_face m)) c.
Proof.
  intros H OK NV E. assert (EV : V = []).
  { unfold triangulated_cell in E. rewrite (part_value true true H) in E. cbn [option_map] in E. apply Some_inj in E. apply pair_equal_spec in E as [<- _]. rewrite map_map. clear - NV.
    induction c as [|[f b] c IH]; auto. cbn [map concat fst snd]. rewrite IH by (intros g s I; apply (NV g s); cbn; auto). rewrite (NV f b) by (cbn; auto). destruct (selected m true true (f, b)); auto. }
  split; auto. rewrite (c87_selection true true H E). subst V. rewrite app_nil_r. assert (S : filter (selected m true true) c = c) by (clear; induction c as [|x c IH]; cbn; auto; unfold selected at 1; destruct (is_flap m (fst x)); rewrite IH; auto).
  rewrite S. clear - NV. induction c as [|[f b] c IH]; auto. cbn [flat_map fst snd]. rewrite map_app. f_equal; [|apply IH; intros g s I; apply (NV g s); cbn; auto].
  unfold side_triangles, face_triangles, face_vertices. cbn [fst snd]. rewrite (NV f b) by (cbn; auto). apply corners_orient.
Qed.
(** REFUTED for faces with vertices of their own (triangulate_faces(true) adds such): compact_triangulated_cell looks the triangles up in the mesh's vertices
    followed by the additional ones, but the indices were not shifted *)
Definition own_mesh : mesh3 :=
  let own f := mkCutFace (cf_mask f) (cf_loops f) (cf_id f) (cf_N f) None (Some [(0, 1, 2)]) (Some [(Z2Qc 10, 0, 0); (Z2Qc 12, 0, 0); (Z2Qc 10, 1, 0)])%Qc in
  mkMesh (m_origin ex_mesh) (m_dx ex_mesh) (m_vshape ex_mesh) (m_verts ex_mesh) [] (fun _ => true) [] [] (map own (m_faces ex_mesh)) (m_cells ex_mesh) [] [] (m_cubes ex_mesh) [] [].
Theorem c87_cell_refuted : exists m c V T, cached m c /\ tri_ok (vertices3 m) (mesh_face m) c /\ triangulated_cell m c true true = Some (V, T) /\
  map (corners (vertices3 m ++ V)) T <> flat_map (side_triangles (vertices3 m) (mesh_face m)) c.
Proof.
  exists own_mesh, [(0, true)], [(Z2Qc 10, 0, 0); (Z2Qc 12, 0, 0); (Z2Qc 10, 1, 0)]%Qc, [(0, 1, 2)]. split; [|split; [|split]].
  - intros f b [E|[]]. apply pair_equal_spec in E as [<- <-]. eexists. split; [lia|]. split; [reflexivity|discriminate].
  - intros f b [E|[]] t I. apply pair_equal_spec in E as [<- <-]. cbn in I. destruct I as [<-|[]]. unfold in_range. cbn. discriminate.
  - reflexivity.
  - intros E. apply (f_equal (map (option_map (fun t : tri3 => this (q3_at (snd (fst t)) 0))))) in E. revert E. vm_compute. discriminate.
Qed.
Example c87_example : tri_ok (vertices3 own_mesh) (mesh_face own_mesh) [(0, true); (1, false)] /\ cached own_mesh [(0, true); (1, false)] /\
  snd (triangulated_with_additional_vertices (mesh_face own_mesh) [(0, true); (1, false)] (Z.of_nat (length (vertices3 own_mesh)))) = [(13, 14, 15); (17, 16, 18)].
Proof.
  split; [|split; [|reflexivity]].
  - intros f b [E|[E|[]]] t I; apply pair_equal_spec in E as [<- <-]; cbn in I; destruct I as [<-|[]]; unfold in_range; cbn; discriminate.
  - intros f b [E|[E|[]]]; apply pair_equal_spec in E as [<- <-]; (eexists; split; [lia|]; split; [reflexivity|discriminate]).
Qed.

(** ** C88: CutCell::get_mesh and CutCell::centroid *)
(** get_mesh: every triangle of the cell's faces, in order ... *)
Theorem c88_get_mesh_partial fs c : (forall f b, In (f, b) c -> b = true) -> get_mesh fs c = cell_triangulated fs c.
Proof. intros H. unfold get_mesh, cell_triangulated. rewrite !flat_map_concat_map. f_equal. apply map_ext_in. intros [f b] I. rewrite (H f b I). reflexivity. Qed.
Definition unordered (t : c3) : list Z := let '(a, b, c) := t in set_of_list Z.compare [a; b; c].
Theorem c88_get_mesh_unoriented fs c : map unordered (get_mesh fs c) = map unordered (cell_triangulated fs c).
Proof.
  unfold get_mesh, cell_triangulated. rewrite !flat_map_concat_map, !concat_map, !map_map. f_equal. apply map_ext. intros [f b]. destruct (cf_tri (fs f)) as [t|]; auto.
  destruct b; cbn [orient]; auto. rewrite map_map. apply map_ext. intros [[x y] z]. cbn [swap01 unordered]. apply (ssorted_ext Zcompare_total); try apply (set_of_list_sorted Zcompare_total).
  intros w. rewrite !(set_of_list_In Zcompare_total). cbn. tauto.
Qed.
(** ... but with the orientation of the face, not that of the cell's side.  REFUTED: the mesh of a cell need not be oriented consistently *)
Theorem c88_get_mesh_refuted : exists fs c, get_mesh fs c <> cell_triangulated fs c.
Proof. exists (mesh_face own_mesh), [(0, false)]. vm_compute. discriminate. Qed.
Lemma centroid_fold V faces c : forall v mo, fold_left (fun acc '(f, b) =>
     match acc, (match nth_error faces (Z.to_nat f) with Some ls => match brep_volume V ls, brep_centroid V ls with Some x, Some y => Some (x, y) | _, _ => None end | None => None end) with
     | Some (v, mo), Some (x, y) => let s := (if b : bool then 1 else - (1))%Qc in Some ((v + s * x)%Qc, vadd mo (vscale s y))
     | _, _ => None end) (map (fun '(f, b) => (f, negb b)) c) (Some ((- v)%Qc, vneg mo)) =
   option_map (fun '(v, mo) => ((- v)%Qc, vneg mo)) (fold_left (fun acc '(f, b) =>
     match acc, (match nth_error faces (Z.to_nat f) with Some ls => match brep_volume V ls, brep_centroid V ls with Some x, Some y => Some (x, y) | _, _ => None end | None => None end) with
     | Some (v, mo), Some (x, y) => let s := (if b : bool then 1 else - (1))%Qc in Some ((v + s * x)%Qc, vadd mo (vscale s y))
     | _, _ => None end) c (Some (v, mo))).
Proof.
  assert (NN : forall l : list (Z * bool), fold_left (fun acc '(f, b) =>
     match acc, (match nth_error faces (Z.to_nat f) with Some ls => match brep_volume V ls, brep_centroid V ls with Some x, Some y => Some (x, y) | _, _ => None end | None => None end) with
     | Some (v, mo), Some (x, y) => let s := (if b : bool then 1 else - (1))%Qc in Some ((v + s * x)%Qc, vadd mo (vscale s y))
     | _, _ => None end) l (None : option (Qc * q3)) = None) by (induction l as [|[? ?] l IH]; cbn; auto).
  induction c as [|[f b] c IH]; intros v mo; cbn [map fold_left]; auto.
  destruct (nth_error faces (Z.to_nat f)) as [ls|]; [|rewrite !NN; auto]. destruct (brep_volume V ls) as [x|]; [|rewrite !NN; auto]. destruct (brep_centroid V ls) as [y|]; [|rewrite !NN; auto].
  cbv zeta. rewrite <- IH. f_equal. f_equal. f_equal; [destruct b; cbn [negb]; ring|]. destruct b; cbn [negb]; vec; (f_equal; [f_equal|]); ring.
Qed.
(** turning all sides around does not change CutCell::centroid *)
Theorem c88_centroid_flip V faces c : cutcell_centroid V faces (map (fun '(f, b) => (f, negb b)) c) = cutcell_centroid V faces c.
Proof.
  unfold cutcell_centroid. assert (E0 : Some (0%Qc, vzero) = Some ((- (0))%Qc, vneg vzero)) by (assert (ZZ : (- (0))%Qc = 0%Qc) by ring; unfold vneg, vzero; rewrite ZZ; reflexivity). rewrite E0 at 1. rewrite centroid_fold. clear E0.
  destruct (fold_left _ c _) as [[v mo]|]; cbn [option_map]; auto. assert (Q : qeqb (- v) 0 = qeqb v 0).
  { destruct (qeqb v 0) eqn:E; [apply qeqb_eq in E; subst; apply qeqb_eq; ring|]. destruct (qeqb (- v) 0) eqn:E'; auto. apply qeqb_eq in E'. assert (v = 0%Qc) by (replace v with (- (- v))%Qc by ring; rewrite E'; ring). subst. rewrite (proj2 (qeqb_eq 0 0)) in E by auto. discriminate. }
  rewrite Q. destruct (qeqb v 0) eqn:E; auto. assert (NZ : v <> 0%Qc) by (intros ->; rewrite (proj2 (qeqb_eq 0 0)) in E by auto; discriminate). f_equal.
  assert (NZ' : (- v)%Qc <> 0%Qc) by (intros H; apply NZ; replace v with (- (- v))%Qc by ring; rewrite H; ring). vec. f_equal; [f_equal|]; field; auto.
Qed.
(** REFUTED: it is not a centroid.  For the box with lower corner o and sides x, y, z it is 6/(xyz) times the centre of the box *)
Theorem c88_centroid_box o x y z : (x * y * z <> 0)%Qc -> cutcell_centroid (corner o (x, y, z)) box_faces box_cell = Some (vscale (Z2Qc 6 / (x * y * z))%Qc (vadd o (vscale (/ Z2Qc 2)%Qc (x, y, z)))).
Proof.
  intros NZ. destruct o as [[a b] c]. unfold cutcell_centroid, box_cell, box_faces.
  cbv [fold_left map Z.odd Z.to_nat Pos.to_nat Pos.iter_op Nat.add nth_error Z.ltb Z.compare brep_volume loop_volume oadd fan tet0 brep_centroid concat app sequence option_map corner Z.testbit Pos.testbit Pos.pred_N Pos.pred_double mean length vsum].
  cbn [Z.of_nat Pos.of_succ_nat Pos.succ]. cbv [vscale vadd vzero dot cross].
  assert (K2 : Z2Qc 2 = (1 + 1)%Qc) by (apply Qc_is_canon; reflexivity). assert (N2 : (1 + 1 <> 0)%Qc) by (rewrite <- K2; discriminate). unfold q6. rewrite K2, K4, K6.
  match goal with |- (if qeqb ?v 0 then _ else _) = _ => assert (EV : v = (x * y * z)%Qc) end.
  { field. exact N6. }
  rewrite EV. destruct (qeqb (x * y * z) 0) eqn:E; [apply qeqb_eq in E; contradiction|]. f_equal.
  assert (Nx : x <> 0%Qc) by (intros ->; apply NZ; ring). assert (Ny : y <> 0%Qc) by (intros ->; apply NZ; ring). assert (Nz : z <> 0%Qc) by (intros ->; apply NZ; ring).
  f_equal; [f_equal|]; field; repeat split; auto; first [exact N4|exact N2|discriminate].
Qed.
Theorem c88_centroid_refuted : exists V faces c p, cutcell_centroid V faces c = Some p /\ cut_cell_volumes V faces [c] = Some [1%Qc] /\ (forall f i, In f faces -> In i (concat f) -> 0 <= q3_at (V i) 0 <= 1)%Qc /\ (1 < q3_at p 0)%Qc.
Proof.
  exists (corner vzero (1, 1, 1)%Qc), box_faces, box_cell, (vscale (Z2Qc 6 / (1 * 1 * 1))%Qc (vadd vzero (vscale (/ Z2Qc 2)%Qc (1, 1, 1)%Qc))). split; [apply c88_centroid_box; discriminate|].
  split; [rewrite c41_box; f_equal; f_equal; ring|]. split; [|vm_compute; reflexivity].
  intros f i Hf Hi. unfold box_faces in Hf. cbn [In] in Hf. repeat (destruct Hf as [<-|Hf]; [cbn [concat app In] in Hi; repeat (destruct Hi as [<-|Hi]; [split; vm_compute; discriminate|]); destruct Hi|]). destruct Hf.
Qed.
