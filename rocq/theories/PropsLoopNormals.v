(** C127: the normal of a face with several loops (generator3.cpp:504-510). *)
From Verif Require Import Base Num CoordMask CoordMaskSpec CoordMaskProofs Vertex VertexSpec VertexProofs PropsVertex Grid SmallestEdge AdaptiveGrid Volume Queries3 Mesh Hem PropsHem Gen3 PropsGen3 GenChecks PropsGenChecks.
Local Open Scope Z_scope.

(** the area vector of the face: that of its loops together *)
Definition face_area_vector (V : Z -> q3) (Fs : list (list Z)) : q3 := vsum (map (area_vector V) Fs).
(** REFUTED that it is the area vector: three times it if every loop is a triangle, twice it if every loop is a quadrilateral *)
Theorem c127_triangle_loops_refuted V Fs : (forall F, In F Fs -> length F = 3%nat) -> area_normals V Fs = vscale (1 + 1 + 1)%Qc (face_area_vector V Fs).
Proof.
  intros H. unfold area_normals, face_area_vector. rewrite <- vsum_scale. f_equal. apply map_ext_in. intros F I. specialize (H F I).
  destruct F as [|a [|b [|c [|? ?]]]]; try discriminate. apply c127_triangle_refuted.
Qed.
Theorem c127_quad_loops_refuted V Fs : (forall F, In F Fs -> length F = 4%nat) -> area_normals V Fs = vscale (1 + 1)%Qc (face_area_vector V Fs).
Proof.
  intros H. unfold area_normals, face_area_vector. rewrite <- vsum_scale. f_equal. apply map_ext_in. intros F I. specialize (H F I).
  destruct F as [|a [|b [|c [|d [|? ?]]]]]; try discriminate. apply c127_quad_refuted.
Qed.
(** the order of the loops does not matter and no loop is lost *)
Theorem c127_loops_add V Fs Gs : area_normals V (Fs ++ Gs) = vadd (area_normals V Fs) (area_normals V Gs).
Proof. unfold area_normals. rewrite map_app. apply vsum_app. Qed.
(** REFUTED that it at least points along the area vector: a triangle with a quadrilateral hole has no area, but its result is not zero; and with a triangle in
    one plane and a square in another (a folded face) the direction is wrong *)
Definition mix_V (i : Z) : q3 :=
  (if i =? 0 then (0, 0, 0) else if i =? 1 then (Z2Qc 2, 0, 0) else if i =? 2 then (0, 1, 0) else if i =? 3 then (0, 1, 0) else if i =? 4 then (1, 1, 0) else if i =? 5 then (1, 0, 0) else if i =? 6 then (1, 0, 1) else (0, 0, 1))%Qc.
Theorem c127_mixed_loops_refuted :
  (exists V Fs, face_area_vector V Fs = (0, 0, 0)%Qc /\ area_normals V Fs <> (0, 0, 0)%Qc) /\
  (exists V Fs, face_area_vector V Fs <> (0, 0, 0)%Qc /\ forall k, area_normals V Fs <> vscale k (face_area_vector V Fs)).
Proof.
  assert (K : forall a b : Qc, this a = this b -> a = b) by (intros a b E; apply Qc_is_canon; rewrite E; reflexivity).
  split.
  - exists mix_V, [[0; 1; 2]; [0; 3; 4; 5]]. split; [repeat (apply q3_eq || apply K); vm_compute; reflexivity|]. intros E. apply (f_equal (fun p : q3 => this (snd p))) in E. vm_compute in E. discriminate.
  - exists mix_V, [[0; 1; 2]; [0; 5; 6; 7]]. set (N := area_normals _ _). set (A := face_area_vector _ _).
    assert (EN : N = (0, Z2Qc (-2), Z2Qc 3)%Qc) by (subst N; apply q3_eq; apply K; vm_compute; reflexivity).
    assert (EA : A = (0, Z2Qc (-1), 1)%Qc) by (subst A; apply q3_eq; apply K; vm_compute; reflexivity).
    rewrite EN, EA. split; [intros E; apply (f_equal (fun p : q3 => this (snd p))) in E; vm_compute in E; discriminate|]. intros k E. cbn [vscale] in E.
    assert (E1 : Z2Qc (-2) = (k * Z2Qc (-1))%Qc) by congruence. assert (E2 : Z2Qc 3 = (k * 1)%Qc) by congruence. rewrite Qcmult_1_r in E2. subst k. apply (f_equal this) in E1. vm_compute in E1. discriminate.
Qed.
