(** C85: the whole list region_centroids() returns. *)
From Verif Require Import Base Num CoordMask Vertex Grid SmallestEdge AdaptiveGrid Mesh Sparse Mesh2 PropsMesh2 Interp Boundary3 Volume VolumeProofs PropsVolume Queries3 PropsQueries3 PropsQueries4.
Local Open Scope Z_scope.
(** region_centroids() answers whenever orig_face_regions() does, with one point per region; and the point of every region r >= 1 whose input triangles bound a
    solid larger than the threshold is 4/3 of that solid's centre of mass.  Missing: that it is the centre of mass (refuted), region 0 (see c85_outer_empty_partial). *)
Theorem c85_all_region_centroids_partial m O : orig_face_regions m = Some O -> exists C, region_centroids m = Some C /\ length C = length O /\
  forall r s d, (0 < r < length O)%nat -> bounds (orig_tri m) (nth r O ([], [])) s -> (eps8 < qabs (Z2Qc 6 * solid_volume s))%Qc ->
    q3_at (nth r C vzero) d = (Z2Qc 4 / Z2Qc 3 * solid_centre s d)%Qc.
Proof.
  intros E. unfold region_centroids. rewrite E. cbn [option_map]. eexists. split; [reflexivity|]. split; [rewrite map_length, List.combine_length, List.seq_length; lia|].
  intros r s d R B V. assert (N : nth_error (combine (seq 0 (length O)) O) r = Some (r, nth r O ([], []))).
  { assert (L : (r < length (combine (seq 0 (length O)) O))%nat) by (rewrite List.combine_length, List.seq_length; lia).
    destruct (List.nth_error (combine (seq 0 (length O)) O) r) as [y|] eqn:Y; [|apply nth_error_None in Y; lia]. f_equal.
    apply (List.nth_error_nth _ _ (0%nat, ([], []))) in Y. rewrite <- Y. rewrite List.combine_nth by apply List.seq_length. rewrite List.seq_nth by lia. reflexivity. }
  match goal with |- q3_at (nth r (map ?g ?l) vzero) d = _ => assert (M : nth_error (map g l) r = Some (region_centroid m (orig_tri m) r (nth r O ([], [])))) by (rewrite List.nth_error_map, N; reflexivity) end.
  apply (List.nth_error_nth _ _ vzero) in M. rewrite M.
  apply c85_region_centroid_partial; auto; lia.
Qed.
Theorem c85_region_centroids_total m : region_centroids m = None <-> orig_face_regions m = None.
Proof. unfold region_centroids. destruct (orig_face_regions m); cbn; split; intros H; try discriminate; auto. Qed.
Example c85_all_example : exists C, region_centroids ex_mesh = Some C /\ length C = 1%nat.
Proof. destruct (c85_all_region_centroids_partial ex_mesh [([0], [])]) as (C & E & L & _); [vm_compute; reflexivity|exists C; split; [exact E|exact L] ]. Qed.
