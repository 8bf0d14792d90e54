(** C138: the monolithic file against the others. *)
From Verif Require Import Base Num CoordMask CoordMaskProofs Vertex VertexProofs Grid SmallestEdge AdaptiveGrid AdaptiveSpec AdaptiveProofs AdaptiveFaces AdaptiveFactory AdaptiveFactoryProofs PropsAdaptive PropsAdaptive2 Mesh Sparse Mesh2 ExteriorGrid PropsExterior PropsMesh2 Boundary3 PropsBoundary3 Interp Volume Queries3 PropsQueries3 Triangulate PropsTriang ExportObj PropsExport.
Local Open Scope Z_scope.

(** REFUTED that the per-cell files and the monolithic file differ: with valid cells each is a copy of the whole-mesh file *)
Theorem c138_whole_mesh_refuted X m : (forall ix, valid_cells m ix -> write_obj X m ix = write_obj_all X m) /\
  (forall i f, In (i, f) (write_obj_separate X m) -> f = write_obj_all X m) /\ (0 <= cell_size m -> Z.of_nat (length (write_obj_separate X m)) = cell_size m).
Proof.
  assert (A : valid_cells m (all_cells m)).
  { intros i I. unfold all_cells in I. apply zseq_in in I. unfold cell_size in I. lia. }
  assert (W : forall ix, valid_cells m ix -> write_obj X m ix = write_obj_all X m) by (intros ix V; apply c138_selection_refuted; auto).
  split; [exact W|]. split.
  - intros i f I. unfold write_obj_separate in I. apply in_map_iff in I as (j & E & I). apply pair_equal_spec in E as [_ <-]. apply W. intros k [<-|[]]. apply A. exact I.
  - intros NN. unfold write_obj_separate, all_cells. rewrite map_length, zseq_len. lia.
Qed.
Example c138_whole_case : valid_cells sample4 [0] /\ write_obj no_ext sample4 [0] = write_obj_all no_ext sample4 /\ exists f, write_obj_all no_ext sample4 = Some f.
Proof.
  assert (V : valid_cells sample4 [0]) by (intros i [<-|[]]; vm_compute; intuition congruence). split; [exact V|]. split; [apply (proj1 (c138_whole_mesh_refuted no_ext sample4)); exact V|].
  assert (N : write_obj_all no_ext sample4 <> None) by (vm_compute; discriminate). destruct (write_obj_all no_ext sample4) as [f|]; [exists f; auto|contradiction].
Qed.
