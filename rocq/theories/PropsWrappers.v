(** C46: the GUI's wrapper of the deforming constructor (construct_imgui.cpp:77-98), for all inputs. *)
From Verif Require Import Base Num CoordMask Vertex Deform PropsDeform.
Set Implicit Arguments.
Local Open Scope Z_scope.

Lemma ctor_baked V F g n t q : qltb q 0 = true -> d_baked (ctor V F g n t) = mkIn g (map (convert g (Some q)) V) F n.
Proof.
  intros Hq. unfold ctor. cbn [d_baked]. unfold gen_update_vertices. cbn [in_grid in_F in_level in_mV]. rewrite skipn_all2 by (rewrite map_length; lia). rewrite app_nil_r. f_equal. apply map_ext. intros p.
  unfold convert, mythresh. rewrite Hq. reflexivity.
Qed.
(** update_mesh_and_bbox() then bake(): the new triangles and grid are baked, but the vertices are those converted with the old grid.
    REFUTED in general: that the new box is used for the vertices. *)
Theorem c46_imgui_mesh_refuted V0 F0 g0 n0 t0 V F g q : length V = length V0 -> qltb q 0 = true ->
  d_baked (run (ctor V0 F0 g0 n0 t0) (imgui_update_mesh_and_bbox V F g (Some q) ++ [Bake])) = mkIn g (map (convert g0 (Some q)) V) F n0.
Proof.
  intros LV Hq. unfold run, imgui_update_mesh_and_bbox. cbn [app fold_left step ctor upd_v upd_t set_dirty d_dirty d_in d_baked in_grid in_F in_level in_mV gen_update_vertices]. f_equal.
  assert (E : skipn (length V) (map (convert g0 (Some (Q2Qc (-1 # 1)))) V0 ++ skipn (length V0) (map (fun _ : pt => vertex_of_coord []) V0)) = []).
  { apply skipn_all2. rewrite app_length, map_length, skipn_length, map_length. lia. }
  rewrite E, app_nil_r. reflexivity.
Qed.
(** the emitted mesh is that of a fresh constructor exactly when converting with the old and the new grid gives the same vertices *)
Theorem c46_imgui_mesh_when V0 F0 g0 n0 t0 t1 V F g q : length V = length V0 -> qltb q 0 = true ->
  (d_baked (run (ctor V0 F0 g0 n0 t0) (imgui_update_mesh_and_bbox V F g (Some q) ++ [Bake])) = d_baked (ctor V F g n0 t1) <->
   forall p, In p V -> convert g0 (Some q) p = convert g (Some q) p).
Proof.
  intros LV Hq. rewrite c46_imgui_mesh_refuted by auto.
  rewrite (ctor_baked V F g n0 t1 q Hq). split.
  - intros H p Hp. apply (f_equal in_mV) in H. cbn [in_mV] in H. destruct (In_nth_error _ _ Hp) as [k K]. apply (f_equal (fun l => nth_error l k)) in H. rewrite !nth_error_map, K in H. cbn [option_map] in H. assert (I : forall A (a b : A), Some a = Some b -> a = b) by (intros; congruence). apply I in H. exact H.
  - intros H. f_equal. apply map_ext_in. exact H.
Qed.
(** calling the wrapper twice before bake() gives what a fresh constructor on the new inputs gives *)
Theorem c46_imgui_twice : forall (M : Type) (gen : inputs -> M) V0 F0 g0 n0 t0 t1 V F g q, length V = length V0 -> qltb q 0 = true ->
  let u := imgui_update_mesh_and_bbox V F g (Some q) in
  emit gen (run (ctor V0 F0 g0 n0 t0) (u ++ u ++ [Bake])) = emit gen (ctor V F g n0 t1).
Proof.
  intros M gen V0 F0 g0 n0 t0 t1 V F g q LV Hq u. subst u. unfold run, imgui_update_mesh_and_bbox.
  cbn [app fold_left step ctor upd_v upd_t set_dirty d_dirty d_in d_baked d_origV in_grid in_F in_level in_mV gen_update_vertices]. unfold emit. cbn [d_baked d_in d_origV in_grid in_F]. unfold gen_update_vertices. cbn [d_baked d_in d_origV in_grid in_F in_level in_mV].
  repeat rewrite (skipn_all2 (n := length V)) by (rewrite ?app_length, ?skipn_length, ?app_length, ?skipn_length, ?app_length, ?skipn_length, ?map_length; lia).
  rewrite (ctor_baked V F g n0 t1 q Hq), !app_nil_r. reflexivity.
Qed.
Example c46_imgui_case : length [q2pt] = length [q2pt] /\ qltb (Q2Qc (-1 # 1)) 0 = true /\ ~ (forall p, In p [q2pt] -> convert grid1 (Some (Q2Qc (-1 # 1))) p = convert grid2 (Some (Q2Qc (-1 # 1))) p).
Proof.
  split; [reflexivity|]. split; [vm_compute; reflexivity|]. intros H. specialize (H q2pt (or_introl eq_refl)). vm_compute in H. discriminate.
Qed.
