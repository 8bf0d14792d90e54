(** C134: the 3D cut-cell mesh as a whole: what generate returns satisfies the hypotheses under which the boundary operator, point location and region queries were
    studied (C73, C82, C84), and which cells are on the two sides of a face. *)
From Coq Require Import Relations.
From Verif Require Import Base Num SmallestEdge CoordMask CoordMaskProofs Vertex VertexSpec VertexProofs Grid DisjointSet CellCollapser CellCollapserSpec CellCollapserProofs PropsCells
  AdaptiveGrid AdaptiveSpec AdaptiveProofs AdaptiveFactory PropsAdaptive PropsAdaptive2 Regions Mesh Sparse Mesh2 ExteriorGrid PropsMesh2 Volume PropsTriang Hem Gen3 PropsGen3 BakeCells PropsBake Queries3 PropsQueries3 Boundary3 PropsBoundary3 Hodge3 Gen3Whole.
Set Implicit Arguments.
Local Open Scope Z_scope.

(** * Specification *)
(** what compute_faces leaves: faces in a map with non-negative ids and no external boundary, with loops of proper vertices; the other members name faces *)
Record stage_ok (base : mesh3) (fs : list (Z * cut_face)) (mesh : list (Z * bary_face)) (axial : list (list Z)) : Prop := {
  so_map : ssorted Z.compare (map fst fs);
  so_face : forall f c, In (f, c) fs -> 0 <= f /\ cf_ext c = None /\ cf_loops c <> [] /\ forall l, In l (cf_loops c) -> l <> [] /\ forall i, In i l -> v_wf 3 (AV3 base i) /\ normalised (AV3 base i);
  so_mesh : NoDup (map fst mesh) /\ forall k, In k (map fst mesh) -> In k (map fst fs);
  so_axial : forall s k, In s axial -> In k s -> In k (map fst fs) }.
(** face k of the mesh was given under the id f *)
Definition id_of (fs : list (Z * cut_face)) (k f : Z) : Prop := 0 <= k /\ nth_error (map fst fs) (Z.to_nat k) = Some f.
(** the loops as the collapser gets them *)
Definition loops_of (fs : list (Z * cut_face)) : list (Z * list loop) := map (fun '(i, f) => (i, cf_loops f)) fs.
(** the face has no cell of the grid recorded behind it and does not lie in a wall of the domain *)
Definition inside_face (m : mesh3) (fc : cut_face) : Prop :=
  cf_ext fc = None /\ forall d v, only_bound (cf_mask fc) d v -> v <> 0 /\ nth_error (list3 (cshape m)) d <> Some v.
Definition uncut3 (m : mesh3) (p : c3) : Prop := m_active m p = true.

Lemma shape_list3 s : shape_list s = list3 s.
Proof. destruct s as [[? ?] ?]; auto. Qed.
Lemma combine_nth (A B : Type) (l : list A) (l' : list B) : forall n, nth_error (combine l l') n = match nth_error l n, nth_error l' n with Some a, Some b => Some (a, b) | _, _ => None end.
Proof.
  revert l'. induction l as [|a l IH]; intros [|b l'] [|n]; cbn; auto. - destruct (nth_error l n); auto.
Qed.
Lemma zrange_nth a n k : (k < n)%nat -> nth_error (zrange a n) k = Some (a + Z.of_nat k).
Proof. intros H. unfold zrange. rewrite nth_error_map. assert (E : nth_error (seq 0 n) k = Some k); [|rewrite E; auto]. rewrite <- (Nat.add_0_l k) at 2. revert H. generalize 0%nat as o. revert k. induction n; intros k o H; [lia|]. destruct k; cbn; [f_equal; lia|]. rewrite IHn by lia. f_equal. lia. Qed.
Lemma sequence_some (A : Type) (l : list A) : sequence (map Some l) = Some l.
Proof. induction l as [|a l IH]; cbn; auto. rewrite IH. auto. Qed.

Section W.
  Variables (lnk1 lnk2 : ds -> Z -> Z -> bool) (ord : edge -> list Z -> list Z) (level : option Z) (base : mesh3)
    (fs : list (Z * cut_face)) (mesh : list (Z * bary_face)) (axial : list (list Z)).
  Hypothesis SO : stage_ok base fs mesh axial.
  Let s := cshape base.
  Let gfs := map (fun '(i, f) => (i, gface_of f)) fs.
  Lemma gfs_keys : map fst gfs = map fst fs.
  Proof. unfold gfs. rewrite map_map. apply map_ext. intros []; auto. Qed.
  Lemma gfs_raw : raw_faces gfs = loops_of fs.
  Proof. unfold raw_faces, gfs, loops_of. rewrite map_map. apply map_ext. intros []; auto. Qed.
  Lemma gfs_ok : PropsBake.faces_ok gfs.
  Proof.
    split; [rewrite gfs_keys; apply (so_map SO)|]. intros f g I. unfold gfs in I. apply in_map_iff in I as ([i c] & E & I). apply pair_equal_spec in E as [<- <-]. destruct (so_face SO _ _ I) as (A & B & _). auto.
  Qed.
  Lemma bake_ex : exists b, bake3 lnk1 lnk2 ord s (act3 base) level (AV3 base) gfs = Some b.
  Proof.
    apply c128_defined. intros f g I. unfold gfs in I. apply in_map_iff in I as ([i c] & E & I). apply pair_equal_spec in E as [<- <-]. destruct (so_face SO _ _ I) as (_ & _ & A & B). auto.
  Qed.
  Section Baked.
    Variable b : baked.
    Hypothesis BK : bake3 lnk1 lnk2 ord s (act3 base) level (AV3 base) gfs = Some b.
    Let g := after_bake b fs mesh axial.
    Lemma bk_keys : map fst (bk_faces b) = map fst fs.
    Proof. rewrite (proj1 (c128_external _ _ _ _ _ _ _ gfs_ok BK)). apply gfs_keys. Qed.
    Lemma bk_len : length (bk_faces b) = length fs.
    Proof. rewrite <- (map_length fst (bk_faces b)), bk_keys, map_length. auto. Qed.
    Lemma g_faces_keys : keys (Gen3.g_faces g) = map fst fs.
    Proof.
      unfold g, after_bake. cbn [Gen3.g_faces]. unfold keys. rewrite map_map. assert (L := bk_len). revert L. generalize (bk_faces b) as l. clear. induction fs as [|[i f] t IH]; intros [|[j h] l] L; cbn in *; try discriminate; auto. f_equal. apply IH. lia.
    Qed.
    Lemma g_faces_nth n : nth_error (Gen3.g_faces g) n = match nth_error fs n, nth_error (bk_faces b) n with Some (i, f), Some (_, h) => Some (i, set_ext (gf_ext h) f) | _, _ => None end.
    Proof.
      unfold g, after_bake. cbn [Gen3.g_faces]. rewrite nth_error_map, combine_nth. destruct (nth_error fs n) as [[i f]|]; auto. destruct (nth_error (bk_faces b) n) as [[j h]|]; auto.
    Qed.
    Lemma bk_nth n i f : nth_error fs n = Some (i, f) -> exists h, nth_error (bk_faces b) n = Some (i, h) /\ gf_loops h = cf_loops f /\ gf_mask h = cf_mask f /\ gf_mesh h = is_mesh_id f.
    Proof.
      intros N. assert (N2 : nth_error (map fst (bk_faces b)) n = Some i) by (rewrite bk_keys, nth_error_map, N; auto). rewrite nth_error_map in N2. destruct (nth_error (bk_faces b) n) as [[i' h]|] eqn:E; [|discriminate]. cbn in N2. apply Some_inj in N2. subst i'.
      exists h. split; auto. assert (I := nth_error_In _ _ E). destruct (proj2 (c128_external _ _ _ _ _ _ _ gfs_ok BK) i h I) as ((g0 & J & A1 & A2 & A3) & _). unfold gfs in J. apply in_map_iff in J as ([i' f'] & X & J). apply pair_equal_spec in X as [-> <-].
      assert (f' = f); [|subst; auto]. apply nth_error_In in N. assert (S := so_map SO). apply (map_find_Some Zcompare_total) in J; [|exact S]. apply (map_find_Some Zcompare_total) in N; [|exact S]. congruence.
    Qed.
    Lemma cells_sorted c : In c (bk_cells b) -> ssorted Z.compare (keys c).
    Proof.
      intros I. destruct (c128_cells _ _ _ _ _ _ _ gfs_ok BK) as (_ & _ & _ & C). apply C in I as [I _]. unfold collapse in I. cbn [cl_bnd] in I. apply in_map_iff in I as (x & <- & _). apply boundary_sorted.
    Qed.
    Lemma regions_len : length (bk_regions b) = length (bk_cells b).
    Proof. destruct (rin_regions _ _ _ _ _ _ _ _ BK) as [R _]. rewrite R. unfold cell_regions. rewrite map_length, zrange_length. auto. Qed.
    Lemma g_cells_nth n : nth_error (Gen3.g_cells g) n = match nth_error (bk_cells b) n, nth_error (bk_regions b) n with Some c, Some r => Some (mkGC c (Z.of_nat n) r) | _, _ => None end.
    Proof.
      unfold g, after_bake. cbn [Gen3.g_cells]. rewrite nth_error_map, !combine_nth. destruct (nth_error (bk_cells b) n) as [c|] eqn:E.
      - rewrite zrange_nth by (apply nth_error_Some; congruence). destruct (nth_error (bk_regions b) n); auto.
      - destruct (nth_error (zrange _ _) n); auto.
    Qed.
    Lemma g_wf : gen3_wf g.
    Proof.
      split; [rewrite g_faces_keys; apply (so_map SO)|]. unfold g at 1 3 4. cbn [after_bake g_mesh g_axial]. rewrite g_faces_keys. split; [apply (so_mesh SO)|]. split; [apply (so_mesh SO)|]. split; [apply (so_axial SO)|].
      intros c I. apply In_nth_error in I as [n N]. rewrite g_cells_nth in N. destruct (nth_error (bk_cells b) n) as [fc|] eqn:E; [|discriminate]. destruct (nth_error (bk_regions b) n); [|discriminate]. apply Some_inj in N. subst c. cbn [gc_faces].
      split; [apply cells_sorted; eapply nth_error_In; eauto|]. intros k K. unfold keys in K. apply in_map_iff in K as ([k' sg] & X & K). cbn in X. subst k'. rewrite <- gfs_keys. apply (proj1 (c128_cells _ _ _ _ _ _ _ gfs_ok BK) n fc k sg E K).
    Qed.
    Lemma place_id id k : place g id k <-> id_of fs k id.
    Proof.
      unfold place, id_of. rewrite g_faces_keys. split; [intros (n & -> & H); rewrite Nat2Z.id; split; [lia|auto]|]. intros [H1 H2]. exists (Z.to_nat k). split; [lia|auto].
    Qed.
    Lemma g_faces_ok : PropsGen3.faces_ok (AV3 base) g.
    Proof.
      intros [i c] I. apply In_nth_error in I as [n N]. rewrite g_faces_nth in N. destruct (nth_error fs n) as [[i' f]|] eqn:E; [|discriminate]. destruct (nth_error (bk_faces b) n) as [[j h]|]; [|discriminate]. apply Some_inj, pair_equal_spec in N as [-> <-]. cbn [snd set_ext cf_loops].
      destruct (so_face SO _ _ (nth_error_In _ _ E)) as (_ & _ & A & B). split; auto. intros l j' L J. apply (B l L); auto.
    Qed.
    Lemma cells_ex : exists C, out_cells (AV3 base) g = Some C.
    Proof.
      unfold out_cells. rewrite (c103_faces g_wf). set (F := map (fun p : Z * cut_face => Some (snd p)) (Gen3.g_faces g)). assert (G : forall c, In c (Gen3.g_cells g) -> exists c', out_cell (AV3 base) g F c = Some c').
      { intros c I. destruct (proj2 (proj2 (proj2 (proj2 g_wf))) c I) as [S1 S2]. unfold out_cell. assert (SF : ssorted Z.compare (keys (Gen3.g_faces g))) by apply g_wf.
        destruct (@cell_faces_spec g SF (gc_faces c) [] [] S1 S2 ltac:(constructor) ltac:(intros ? ? ? ? [])) as (r & inds & E & _ & _ & HI). rewrite E.
        assert (PC : exists pc, possible_cells_cell (AV3 base) inds F = Some pc).
        { unfold possible_cells_cell. destruct inds as [|k0 inds0]; [eauto|]. set (get := fun k : Z => match nth_error F (Z.to_nat k) with Some (Some f) => gen_possible_cells2 (AV3 base) (cf_loops f) | _ => None end). assert (GT : forall k, In k (k0 :: inds0) -> exists S, get k = Some S).
          { intros k K. apply HI in K as [[]|(id & Iid & PL & _)]. destruct PL as (n & -> & N). unfold get. rewrite Nat2Z.id. unfold F. rewrite nth_error_map. unfold keys in N. rewrite nth_error_map in N. destruct (nth_error (Gen3.g_faces g) n) as [[i c']|] eqn:EN; [|discriminate]. cbn [option_map snd].
            assert (J := nth_error_In _ _ EN). destruct (g_faces_ok _ J) as [NE _]. cbn [snd] in NE. unfold gen_possible_cells2.
            rewrite g_faces_nth in EN. destruct (nth_error fs n) as [[i' f]|] eqn:E'; [|discriminate]. destruct (nth_error (bk_faces b) n) as [[j' h]|]; [|discriminate]. apply Some_inj, pair_equal_spec in EN as [-> <-]. cbn [set_ext cf_loops] in *.
            destruct (so_face SO _ _ (nth_error_In _ _ E')) as (_ & _ & _ & B). destruct (cf_loops f) as [|[|f0 l0] t]; [congruence|destruct (B []) as [X _]; [left; auto|congruence]|eauto]. }
          assert (SQ : forall l, (forall k, In k l -> exists S, get k = Some S) -> exists r', sequence (map get l) = Some r' /\ length r' = length l).
          { induction l as [|k l IH]; intros H; cbn [map sequence]; [exists []; auto|]. destruct (H k (or_introl eq_refl)) as [S ->]. destruct IH as (r' & -> & L); [intros; apply H; right; auto|]. cbn. eexists. split; [reflexivity|]. cbn. auto. }
          destruct (SQ (k0 :: inds0) GT) as (r' & -> & L). destruct r'; [discriminate|]. eauto. }
        destruct PC as [pc ->]. destruct pc as [|[|x [|y [|z [|]]]] [|]]; eauto. }
      revert G. generalize (Gen3.g_cells g) as l. induction l as [|c l IH]; intros G; cbn [map sequence]; [eauto|]. destruct (G c (or_introl eq_refl)) as [c' ->]. destruct IH as [C ->]; [intros; apply G; right; auto|]. cbn. eauto.
    Qed.
  End Baked.

  Lemma gen_ex : exists m, generate3 lnk1 lnk2 ord level base fs mesh axial = Some m.
  Proof.
    destruct bake_ex as [b BK]. unfold generate3. fold gfs s. rewrite BK. cbv zeta. destruct (cells_ex BK) as [C ->]. destruct (c103_bary (g_wf BK)) as (B & -> & _). destruct (c103_axial (g_wf BK)) as (A & -> & _). rewrite (c103_faces (g_wf BK)).
    rewrite <- (map_map snd Some), sequence_some. cbn. eauto.
  Qed.
  Lemma gen_inv m : generate3 lnk1 lnk2 ord level base fs mesh axial = Some m -> exists b C B, bake3 lnk1 lnk2 ord s (act3 base) level (AV3 base) gfs = Some b /\ out_cells (AV3 base) (after_bake b fs mesh axial) = Some C /\
    m = mkMesh (m_origin base) (m_dx base) (m_vshape base) (m_verts base) (m_cut_edges base) (m_active base) (m_origV base) (m_origF base) (map snd (Gen3.g_faces (after_bake b fs mesh axial))) C (bk_folded b) B (bk_cubes b) (bk_afaces b) (bk_cube_regions b).
  Proof.
    intros GE. destruct bake_ex as [b BK]. unfold generate3 in GE. fold gfs s in GE. rewrite BK in GE. cbv zeta in GE. destruct (cells_ex BK) as [C EC]. rewrite EC in GE. destruct (c103_bary (g_wf BK)) as (B & EB & _). rewrite EB in GE. destruct (c103_axial (g_wf BK)) as (A & EA & _). rewrite EA, (c103_faces (g_wf BK)) in GE.
    rewrite <- (map_map snd Some), sequence_some in GE. cbn [option_map] in GE. apply Some_inj in GE. exists b, C, B. auto.
  Qed.
End W.

(** * C134 *)
(** generate returns a mesh *)
Theorem c134_defined lnk1 lnk2 ord level base fs mesh axial : stage_ok base fs mesh axial -> exists m, generate3 lnk1 lnk2 ord level base fs mesh axial = Some m.
Proof. intros SO. apply gen_ex; auto. Qed.

Section M.
  Variables (lnk1 lnk2 : ds -> Z -> Z -> bool) (ord : edge -> list Z -> list Z) (level : option Z) (base : mesh3)
    (fs : list (Z * cut_face)) (mesh : list (Z * bary_face)) (axial : list (list Z)) (m : mesh3).
  Hypothesis SO : stage_ok base fs mesh axial.
  Hypothesis GE : generate3 lnk1 lnk2 ord level base fs mesh axial = Some m.
  Let s := cshape base.
  Let gfs := map (fun '(i, f) => (i, gface_of f)) fs.

  (** what m consists of, in terms of the baked data *)
  Lemma mesh_parts : exists b, bake3 lnk1 lnk2 ord s (act3 base) level (AV3 base) gfs = Some b /\
    (cshape m = s /\ m_active m = m_active base /\ m_folded m = bk_folded b /\ m_cubes m = bk_cubes b /\ m_afaces m = bk_afaces b /\ m_regions m = bk_cube_regions b /\ length (m_faces m) = length fs /\ length (m_cells m) = length (bk_cells b)) /\
    (forall n i f, nth_error fs n = Some (i, f) -> exists h, nth_error (bk_faces b) n = Some (i, h) /\ gf_loops h = cf_loops f /\ gf_mask h = cf_mask f /\ gf_mesh h = is_mesh_id f /\ nth_error (m_faces m) n = Some (set_ext (gf_ext h) f)) /\
    (forall n c, nth_error (m_cells m) n = Some c -> exists fc r, nth_error (bk_cells b) n = Some fc /\ nth_error (bk_regions b) n = Some r /\ ce_index c = Z.of_nat n /\ ce_region c = r /\ ssorted Z.compare (keys (ce_faces c)) /\
       forall k sg, In (k, sg) (ce_faces c) <-> exists id, In (id, sg) fc /\ id_of fs k id).
  Proof.
    destruct (gen_inv _ _ _ _ SO GE) as (b & C & B & BK & EC & EM). exists b. split; auto. set (g := after_bake b fs mesh axial) in *. assert (CC := c103_cells (AV3 base) (g_wf _ _ _ _ SO BK) EC). apply Forall2_nth in CC. fold g in CC. destruct CC as [CL CC].
    assert (LG : length (Gen3.g_cells g) = length (bk_cells b)). { unfold g, after_bake. cbn [Gen3.g_cells]. rewrite map_length, !combine_length, zrange_length, (regions_len _ _ _ _ _ _ BK). lia. }
    split; [|split].
    - rewrite EM. cbn [m_folded m_cubes m_afaces m_regions m_faces m_cells m_active]. split; [reflexivity|]. repeat (split; [reflexivity|]). split; [|congruence]. rewrite map_length, <- (map_length fst). change (map fst (Gen3.g_faces g)) with (keys (Gen3.g_faces g)). unfold g. rewrite (g_faces_keys _ _ _ _ SO BK), map_length. auto.
    - intros n i f N. destruct (bk_nth _ _ _ _ SO BK _ N) as (h & A1 & A2 & A3 & A4). exists h. repeat (split; [auto|]). rewrite EM. cbn [m_faces]. rewrite nth_error_map. unfold g. rewrite (g_faces_nth fs mesh axial b), N, A1. auto.
    - intros n c N. rewrite EM in N. cbn [m_cells] in N. destruct (nth_error (Gen3.g_cells g) n) as [gc|] eqn:G.
      + destruct (CC n gc c G N) as (E1 & E2 & E3 & E4). unfold g in G. rewrite (g_cells_nth fs mesh axial b) in G. destruct (nth_error (bk_cells b) n) as [fc|] eqn:F; [|discriminate]. destruct (nth_error (bk_regions b) n) as [r|] eqn:R; [|discriminate]. apply Some_inj in G. subst gc. cbn [gc_faces gc_index gc_region] in *.
        exists fc, r. do 5 (split; [auto|]). intros k sg. rewrite E4. split; intros (id & I & P); exists id; split; auto; apply (place_id _ _ _ _ SO BK); auto.
      + apply nth_error_None in G. apply nth_error_Some_lt in N. lia.
  Qed.
  Lemma id_of_inj k k' f : id_of fs k f -> id_of fs k' f -> k = k'.
  Proof.
    intros [A1 A2] [B1 B2]. assert (ND := ssorted_NoDup Zcompare_total (so_map SO)). rewrite NoDup_nth_error in ND. assert (Z.to_nat k = Z.to_nat k'); [|lia]. apply ND; [eapply nth_error_Some_lt; eauto|congruence].
  Qed.
  Lemma id_of_fun k f f' : id_of fs k f -> id_of fs k f' -> f = f'.
  Proof. intros [A1 A2] [B1 B2]. congruence. Qed.
  Lemma id_of_ex k fc : is_cut_face m k fc -> exists f c, id_of fs k f /\ nth_error fs (Z.to_nat k) = Some (f, c) /\ fc = set_ext (cf_ext fc) c.
  Proof.
    intros [K N]. destruct mesh_parts as (b & BK & (_ & _ & _ & _ & _ & _ & LF & _) & MF & _). destruct (nth_error fs (Z.to_nat k)) as [[f c]|] eqn:E.
    - exists f, c. split; [split; auto; rewrite nth_error_map, E; auto|]. split; auto. destruct (MF _ _ _ E) as (h & _ & _ & _ & _ & X). rewrite N in X. apply Some_inj in X. subst fc. auto.
    - apply nth_error_None in E. apply nth_error_Some_lt in N. lia.
  Qed.
  Lemma bounds_cell b : bake3 lnk1 lnk2 ord s (act3 base) level (AV3 base) gfs = Some b -> forall i k sg, bounds3 m i k sg <-> exists fc f, 0 <= i /\ nth_error (bk_cells b) (Z.to_nat i) = Some fc /\ In (f, sg) fc /\ id_of fs k f.
  Proof.
    intros BK i k sg. destruct mesh_parts as (b' & BK' & (_ & _ & _ & _ & _ & _ & _ & LC) & _ & MC). rewrite BK in BK'. apply Some_inj in BK'. subst b'. split.
    - intros (c & [I N] & J). destruct (MC _ _ N) as (fc & r & A & X1 & X2 & X3 & X4 & E). destruct (proj1 (E _ _) J) as (f & J2 & P). exists fc, f. auto.
    - intros (fc & f & I & N & J & P). destruct (nth_error (m_cells m) (Z.to_nat i)) as [c|] eqn:E; [|apply nth_error_None in E; apply nth_error_Some_lt in N; lia].
      exists c. split; [split; auto|]. destruct (MC _ _ E) as (fc' & r & A & _ & _ & _ & _ & X). rewrite N in A. apply Some_inj in A. subst fc'. apply X. eauto.
  Qed.
End M.

(** Faces: those given, in the order of their ids, changed only in the external boundary, which names an uncut cell of the grid or the outside (-2).
    Cells: numbered by position; each face once in a cell, only existing faces. *)
Theorem c134_faces lnk1 lnk2 ord level base fs mesh axial m : stage_ok base fs mesh axial -> generate3 lnk1 lnk2 ord level base fs mesh axial = Some m ->
  length (m_faces m) = length fs /\
  (forall n i f, nth_error fs n = Some (i, f) -> exists e, nth_error (m_faces m) n = Some (set_ext e f) /\ forall o sg, e = Some (o, sg) -> o = -2 \/ exists p, in_grid (cshape m) p /\ uncut3 m p /\ o = index3 (cshape m) p) /\
  (forall n c, nth_error (m_cells m) n = Some c -> ce_index c = Z.of_nat n /\ NoDup (map fst (ce_faces c)) /\ forall k sg, In (k, sg) (ce_faces c) -> exists fc, is_cut_face m k fc).
Proof.
  intros SO GE. destruct (mesh_parts _ _ _ _ SO GE) as (b & BK & (ES & EA & EF & EQ & EAF & ER & LF & LC) & MF & MC). split; auto. split.
  - intros n i f N. destruct (MF n i f N) as (h & A1 & A2 & A3 & A4 & A5). exists (gf_ext h). split; auto. intros o sg E. rewrite ES. destruct (proj2 (c128_external _ _ _ _ _ _ _ (gfs_ok SO) BK) i h (nth_error_In _ _ A1)) as (_ & X & _).
    destruct (X o sg E) as [->|(p & P1 & P2 & P3)]; auto. right. exists p. split; auto. split; auto. unfold uncut3. rewrite EA. destruct p as [[x y] z]. exact P2.
  - intros n c N. destruct (MC n c N) as (fc & r & A1 & A2 & A3 & A4 & A5 & A6). split; auto. split; [apply (ssorted_NoDup Zcompare_total A5)|]. intros k sg I. apply A6 in I as (id & _ & K1 & K2).
    rewrite nth_error_map in K2. destruct (nth_error fs (Z.to_nat k)) as [[i f]|] eqn:E; [|discriminate]. destruct (MF _ _ _ E) as (h & _ & _ & _ & _ & X). eexists. split; eauto.
Qed.

(** The hypotheses of C73 (and of the results about Laplacians built on it) hold. *)
Theorem c134_generated lnk1 lnk2 ord level base fs mesh axial m : stage_ok base fs mesh axial -> tiling_case (cshape base) (act3 base) level -> generate3 lnk1 lnk2 ord level base fs mesh axial = Some m ->
  exists cubes0, generated m cubes0 /\ AdaptiveSpec.tiles (cshape m) (uncut3 m) cubes0.
Proof.
  intros SO TC GE. destruct (mesh_parts _ _ _ _ SO GE) as (b & BK & (ES & EA & EF & EQ & EAF & ER & LF & LC) & MF & MC). destruct (c134_faces _ _ _ _ SO GE) as (F1 & F2 & F3). assert (GC := factory_good TC). destruct (b_cubes _ _ _ _ _ _ _ _ BK) as [EB EB2].
  exists (factory_cells (cshape base) (cut3 (act3 base)) level). assert (UN : forall p, uncut_at (act3 base) p <-> uncut3 m p) by (intros [[x y] z]; unfold uncut3; rewrite EA; reflexivity).
  assert (TI : AdaptiveSpec.tiles (cshape m) (uncut3 m) (factory_cells (cshape base) (cut3 (act3 base)) level)).
  { rewrite ES. destruct (gc_tiles GC) as [T1 T2]. split; [intros i q p I B; destruct (T1 i q p I B); split; auto; apply UN; auto|intros p IG U; apply T2; auto; apply UN; auto]. }
  split; auto. split.
  - intros i c N. destruct (F3 i c N) as (A & B & C). split; auto. split; auto. intros f sg I. destruct (C f sg I) as [fc [K1 K2]]. apply nth_error_Some_lt in K2. unfold num_cut_faces. lia.
  - rewrite ES. exact (proj1 TC).
  - rewrite ES. apply GC.
  - apply GC.
  - rewrite ES. apply GC.
  - rewrite EQ, EB. unfold num_cut_cells. rewrite LC. auto.
  - rewrite EAF, ES. exact EB2.
  - intros f o sg I E O. apply In_nth_error in I as [n N]. destruct (nth_error fs n) as [[i c]|] eqn:EN; [|apply nth_error_None in EN; apply nth_error_Some_lt in N; lia]. destruct (F2 _ _ _ EN) as (e & X & H). rewrite N in X. apply Some_inj in X. subst f. cbn [set_ext cf_ext] in E.
    destruct (H o sg E) as [->|(p & P1 & P2 & P3)]; [lia|]. destruct (proj2 TI p P1 P2) as ([j q] & [J1 J2] & _). exists p, j. split; auto. exists q. auto.
Qed.

(** ** The two sides of a face *)
Section Sides.
  Variables (lnk1 lnk2 : ds -> Z -> Z -> bool) (ord : edge -> list Z -> list Z) (level : option Z) (s : c3) (act : coord -> bool) (V : Z -> vertex) (gfs : list (Z * gface)) (b : baked).
  Hypothesis FO : PropsBake.faces_ok gfs.
  Hypothesis BK : bake3 lnk1 lnk2 ord s act level V gfs = Some b.
  Let col := collapse lnk1 ord true (raw_faces gfs).
  Lemma b_folded : bk_folded b = folded_faces (cl_hf col).
  Proof.
    unfold bake3 in BK. destruct (set_externals s act V gfs) as [gs|] eqn:E; [|discriminate]. cbn [option_map] in BK. apply Some_inj in BK. rewrite <- BK. unfold bake_cells. cbn [bk_folded]. unfold col. rewrite <- (raw_same _ _ _ _ E). reflexivity.
  Qed.
  Lemma raw_pos f : In f (map fst (raw_faces gfs)) -> 0 <= f.
  Proof. intros I. unfold raw_faces in I. rewrite map_map in I. rewrite (map_ext _ fst) in I by (intros []; auto). apply in_map_iff in I as ([i g] & <- & I). apply (proj2 FO _ _ I). Qed.
  (** the face keeps every cell it is in *)
  Definition holds_cells (f : Z) : Prop := (forall g, In (f, g) (bk_faces b) -> gf_ext g = None) /\ forall g d v, In (f, g) (bk_faces b) -> only_bound (gf_mask g) d v -> v <> 0 /\ nth_error (shape_list s) d <> Some v.
  Lemma held f c sg : holds_cells f -> In c (cl_bnd col) -> In (f, sg) c -> In c (bk_cells b).
  Proof. intros [H1 H2] I J. apply (proj2 (proj2 (proj2 (c128_cells _ _ _ _ _ _ _ FO BK)))). split; auto. split; exists f, sg; split; auto. Qed.
  Lemma find_In c f sg : In c (cl_bnd col) -> map_find Z.compare f c = Some sg <-> In (f, sg) c.
  Proof. intros I. apply (map_find_Some Zcompare_total). unfold col, collapse in I. cbn [cl_bnd] in I. apply in_map_iff in I as (x & <- & _). apply boundary_sorted. Qed.
  Lemma back c : In c (bk_cells b) -> In c (cl_bnd col).
  Proof. intros I. apply (proj2 (proj2 (proj2 (c128_cells _ _ _ _ _ _ _ FO BK)))) in I. apply I. Qed.
  Lemma two_sides f : kept (raw_faces gfs) f -> ~ In f (bk_folded b) -> holds_cells f ->
    exists i j ci cj, nth_error (bk_cells b) i = Some ci /\ nth_error (bk_cells b) j = Some cj /\ In (f, true) ci /\ In (f, false) cj /\
      forall l c sg, nth_error (bk_cells b) l = Some c -> In (f, sg) c -> l = if sg then i else j.
  Proof.
    intros K NF HC. rewrite b_folded in NF. destruct (@c20_unfolded_face_separates_two_cells lnk1 ord true (raw_faces gfs) f raw_pos K NF) as (p & q & PQ & (cp & N1 & M1) & (cq & N2 & M2) & _). fold col in N1, N2.
    assert (I1 := nth_error_In _ _ N1). assert (I2 := nth_error_In _ _ N2). apply (find_In _ _ _ I1) in M1. apply (find_In _ _ _ I2) in M2. destruct (In_nth_error _ _ (@held f cp true HC I1 M1)) as [i Ni], (In_nth_error _ _ (@held f cq false HC I2 M2)) as [j Nj]. exists i, j, cp, cq. repeat (split; [auto|]).
    intros l c sg Nl J. destruct (c128_cells _ _ _ _ _ _ _ FO BK) as (_ & U & _). destruct sg; [eapply (U l i _ _ f true true)|eapply (U l j _ _ f false false)]; eauto.
  Qed.
  Lemma one_cell f : In f (bk_folded b) -> holds_cells f ->
    exists i ci sg, nth_error (bk_cells b) i = Some ci /\ In (f, sg) ci /\ forall l c sg', nth_error (bk_cells b) l = Some c -> In (f, sg') c -> l = i /\ sg' = sg.
  Proof.
    intros FD HC. assert (FD' := FD). rewrite b_folded in FD. destruct (c20_every_side_in_one_cell lnk1 ord true (raw_faces gfs) raw_pos) as (cell & _ & C2 & _ & C4 & _ & C6 & _). fold col in C2, C4, C6.
    destruct (proj1 (C4 f) FD) as [K _]. destruct (C2 f true K) as [R _]. destruct (nth_error (cl_bnd col) (Z.to_nat (cell f true))) as [c|] eqn:E; [|apply nth_error_None in E; lia].
    destruct (proj2 (C6 f _ _ K FD E) ltac:(lia)) as [sg M]. assert (I := nth_error_In _ _ E). apply (find_In _ _ _ I) in M. destruct (In_nth_error _ _ (@held f c sg HC I M)) as [i Ni]. exists i, c, sg. do 2 (split; [auto|]).
    intros l c' sg' Nl J. destruct (c128_cells _ _ _ _ _ _ _ FO BK) as (_ & U & W & _). assert (X : l = i) by (eapply (U l i _ _ f sg' sg); eauto). split; auto. assert (E2 : Some c' = Some c) by (rewrite <- Nl, X; exact Ni). apply Some_inj in E2. subst c'. eapply W; eauto.
  Qed.
End Sides.

(** The sides of a face inside the domain, none of whose neighbours is an uncut cell: two different cells, one with each sign, or, for a folded face, one cell, once. *)
Theorem c134_two_cells lnk1 lnk2 ord level base fs mesh axial m k fc f : stage_ok base fs mesh axial -> plain_faces (loops_of fs) -> generate3 lnk1 lnk2 ord level base fs mesh axial = Some m ->
  is_cut_face m k fc -> inside_face m fc -> id_of fs k f ->
  (~ In f (m_folded m) -> exists i j, i <> j /\ bounds3 m i k true /\ bounds3 m j k false /\ forall l sg, bounds3 m l k sg -> l = if sg then i else j) /\
  (In f (m_folded m) -> exists i sg, bounds3 m i k sg /\ forall l sg', bounds3 m l k sg' -> l = i /\ sg' = sg).
Proof.
  intros SO PF GE HF [IN1 IN2] ID. destruct (mesh_parts _ _ _ _ SO GE) as (b & BK & (ES & EA & EF & EQ & EAF & ER & LF & LC) & MF & MC). assert (BC := bounds_cell _ _ _ _ SO GE BK). assert (FO := gfs_ok SO).
  assert (HC : holds_cells (cshape base) b f).
  { assert (G : forall g, In (f, g) (bk_faces b) -> gf_ext g = cf_ext fc /\ gf_mask g = cf_mask fc).
    { intros g I. destruct (id_of_ex _ _ _ _ SO GE HF) as (f' & c & ID' & N & EC). assert (f' = f) by (eapply id_of_fun; eauto). subst f'. destruct (MF _ _ _ N) as (h & A1 & A2 & A3 & A4 & A5). destruct HF as [_ HF]. rewrite HF in A5. apply Some_inj in A5.
      assert (g = h). { apply nth_error_In in A1. assert (S : ssorted Z.compare (map fst (bk_faces b))) by (rewrite (bk_keys _ _ _ _ SO BK); apply (so_map SO)). apply (map_find_Some Zcompare_total) in A1; [|exact S]. apply (map_find_Some Zcompare_total) in I; [|exact S]. congruence. }
      subst g fc. cbn [set_ext cf_ext cf_mask]. auto. }
    split; [intros g I; destruct (G g I); congruence|]. intros g d v I OB. destruct (G g I) as [_ E]. rewrite E in OB. rewrite shape_list3, <- ES. apply IN2. auto. }
  split; intros H; rewrite EF in H.
  - assert (K : kept (raw_faces (map (fun '(i, f) => (i, gface_of f)) fs)) f).
    { rewrite gfs_raw. apply (proj1 (proj2 (c21_plain_faces_keep_their_edges _ PF))). unfold loops_of. rewrite map_map. rewrite (map_ext _ fst) by (intros []; auto). destruct ID as [_ ID]. eapply nth_error_In; eauto. }
    destruct (two_sides _ _ _ _ _ _ FO BK K H HC) as (i & j & ci & cj & N1 & N2 & I1 & I2 & U). exists (Z.of_nat i), (Z.of_nat j). split; [|split; [|split]].
    + intros E. apply Nat2Z.inj in E. subst j. rewrite N1 in N2. apply Some_inj in N2. subst cj. assert (X := proj1 (proj2 (proj2 (c128_cells _ _ _ _ _ _ _ FO BK))) _ _ _ _ _ N1 I1 I2). discriminate.
    + apply BC. exists ci, f. rewrite Nat2Z.id. split; [lia|auto].
    + apply BC. exists cj, f. rewrite Nat2Z.id. split; [lia|auto].
    + intros l sg B. apply BC in B as (c & f' & L & N & J & ID'). assert (f' = f) by (eapply id_of_fun; eauto). subst f'. assert (X := U _ _ _ N J). destruct sg; lia.
  - destruct (one_cell _ _ _ _ _ _ FO BK H HC) as (i & ci & sg & N1 & I1 & U). exists (Z.of_nat i), sg. split; [apply BC; exists ci, f; rewrite Nat2Z.id; split; [lia|auto]|].
    intros l sg' B. apply BC in B as (c & f' & L & N & J & ID'). assert (f' = f) by (eapply id_of_fun; eauto). subst f'. destruct (U _ _ _ N J). split; [lia|auto].
Qed.

(** ** The constant function *)
(** the total of a face in one cell and with nothing recorded behind it *)
Lemma total_single m cubes0 f fc i sg : generated m cubes0 -> is_cut_face m f fc -> cf_ext fc = None -> bounds3 m i f sg -> (forall l sg', bounds3 m l f sg' -> l = i /\ sg' = sg) -> face_total m f fc = sign sg.
Proof.
  intros OK HF EX (ci & I1 & S1) U. unfold face_total. rewrite EX, <- (lsum_enum _ _ (m_cells m)). assert (E1 : In (i, ci) (enum (m_cells m))) by (apply enum_In; auto).
  rewrite (@lsum_single _ _ _ (i, ci)); auto using enum_NoDup.
  - destruct (PropsBoundary3.g_cells m cubes0 OK _ _ (proj2 I1)) as (_ & ND & _). rewrite (@lsum_single _ _ _ (f, sg)); auto; [rewrite Z.eqb_refl; ring|eapply NoDup_map_inv; eauto|].
    intros [f' s'] H' N. destruct (Z.eqb_spec f' f); auto. subst. destruct N. f_equal. eapply NoDup_fst_inj; eauto.
  - intros [k c] I N. apply lsum_0. intros [f' s'] H'. destruct (Z.eqb_spec f' f); auto. subst. exfalso. apply N. apply enum_In in I. destruct (U k s') as [-> _]; [exists c; split; auto|]. f_equal. destruct I, I1. congruence.
Qed.
(** every face lies in the domain's wall as recorded, or inside; and one cut cell lies before a face with an uncut cell behind it *)
Definition faces_placed (m : mesh3) : Prop :=
  (forall k fc, is_cut_face m k fc -> cf_ext fc = None -> inside_face m fc) /\
  (forall k fc o sg, is_cut_face m k fc -> cf_ext fc = Some (o, sg) -> 0 <= o -> exists i s, bounds3 m i k s /\ forall j s', bounds3 m j k s' -> j = i).
Lemma ext_sign lnk1 lnk2 ord level base fs mesh axial m k fc o sg i s : stage_ok base fs mesh axial -> generate3 lnk1 lnk2 ord level base fs mesh axial = Some m ->
  is_cut_face m k fc -> cf_ext fc = Some (o, sg) -> bounds3 m i k s -> (forall j s', bounds3 m j k s' -> j = i) -> sg = negb s.
Proof.
  intros SO GE HF EX B U. destruct (mesh_parts _ _ _ _ SO GE) as (b & BK & _ & MF & _). assert (BC := bounds_cell _ _ _ _ SO GE BK). assert (FO := gfs_ok SO).
  destruct (id_of_ex _ _ _ _ SO GE HF) as (f & c & ID & N & _). destruct (MF _ _ _ N) as (h & A1 & _ & _ & _ & A5). destruct HF as [_ HF]. rewrite HF in A5. apply Some_inj in A5. subst fc. cbn [set_ext cf_ext] in EX.
  apply BC in B as (ci & f' & L & Nc & I & ID'). assert (f' = f) by (eapply id_of_fun; eauto). subst f'. destruct (proj2 (c128_external _ _ _ _ _ _ _ FO BK) f h (nth_error_In _ _ A1)) as (_ & _ & X). eapply X; eauto.
  intros j fj s' Nj J. assert (Bj : bounds3 m (Z.of_nat j) k s') by (apply BC; exists fj, f; rewrite Nat2Z.id; split; [lia|auto]). apply U in Bj. lia.
Qed.
(** Without folded faces the Laplacian built on the boundary operator annihilates the constants, for every choice of weights. *)
Theorem c134_constants lnk1 lnk2 ord level base fs mesh axial m B h : stage_ok base fs mesh axial -> tiling_case (cshape base) (act3 base) level -> plain_faces (loops_of fs) ->
  generate3 lnk1 lnk2 ord level base fs mesh axial = Some m -> m_folded m = [] -> faces_placed m -> boundary3 m false = Some B -> forall r c, lap B h (fun _ => r) c = 0%Qc.
Proof.
  intros SO TC PF GE NF [P1 P2] HB. destruct (c134_generated _ _ _ SO TC GE) as (cubes0 & OK & _). destruct (c73_laplacian m cubes0 B h OK HB) as (_ & _ & L). apply L. intros k fc HF D. apply (c73_two_sided m cubes0 k fc OK HF).
  destruct (cf_ext fc) as [[o sg]|] eqn:EX.
  - right. destruct (id_of_ex _ _ _ _ SO GE HF) as (f & c & ID & N & EC). assert (O : 0 <= o).
    { destruct (c134_faces _ _ _ _ SO GE) as (_ & F & _). destruct (F _ _ _ N) as (e & X & Y). destruct HF as [_ HF]. rewrite HF in X. apply Some_inj in X. subst fc. cbn [set_ext cf_ext] in EX. subst e. destruct (Y _ _ eq_refl) as [->|(p & IG & _ & ->)]; [cbn in D; discriminate|].
      apply in3_grid in IG. destruct (cshape m) as [[sn sm] sk], p as [[x1 y1] z1]. apply ravel_range; auto. }
    destruct (P2 _ _ _ _ HF EX O) as (i & s & BI & U). exists i, s, o. split; auto. split; auto. split; auto. f_equal. f_equal. apply (@ext_sign lnk1 lnk2 ord level base fs mesh axial m k fc o sg i s SO GE HF EX BI U).
  - left. destruct (id_of_ex _ _ _ _ SO GE HF) as (f & c & ID & N & EC). destruct (c134_two_cells _ _ _ _ SO PF GE HF (P1 _ _ HF EX) ID) as [X _]. destruct X as (i & j & NE & B1 & B2 & U); [rewrite NF; auto|]. exists i, j, true. split; auto. split; auto. split; auto. split; [|congruence].
    intros l s' BL. apply U in BL. destruct s'; auto.
Qed.
(** A folded face inside the domain always breaks this: its row sums to 1 or -1, and the Laplacian (with positive weights) of the constant 1 is not zero. *)
Theorem c134_folded_row lnk1 lnk2 ord level base fs mesh axial m B k fc f : stage_ok base fs mesh axial -> tiling_case (cshape base) (act3 base) level -> plain_faces (loops_of fs) ->
  generate3 lnk1 lnk2 ord level base fs mesh axial = Some m -> is_cut_face m k fc -> inside_face m fc -> id_of fs k f -> In f (m_folded m) -> boundary3 m false = Some B ->
  (mulv B (fun _ => 1%Qc) k = 1%Qc \/ mulv B (fun _ => 1%Qc) k = (- (1))%Qc) /\
  forall h, (forall r, (0 < h r)%Qc) -> exists c, lap B h (fun _ => 1%Qc) c <> 0%Qc.
Proof.
  intros SO TC PF GE HF IF ID FD HB. destruct (c134_generated _ _ _ SO TC GE) as (cubes0 & OK & _). destruct (proj2 (c134_two_cells _ _ _ _ SO PF GE HF IF ID) FD) as (i & sg & BI & U).
  assert (R : mulv B (fun _ => 1%Qc) k = sign sg).
  { rewrite (proj1 (row_values m cubes0 B OK HB) k fc HF). assert (X : is_domain_face fc = false) by (unfold is_domain_face; rewrite (proj1 IF); auto). rewrite X. apply (@total_single m cubes0 k fc i sg OK HF (proj1 IF) BI U). }
  split; [rewrite R; destruct sg; [right|left]; reflexivity|]. intros h HP.
  destruct (c73_coefficients m cubes0 false OK) as (B' & HB' & RG & _). rewrite HB in HB'. apply Some_inj in HB'. subst B'.
  assert (RR : Forall (fun t => 0 <= t_row t < face_size m) B) by (apply Forall_forall; intros [[a b] v] I; apply (RG _ _ _ I)).
  assert (RC : Forall (fun t => 0 <= t_col t < cell_size m) B) by (apply Forall_forall; intros [[a b] v] I; apply (RG _ _ _ I)).
  assert (LF := lap_form h (fun _ => 1%Qc) (fun _ => 1%Qc) RR RC). assert (POS : (0 < form (face_size m) B h (fun _ => 1%Qc) (fun _ => 1%Qc))%Qc).
  { unfold form. assert (KR : In k (zseq (face_size m))). { apply zseq_in. destruct HF as [K1 K2]. apply nth_error_Some_lt in K2. unfold face_size, num_cut_faces. lia. }
    assert (SQ : forall q : Qc, (0 <= q * q)%Qc). { intros q. destruct (Qclt_le_dec q 0) as [L|L]; [assert (E' : (q * q = (- q) * (- q))%Qc) by ring; rewrite E'; assert (0 <= - q)%Qc by qc_lra|]; match goal with |- (0 <= ?a * ?b)%Qc => replace 0%Qc with (0 * b)%Qc by ring; apply Qcmult_le_compat_r; auto end. }
    assert (NN : forall r, (0 <= h r * mulv B (fun _ => 1%Qc) r * mulv B (fun _ => 1%Qc) r)%Qc).
    { intros r. specialize (SQ (mulv B (fun _ => 1%Qc) r)). specialize (HP r). generalize dependent (mulv B (fun _ => 1%Qc) r). intros q SQ. assert (E : (h r * q * q = h r * (q * q))%Qc) by ring. rewrite E. replace 0%Qc with (0 * (q * q))%Qc by ring. apply Qcmult_le_compat_r; auto. apply Qclt_le_weak. auto. }
    apply in_split in KR as (l1 & l2 & ->). rewrite lsum_app. cbn [lsum]. rewrite R. assert (N1 := lsum_nonneg (fun r => h r * mulv B (fun _ => 1) r * mulv B (fun _ => 1) r)%Qc l1 (fun r _ => NN r)). assert (N2 := lsum_nonneg (fun r => h r * mulv B (fun _ => 1) r * mulv B (fun _ => 1) r)%Qc l2 (fun r _ => NN r)).
    assert (HK := HP k). assert (E : (h k * sign sg * sign sg = h k)%Qc) by (destruct sg; unfold sign; ring). rewrite E. revert N1 N2 HK. generalize (lsum (fun r => h r * mulv B (fun _ => 1) r * mulv B (fun _ => 1) r)%Qc l1). generalize (lsum (fun r => h r * mulv B (fun _ => 1) r * mulv B (fun _ => 1) r)%Qc l2). intros. qc_lra. }
  destruct (existsb (fun c => negb (qeqb (lap B h (fun _ => 1%Qc) c) 0%Qc)) (zseq (cell_size m))) eqn:EX.
  - apply existsb_exists in EX as (c & _ & X). exists c. apply negb_true_iff in X. intros E. rewrite E in X. revert X. rewrite (proj2 (qeqb_eq 0%Qc 0%Qc) eq_refl). discriminate.
  - exfalso. assert (Z0 : lsum (fun c => (1 * lap B h (fun _ => 1) c)%Qc) (zseq (cell_size m)) = 0%Qc).
    { apply lsum_0. intros c I. assert (E : qeqb (lap B h (fun _ => 1%Qc) c) 0%Qc = true). { destruct (qeqb (lap B h (fun _ => 1%Qc) c) 0%Qc) eqn:E; auto. assert (T : existsb (fun c => negb (qeqb (lap B h (fun _ => 1%Qc) c) 0%Qc)) (zseq (cell_size m)) = true) by (apply existsb_exists; exists c; rewrite E; auto). congruence. }
      apply qeqb_eq in E. rewrite E. ring. }
    rewrite <- LF in POS. cbv beta in POS. rewrite Z0 in POS. revert POS. generalize 0%Qc. intros q H. apply (Qclt_not_le _ _ H). apply Qcle_refl.
Qed.

(** ** Point location and regions *)
(** exterior cell c contains the unit cell p *)
Definition cube_holds (m : mesh3) (c : Z) (p : c3) : Prop := exists q, In (c, q) (m_cubes m) /\ in_box q p.
(** Point location (C82) works as specified on every generated mesh; exterior cells are numbered after the cut cells, and cover the uncut cells. *)
Theorem c134_location lnk1 lnk2 ord level base fs mesh axial m : stage_ok base fs mesh axial -> tiling_case (cshape base) (act3 base) level -> generate3 lnk1 lnk2 ord level base fs mesh axial = Some m ->
  AdaptiveSpec.tiles (cshape m) (uncut3 m) (m_cubes m) /\ (forall c, num_cut_cells m <= c < cell_size m <-> exists q, In (c, q) (m_cubes m)) /\
  forall sa p, let k := get_cell_index3 sa m p in
  (k = -2 <-> ~ in_range (cshape m) 1 (to_local m p)) /\
  (forall c, num_cut_cells m <= c < cell_size m -> (k = c <-> in_range (cshape m) 1 (to_local m p) /\ exists q, In (c, q) (m_cubes m) /\ inside_cell q (to_local m p))) /\
  (forall i, 0 <= i < num_cut_cells m -> (k = i <-> in_range (cshape m) 1 (to_local m p) /\ ~ some_box_has m p /\ cut_cell_sees sa m p i /\ forall j, cut_cell_sees sa m p j -> i <= j)) /\
  (in_range (cshape m) 1 (to_local m p) -> (k = -1 <-> ~ some_box_has m p /\ forall i, ~ cut_cell_sees sa m p i)).
Proof.
  intros SO TC GE. destruct (mesh_parts _ _ _ _ SO GE) as (b & BK & (ES & EA & EF & EQ & EAF & ER & LF & LC) & _). assert (FO := gfs_ok SO). destruct (ren _ _ _ _ _ TC BK) as [W D]. destruct (c128_labelled _ _ _ _ FO TC BK) as ([T1 T2] & LK & _).
  assert (UN : forall p, uncut_at (act3 base) p <-> uncut3 m p) by (intros [[x y] z]; unfold uncut3; rewrite EA; reflexivity).
  assert (RG : forall c, num_cut_cells m <= c < cell_size m <-> exists q, In (c, q) (m_cubes m)).
  { intros c. assert (X : In c (map fst (bk_cubes b)) <-> exists q, In (c, q) (bk_cubes b)) by (rewrite in_map_iff; split; [intros ([c' q] & <- & I); eauto|intros [q I]; exists (c, q); auto]). rewrite EQ, <- X, LK, zrange_In. unfold num_cut_cells, cell_size, num_cut_cells. rewrite LC, EQ. lia. }
  split; [|split; auto].
  { rewrite ES, EQ. split; [intros i q p I B; destruct (T1 i q p I B); split; auto; apply UN; auto|intros p IG U; apply T2; auto; apply UN; auto]. }
  intros sa p. destruct (@c82_point_location sa m p) as (A1 & A2 & A3 & A4); [rewrite EQ, ES; auto|rewrite EQ; auto|intros i q I; apply (proj2 (RG i)); eauto|]. cbv zeta. split; auto. split; [|split; auto].
  - intros c Hc. apply A2. unfold is_exterior_cell. apply andb_true_iff. rewrite !Z.leb_le. unfold num_cut_cells in *. lia.
  - intros i Hi. apply A3. unfold Queries3.is_cut_cell. apply andb_true_iff. rewrite ?Z.leb_le, ?Z.ltb_lt. lia.
Qed.
(** the face is not part of the input surface *)
Definition not_surface (fc : cut_face) : Prop := forall t, cf_id fc <> MeshFace t.
(** neighbouring cells of the mesh with nothing of the input surface between them *)
Inductive neighbours3 (m : mesh3) : Z -> Z -> Prop :=
| n3_cut i j k fc s s' : bounds3 m i k s -> bounds3 m j k s' -> is_cut_face m k fc -> not_surface fc -> neighbours3 m i j
| n3_mixed i c k fc s p sg : bounds3 m i k s -> is_cut_face m k fc -> not_surface fc -> cf_ext fc = Some (index3 (cshape m) p, sg) -> in_grid (cshape m) p -> cube_holds m c p -> neighbours3 m i c
| n3_cubes c c' p d : (d < 3)%nat -> cube_holds m c p -> cube_holds m c' (add3 p d 1) -> neighbours3 m c c'.
Definition same_component3 (m : mesh3) : Z -> Z -> Prop := clos_refl_sym_trans Z (neighbours3 m).

Lemma crst_iff (R S : Z -> Z -> Prop) : (forall x y, R x y <-> S x y) -> forall x y, clos_refl_sym_trans Z R x y <-> clos_refl_sym_trans Z S x y.
Proof. intros E x y. split; intros H; induction H; [apply rst_step, E; auto|apply rst_refl|apply rst_sym; auto|eapply rst_trans; eauto|apply rst_step, E; auto|apply rst_refl|apply rst_sym; auto|eapply rst_trans; eauto]. Qed.
Section R.
  Variables (lnk1 lnk2 : ds -> Z -> Z -> bool) (ord : edge -> list Z -> list Z) (level : option Z) (base : mesh3)
    (fs : list (Z * cut_face)) (mesh : list (Z * bary_face)) (axial : list (list Z)) (m : mesh3) (b : baked).
  Hypothesis SO : stage_ok base fs mesh axial.
  Hypothesis GE : generate3 lnk1 lnk2 ord level base fs mesh axial = Some m.
  Hypothesis BK : bake3 lnk1 lnk2 ord (cshape base) (act3 base) level (AV3 base) (map (fun '(i, f) => (i, gface_of f)) fs) = Some b.
  Lemma has_bounds i f k : id_of fs k f -> cell_has b i f <-> exists s, bounds3 m i k s.
  Proof.
    intros ID. assert (BC := bounds_cell _ _ _ _ SO GE BK). unfold cell_has. split.
    - intros (c & s & A & B & C). exists s. apply BC. eauto 8.
    - intros [s B]. apply BC in B as (c & f' & A & B & C & ID'). assert (f' = f) by (eapply id_of_fun; eauto). subst. eauto.
  Qed.
  Lemma inner_not f k fc : id_of fs k f -> is_cut_face m k fc -> (exists g, inner_face b f g) <-> not_surface fc.
  Proof.
    intros ID HF. destruct (mesh_parts _ _ _ _ SO GE) as (b' & BK' & _ & MF & _). rewrite BK in BK'. apply Some_inj in BK'. subst b'. destruct (id_of_ex _ _ _ _ SO GE HF) as (f' & c & ID' & N & EC). assert (f' = f) by (eapply id_of_fun; eauto). subst f'.
    destruct (MF _ _ _ N) as (h & A1 & _ & _ & A4 & _). assert (I := nth_error_In _ _ A1). assert (S : ssorted Z.compare (map fst (bk_faces b))) by (rewrite (bk_keys _ _ _ _ SO BK); apply (so_map SO)).
    unfold not_surface. rewrite EC. cbn [set_ext cf_id]. unfold is_mesh_id in A4. split.
    - intros (g & J & M) t E. assert (g = h). { apply (map_find_Some Zcompare_total) in I; [|exact S]. apply (map_find_Some Zcompare_total) in J; [|exact S]. congruence. } subst g. rewrite E in A4. congruence.
    - intros H. exists h. split; auto. rewrite A4. destruct (cf_id c) as [t|]; auto. destruct (H t eq_refl).
  Qed.
  Lemma inner_ext f k fc g : id_of fs k f -> is_cut_face m k fc -> inner_face b f g -> gf_ext g = cf_ext fc.
  Proof.
    intros ID HF [J M]. destruct (mesh_parts _ _ _ _ SO GE) as (b' & BK' & _ & MF & _). rewrite BK in BK'. apply Some_inj in BK'. subst b'. destruct (id_of_ex _ _ _ _ SO GE HF) as (f' & c & ID' & N & EC). assert (f' = f) by (eapply id_of_fun; eauto). subst f'.
    destruct (MF _ _ _ N) as (h & A1 & _ & _ & A4 & A5). assert (I := nth_error_In _ _ A1). assert (S : ssorted Z.compare (map fst (bk_faces b))) by (rewrite (bk_keys _ _ _ _ SO BK); apply (so_map SO)).
    assert (g = h). { apply (map_find_Some Zcompare_total) in I; [|exact S]. apply (map_find_Some Zcompare_total) in J; [|exact S]. congruence. } subst g. destruct HF as [_ HF]. rewrite HF in A5. apply Some_inj in A5. subst fc. auto.
  Qed.
  Lemma id_ex f g : In (f, g) (bk_faces b) -> exists k fc, id_of fs k f /\ is_cut_face m k fc.
  Proof.
    intros I. assert (J : In f (map fst fs)) by (rewrite <- (bk_keys _ _ _ _ SO BK); apply (in_map fst) in I; auto). apply In_nth_error in J as [n N]. exists (Z.of_nat n). destruct (mesh_parts _ _ _ _ SO GE) as (b' & BK' & _ & MF & _).
    assert (N' := N). rewrite nth_error_map in N. destruct (nth_error fs n) as [[f' c]|] eqn:E; [|discriminate]. destruct (MF _ _ _ E) as (h & _ & _ & _ & _ & X). eexists. split; split; try lia; rewrite Nat2Z.id; eauto.
  Qed.
  Lemma same_neighbours x y : neighbours (cshape base) b x y <-> neighbours3 m x y.
  Proof.
    destruct (mesh_parts _ _ _ _ SO GE) as (b' & BK' & (ES & _ & _ & EQ & _) & _). rewrite BK in BK'. apply Some_inj in BK'. subst b'. split.
    - intros [i j f g A B C|i c f g p sg A B C D E|c c' p d Hd A B].
      + destruct (id_ex _ _ (proj1 C)) as (k & fc & ID & HF). apply (has_bounds _ ID) in A as [s A], B as [s' B]. eapply n3_cut; eauto. apply (inner_not ID HF). eauto.
      + destruct (id_ex _ _ (proj1 B)) as (k & fc & ID & HF). apply (has_bounds _ ID) in A as [s A]. eapply n3_mixed with (k := k) (fc := fc) (p := p) (sg := sg); eauto; [apply (inner_not ID HF); eauto|rewrite <- (inner_ext ID HF B), ES; auto|rewrite ES; auto|]. destruct E as (q & E1 & E2). exists q. rewrite EQ. auto.
      + destruct A as (q & A1 & A2), B as (q' & B1 & B2). eapply n3_cubes with (p := p) (d := d); auto; [exists q|exists q']; rewrite EQ; auto.
    - intros [i j k fc s s' A B HF C|i c k fc s p sg A HF B C D E|c c' p d Hd A B].
      + destruct (id_of_ex _ _ _ _ SO GE HF) as (f & c & ID & _). destruct (proj2 (inner_not ID HF) C) as [g C2]. apply nb_cut with (f := f) (g := g); auto; apply (has_bounds _ ID); eauto.
      + destruct (id_of_ex _ _ _ _ SO GE HF) as (f & c' & ID & _). destruct (proj2 (inner_not ID HF) B) as [g B2]. apply nb_mixed with (f := f) (g := g) (p := p) (sgn := sg); auto; [apply (has_bounds _ ID); eauto|rewrite (inner_ext ID HF B2), <- ES; auto|rewrite <- ES; auto|]. destruct E as (q & E1 & E2). exists q. rewrite <- EQ. auto.
      + destruct A as (q & A1 & A2), B as (q' & B1 & B2). eapply nb_cubes with (p := p) (d := d); auto; [exists q|exists q']; rewrite <- EQ; auto.
  Qed.
End R.

(** regions() of a generated mesh: defined, one label per cell; two cut cells have the same label exactly if they are connected without crossing the input surface; an exterior cell has
    the label of the cut cells connected to it, 0 if there are none, and a positive label only through a cut cell. *)
Theorem c134_regions lnk1 lnk2 ord level base fs mesh axial m : stage_ok base fs mesh axial -> tiling_case (cshape base) (act3 base) level -> generate3 lnk1 lnk2 ord level base fs mesh axial = Some m ->
  exists R, regions3 m = Some R /\ Z.of_nat (length R) = cell_size m /\ (forall k, In k R -> 0 <= k) /\
  let label i := nth (Z.to_nat i) R 0 in let n := num_cut_cells m in
  (forall i j, 0 <= i < n -> 0 <= j < n -> (label i = label j <-> same_component3 m i j)) /\
  (forall c, n <= c < cell_size m ->
     (forall i, 0 <= i < n -> same_component3 m i c -> label i = label c) /\
     ((forall i, 0 <= i < n -> ~ same_component3 m i c) -> label c = 0) /\
     (forall i, 0 <= i < n -> label i = label c -> 0 < label c -> same_component3 m i c)).
Proof.
  intros SO TC GE. destruct (mesh_parts _ _ _ _ SO GE) as (b & BK & (ES & EA & EF & EQ & EAF & ER & LF & LC) & _ & MC). assert (FO := gfs_ok SO). destruct (c128_labelled _ _ _ _ FO TC BK) as (_ & LK & L1 & L2 & L3 & L4).
  destruct (rin_regions _ _ _ _ _ _ _ _ BK) as [_ R2].
  assert (KR : map fst (m_regions m) = map fst (m_cubes m)). { rewrite ER, EQ, R2. unfold exterior_regions. rewrite map_map. cbn [rin ri_cubes]. apply map_ext. intros []; auto. }
  assert (KR' : map fst (m_regions m) = zrange (num_cut_cells m) (length (m_cubes m))) by (rewrite KR, EQ, LK; unfold num_cut_cells; rewrite LC; auto).
  assert (S : ssorted Z.compare (map fst (m_regions m))).
  { rewrite KR'. unfold zrange. generalize 0%nat as o. generalize (length (m_cubes m)) as k. induction k as [|k IH]; intros o; cbn [seq map]; [constructor|]. constructor; [|apply IH]. apply Forall_forall. intros x I. apply in_map_iff in I as (y & <- & I). apply in_seq in I. apply Z.compare_lt_iff. lia. }
  assert (D : regions3 m <> None). { apply c84_regions_defined. intros i r I. apply (in_map fst) in I. rewrite KR', zrange_In in I. cbn [fst] in I. unfold cell_size, num_cut_cells in *. lia. }
  destruct (regions3 m) as [R|] eqn:RR; [|congruence]. clear D. destruct (c84_regions m S RR) as [LR NR]. exists R. split; auto. split; auto.
  assert (CUT : forall i, 0 <= i < num_cut_cells m -> cell_label b i (nth (Z.to_nat i) R 0)).
  { intros i Hi. rewrite NR by (unfold cell_size; lia). assert (X : map_find Z.compare i (m_regions m) = None). { apply (map_find_None Zcompare_total); auto. unfold keys. rewrite KR', zrange_In. lia. } rewrite X.
    destruct (nth_error (m_cells m) (Z.to_nat i)) as [c|] eqn:E; [|apply nth_error_None in E; unfold num_cut_cells in Hi; lia]. destruct (MC _ _ E) as (fc & r & _ & B & _ & C & _). split; [lia|]. congruence. }
  assert (EXT : forall c, num_cut_cells m <= c < cell_size m -> cube_label b c (nth (Z.to_nat c) R 0)).
  { intros c Hc. rewrite NR by (unfold num_cut_cells in Hc; lia). assert (X : In c (map fst (m_regions m))) by (rewrite KR', zrange_In; unfold cell_size in Hc; lia). apply in_map_iff in X as ([c' k] & <- & I). cbn [fst] in *. unfold cube_label. rewrite <- ER. assert (Y := I). apply (map_find_Some Zcompare_total) in Y; [|exact S]. rewrite Y. auto. }
  assert (CO : forall x y, same_component (cshape base) b x y <-> same_component3 m x y) by (apply crst_iff; intros; apply (same_neighbours _ _ _ _ SO GE BK)).
  split; [|cbv zeta; split].
  - intros k I. apply In_nth_error in I as [n N]. assert (n < length R)%nat by (apply nth_error_Some; congruence). assert (E : nth (Z.to_nat (Z.of_nat n)) R 0 = k) by (rewrite Nat2Z.id; apply nth_error_nth; auto). rewrite <- E. destruct (Z_lt_le_dec (Z.of_nat n) (num_cut_cells m)) as [L|L].
    + destruct (L1 (Z.of_nat n)) as (k' & [A B] & C); [unfold num_cut_cells in L; lia|]. destruct (CUT (Z.of_nat n)) as [A' B']; [lia|]. rewrite B in B'. apply Some_inj in B'. lia.
    + apply (L4 (Z.of_nat n) _ _ (EXT (Z.of_nat n) ltac:(lia)) (EXT (Z.of_nat n) ltac:(lia))).
  - intros i j Hi Hj. rewrite <- CO. apply (c128_same_region _ _ _ _ FO TC BK (CUT i Hi) (CUT j Hj)).
  - intros c Hc. destruct (@c128_exterior_region lnk1 lnk2 ord _ _ level _ _ b c _ FO TC BK (EXT c Hc)) as (X & Y & Z'). split; [|split].
    + intros i Hi H. apply (X i _ (CUT i Hi)). apply CO. auto.
    + intros H. apply Y. intros i k L H'. assert (Hi := L2 _ _ L). rewrite <- LC in Hi. apply (H i Hi). apply CO. auto.
    + intros i Hi E P. apply CO. apply Z'; auto. rewrite <- E. apply CUT; auto.
Qed.

(** * Concrete cases *)
Definition vertexb (v : vertex) : bool := (length (v_coord v) =? 3)%nat && (length (v_quot v) =? 3)%nat && (length (v_clamped v) =? 3)%nat && forallb (fun q => qleb 0 q && qltb q 1)%Qc (v_quot v).
Lemma vertexb_ok v : vertexb v = true -> v_wf 3 v /\ normalised v.
Proof.
  unfold vertexb. rewrite !andb_true_iff, !Nat.eqb_eq. intros (((A & B) & C) & D). split; [repeat split; auto|]. apply Forall_forall. intros q I. rewrite forallb_forall in D. apply D in I. apply andb_true_iff in I as [I1 I2]. apply qleb_le in I1. apply qltb_lt in I2. auto.
Qed.
Fixpoint incb (l : list Z) : bool := match l with a :: (b :: _) as t => (a <? b) && incb t | _ => true end.
Lemma incb_ok l : incb l = true -> ssorted Z.compare l.
Proof.
  assert (G : forall a t, incb (a :: t) = true -> ssorted Z.compare (a :: t)).
  { intros a t. revert a. induction t as [|b t IH]; intros a H; [repeat constructor|]. cbn [incb] in H. apply andb_true_iff in H as [H1 H2]. apply Z.ltb_lt in H1. specialize (IH b H2). constructor; auto. constructor; [apply Z.compare_lt_iff; auto|]. inversion IH as [|x y F S]; subst. eapply Forall_impl; [|exact F]. intros z Hz. cbn beta in *. rewrite Z.compare_lt_iff in *. lia. }
  destruct l as [|a t]; [constructor|apply G].
Qed.
Definition faceb (base : mesh3) (x : Z * cut_face) : bool :=
  (0 <=? fst x) && match cf_ext (snd x) with None => true | _ => false end && match cf_loops (snd x) with [] => false | _ => true end &&
  forallb (fun l : list Z => match l with [] => false | _ => true end && forallb (fun i => vertexb (AV3 base i)) l) (cf_loops (snd x)).
Lemma stageb_ok base fs : incb (map fst fs) = true -> forallb (faceb base) fs = true -> stage_ok base fs [] [].
Proof.
  intros A B. split; [apply incb_ok; auto| |split; [constructor|intros ? []]|intros ? ? []]. intros f c I. rewrite forallb_forall in B. specialize (B _ I). unfold faceb in B. cbn [fst snd] in B. rewrite !andb_true_iff in B. destruct B as (((B1 & B2) & B3) & B4). apply Z.leb_le in B1. split; auto.
  split; [destruct (cf_ext c); [discriminate|auto]|]. split; [intros E; rewrite E in B3; discriminate|]. intros l L. rewrite forallb_forall in B4. specialize (B4 _ L). apply andb_true_iff in B4 as [C1 C2]. split; [destruct l; [discriminate|congruence]|]. intros i J. rewrite forallb_forall in C2. apply vertexb_ok. auto.
Qed.
Definition peqb (x y : edge) : bool := (fst x =? fst y) && (snd x =? snd y).
Definition memb (x : edge) l : bool := existsb (peqb x) l.
Lemma memb_In x l : memb x l = true <-> In x l.
Proof.
  unfold memb. rewrite existsb_exists. destruct x as [a b]. split; [intros ([c d] & I & E); unfold peqb in E; cbn in E; apply andb_true_iff in E as [E1 E2]; apply Z.eqb_eq in E1, E2; subst; auto|intros I; exists (a, b); split; auto; unfold peqb; cbn; rewrite !Z.eqb_refl; auto].
Qed.
Fixpoint nodupz (l : list Z) : bool := match l with [] => true | x :: t => negb (existsb (Z.eqb x) t) && nodupz t end.
Lemma nodupz_ok l : nodupz l = true -> NoDup l.
Proof. induction l as [|x t IH]; cbn; [constructor|]. intros H. apply andb_true_iff in H as [H1 H2]. constructor; auto. intros I. apply negb_true_iff in H1. assert (X : existsb (Z.eqb x) t = true) by (apply existsb_exists; exists x; rewrite Z.eqb_refl; auto). congruence. Qed.
Definition loop_edges (loops : list loop) : list edge := flat_map FaceCollapser.cyc_pairs loops.
Lemma loop_edges_iff faces f loops e : NoDup (map fst faces) -> In (f, loops) faces -> face_edge faces f e <-> In e (loop_edges loops).
Proof.
  intros ND I. unfold face_edge, loop_edges. rewrite in_flat_map. destruct e as [a b]. cbn [fst snd]. split.
  - intros (l' & C & J & IC & N). assert (l' = loops) by (eapply NoDup_fst_inj; eauto). subst. exists C. split; auto. apply cyc_next_iff. auto.
  - intros (C & IC & N). exists loops, C. split; auto. split; auto. apply cyc_next_iff. auto.
Qed.
Definition plainb (faces : list (Z * list loop)) : bool := nodupz (map fst faces) && forallb (fun x => (0 <=? fst x) && match snd x with [] => false | _ => true end &&
  forallb (fun C => nodupz C && (3 <=? length C)%nat) (snd x) && forallb (fun e => negb (memb (snd e, fst e) (loop_edges (snd x)))) (loop_edges (snd x))) faces.
Lemma plainb_ok faces : plainb faces = true -> plain_faces faces.
Proof.
  unfold plainb. intros H. apply andb_true_iff in H as [H1 H2]. apply nodupz_ok in H1. split; auto. intros f loops I. rewrite forallb_forall in H2. specialize (H2 _ I). cbn [fst snd] in H2. rewrite !andb_true_iff in H2. destruct H2 as (((A & B) & C) & D). apply Z.leb_le in A. split; auto. split; [intros ->; discriminate|]. split.
  - intros L IL. rewrite forallb_forall in C. specialize (C _ IL). apply andb_true_iff in C as [C1 C2]. apply nodupz_ok in C1. apply Nat.leb_le in C2. auto.
  - intros a b X Y. apply (@loop_edges_iff faces f loops _ H1 I) in X. apply (@loop_edges_iff faces f loops _ H1 I) in Y. rewrite forallb_forall in D. specialize (D _ X). cbn [fst snd] in D. apply negb_true_iff in D. apply memb_In in Y. congruence.
Qed.
Definition closedb (faces : list (Z * list loop)) : bool :=
  forallb (fun x => forallb (fun e => forallb (fun y => (fst x =? fst y) || negb (memb e (loop_edges (snd y)))) faces && existsb (fun y => memb (snd e, fst e) (loop_edges (snd y))) faces) (loop_edges (snd x))) faces.
Lemma closedb_ok faces : NoDup (map fst faces) -> closedb faces = true -> closed_oriented faces.
Proof.
  intros ND H. unfold closedb in H. rewrite forallb_forall in H. assert (G : forall f e, face_edge faces f e -> exists ls, In (f, ls) faces /\ In e (loop_edges ls)).
  { intros f e FE. assert (FE' := FE). destruct FE as (ls & C & I & _). exists ls. split; auto. apply (@loop_edges_iff faces _ _ _ ND I). auto. }
  split.
  - intros f g e A B. apply G in A as (ls & I & A), B as (ls' & I' & B). specialize (H _ I). rewrite forallb_forall in H. specialize (H _ A). apply andb_true_iff in H as [H _]. rewrite forallb_forall in H. specialize (H _ I'). cbn [fst snd] in H. apply memb_In in B. rewrite B in H. apply orb_true_iff in H as [H|H]; [apply Z.eqb_eq; auto|discriminate].
  - intros f a b A. apply G in A as (ls & I & A). specialize (H _ I). rewrite forallb_forall in H. specialize (H _ A). apply andb_true_iff in H as [_ H]. apply existsb_exists in H as ([g ls'] & I' & M). cbn [fst snd] in M. apply memb_In in M. exists g. apply (@loop_edges_iff faces _ _ _ ND I'). auto.
Qed.

Definition face3 (id : face_id) (k : mask) (l : loop) : cut_face := mkCutFace k [l] id (0, 0, 0)%Qc None None None.
Definition at3 (a b c : Qc) (k : bitset) : vertex := mkVertex [0; 0; 0] [a; b; c] k.
Definition quarter : Qc := Q2Qc (1 # 4). Definition half : Qc := Q2Qc (1 # 2).
Definition empty_mesh (vs : c3) (V : list vertex) (act : c3 -> bool) : mesh3 := mkMesh (0, 0, 0)%Qc (1, 1, 1)%Qc vs V [] act [] [] [] [] [] [] [] [] [].
Definition first_link (d : ds) (a b : Z) : bool := true.

(** ** two cells of a grid, the left one cut in half by a square *)
Definition slab : mesh3 := empty_mesh (3, 2, 2) [at3 half 0 0 [false; true; true]; mkVertex [0; 0; 1] [half; 0; 0]%Qc [false; true; true]; mkVertex [0; 1; 0] [half; 0; 0]%Qc [false; true; true]; mkVertex [0; 1; 1] [half; 0; 0]%Qc [false; true; true]] (fun p => let '(x, _, _) := p in x =? 1).
Definition slab_faces : list (Z * cut_face) :=
  [(0, face3 (MeshFace 0) [None; None; None] [12; 14; 15; 13]);
   (1, face3 (AxialFace 2 0) [None; None; Some 0] [0; 2; 14; 12]); (2, face3 (AxialFace 1 1) [None; Some 1; None] [2; 3; 15; 14]); (3, face3 (AxialFace 2 1) [None; None; Some 1] [3; 1; 13; 15]); (4, face3 (AxialFace 1 0) [None; Some 0; None] [1; 0; 12; 13]);
   (5, face3 (AxialFace 2 0) [None; None; Some 0] [12; 14; 6; 4]); (6, face3 (AxialFace 1 1) [None; Some 1; None] [14; 15; 7; 6]); (7, face3 (AxialFace 2 1) [None; None; Some 1] [15; 13; 5; 7]); (8, face3 (AxialFace 1 0) [None; Some 0; None] [13; 12; 4; 5]);
   (9, face3 (AxialFace 0 0) [Some 0; None; None] [0; 2; 3; 1]); (10, face3 (AxialFace 0 1) [Some 1; None; None] [4; 6; 7; 5])].
Definition slab_ord (e : edge) (l : list Z) : list Z := if peqb e (12, 13) || peqb e (13, 15) then rev l else l.
Definition slab_mesh : option mesh3 := generate3 first_link first_link slab_ord (Some 0) slab slab_faces [] [].
Lemma slab_ok : stage_ok slab slab_faces [] [] /\ tiling_case (cshape slab) (act3 slab) (Some 0) /\ plain_faces (loops_of slab_faces).
Proof.
  split; [apply stageb_ok; vm_compute; reflexivity|]. split; [|apply plainb_ok; vm_compute; reflexivity]. split; auto. intros [|[|[|d]]] Hd; cbn; lia.
Qed.
(** the hypotheses of C134's theorems hold together: two cut cells with the surface between them, an exterior cell behind face 10, no folded face *)
Example c134_case : exists m B, slab_mesh = Some m /\ m_folded m = [] /\ faces_placed m /\ boundary3 m false = Some B /\
  bounds3 m 0 0 true /\ bounds3 m 1 0 false /\ cf_ext (nth 10 (m_faces m) (face3 (MeshFace 0) [] [])) = Some (1, false) /\ regions3 m = Some [0; 1; 1] /\ inside_face m (nth 0 (m_faces m) (face3 (AxialFace 0 0) [] [])).
Proof.
  destruct slab_ok as (SO & TC & PF). destruct (c134_defined first_link first_link slab_ord (Some 0) SO) as [m GE]. assert (E := GE). vm_compute in E. apply Some_inj in E. destruct (c134_generated _ _ _ SO TC GE) as (cubes0 & OK & _). destruct (c73_coefficients m cubes0 false OK) as (B & HB & _).
  exists m, B. split; [exact GE|]. subst m. split; [reflexivity|]. split; [|split; [exact HB|]].
  - split.
    + intros k fc [K N] EX. split; auto. destruct (Z.to_nat k) as [|n]; [cbn in N; apply Some_inj in N; subst fc; intros d v [H _]; cbn in H; destruct d as [|[|[|[|]]]]; discriminate|]. exfalso.
      do 10 (destruct n as [|n]; [cbn in N; apply Some_inj in N; subst fc; discriminate|]). destruct n; discriminate.
    + intros k fc o sg [K N] EX O. assert (k = 10).
      { destruct (Z.eq_dec k 10) as [|NE]; auto. exfalso. destruct (Z.to_nat k) as [|n] eqn:EK; [cbn in N; apply Some_inj in N; subst fc; discriminate|]. do 10 (destruct n as [|n]; [cbn in N; apply Some_inj in N; subst fc; try lia; cbn in EX; apply Some_inj, pair_equal_spec in EX as [<- _]; lia|]). destruct n; discriminate. }
      subst k. exists 1, true. split; [eexists; split; [split; [lia|reflexivity]|cbn; tauto]|]. intros j s' (c & [J M] & I). destruct (Z.to_nat j) as [|[|n]] eqn:EJ; [|lia|destruct n; discriminate]. cbn in M. apply Some_inj in M. subst c. cbn in I. repeat (destruct I as [I|I]; [discriminate I|]). destruct I.
  - split; [eexists; split; [split; [lia|reflexivity]|cbn; tauto]|]. split; [eexists; split; [split; [lia|reflexivity]|cbn; tauto]|]. split; [reflexivity|]. split; [reflexivity|]. split; auto. intros d v [H _]. cbn in H. destruct d as [|[|[|[|]]]]; discriminate.
Qed.

(** ** REFUTED: constants under the Laplacian, when the surface has a boundary inside a cell *)
(** one cell, with a single triangle in its interior *)
Definition flap : mesh3 := empty_mesh (2, 2, 2) [at3 quarter quarter quarter [false; false; false]; at3 half quarter quarter [false; false; false]; at3 quarter half quarter [false; false; false]] (fun _ => false).
Definition box_faces : list (Z * cut_face) :=
  [(4, face3 (AxialFace 0 0) [Some 0; None; None] [0; 1; 3; 2]); (5, face3 (AxialFace 0 1) [Some 1; None; None] [4; 6; 7; 5]);
   (6, face3 (AxialFace 1 0) [None; Some 0; None] [0; 4; 5; 1]); (7, face3 (AxialFace 1 1) [None; Some 1; None] [2; 3; 7; 6]);
   (8, face3 (AxialFace 2 0) [None; None; Some 0] [0; 2; 6; 4]); (9, face3 (AxialFace 2 1) [None; None; Some 1] [1; 5; 7; 3])].
Definition flap_faces : list (Z * cut_face) := (0, face3 (MeshFace 0) [None; None; None] [8; 9; 10]) :: box_faces.
Theorem c134_folded_refuted : exists base fs m B k f fc, stage_ok base fs [] [] /\ tiling_case (cshape base) (act3 base) (Some 0) /\ plain_faces (loops_of fs) /\
  generate3 first_link first_link (fun _ l => l) (Some 0) base fs [] [] = Some m /\ boundary3 m false = Some B /\
  is_cut_face m k fc /\ inside_face m fc /\ id_of fs k f /\ In f (m_folded m) /\ forall h, (forall r, (0 < h r)%Qc) -> exists c, lap B h (fun _ => 1%Qc) c <> 0%Qc.
Proof.
  assert (SO : stage_ok flap flap_faces [] []) by (apply stageb_ok; vm_compute; reflexivity). assert (TC : tiling_case (cshape flap) (act3 flap) (Some 0)) by (split; auto; intros [|[|[|d]]] Hd; cbn; lia). assert (PF : plain_faces (loops_of flap_faces)) by (apply plainb_ok; vm_compute; reflexivity).
  destruct (c134_defined first_link first_link (fun _ l => l) (Some 0) SO) as [m GE]. assert (E := GE). vm_compute in E. apply Some_inj in E. destruct (c134_generated _ _ _ SO TC GE) as (cubes0 & OK & _). destruct (c73_coefficients m cubes0 false OK) as (B & HB & _).
  assert (HF : exists fc, is_cut_face m 0 fc /\ inside_face m fc). { subst m. eexists. split; [split; [lia|reflexivity]|]. split; auto. intros d v [H _]. cbn in H. destruct d as [|[|[|[|]]]]; discriminate. }
  destruct HF as (fc & HF & IF). assert (ID : id_of flap_faces 0 0) by (split; [lia|reflexivity]). assert (FD : In 0 (m_folded m)) by (subst m; cbn; auto).
  exists flap, flap_faces, m, B, 0, 0, fc. repeat (split; [auto|]). apply (c134_folded_row _ _ _ SO TC PF GE HF IF ID FD HB).
Qed.

(** ** REFUTED: the cut cells fill the cut part of the domain with positive volumes *)
(** one cell, with a closed tetrahedron in its interior: the space between the two is lost, and the outer side of the tetrahedron becomes a cell of its own, whose volume cancels the inner one *)
Definition island : mesh3 := empty_mesh (2, 2, 2) [at3 quarter quarter quarter [false; false; false]; at3 half quarter quarter [false; false; false]; at3 quarter half quarter [false; false; false]; at3 quarter quarter half [false; false; false]] (fun _ => false).
Definition island_faces : list (Z * cut_face) :=
  (0, face3 (MeshFace 0) [None; None; None] [8; 10; 9]) :: (1, face3 (MeshFace 1) [None; None; None] [8; 9; 11]) :: (2, face3 (MeshFace 2) [None; None; None] [8; 11; 10]) :: (3, face3 (MeshFace 3) [None; None; None] [9; 10; 11]) :: box_faces.
Lemma this_two (x : option (list (option Qc))) v w : option_map (map (option_map this)) x = Some [Some (this v); Some (this w)] -> x = Some [Some v; Some w].
Proof.
  destruct x as [[|[a|] [|[b|] [|]]]|]; cbn; try discriminate. intros H. assert (A := f_equal (fun o => match o with Some (Some q :: _) => q | _ => 0%Q end) H). assert (B := f_equal (fun o => match o with Some (_ :: Some q :: _) => q | _ => 0%Q end) H). cbn in A, B.
  assert (a = v) by (apply Qc_is_canon; rewrite A; reflexivity). assert (b = w) by (apply Qc_is_canon; rewrite B; reflexivity). congruence.
Qed.
Theorem c134_island_refuted : exists base fs m v, stage_ok base fs [] [] /\ tiling_case (cshape base) (act3 base) (Some 0) /\ plain_faces (loops_of fs) /\ closed_oriented (loops_of fs) /\
  generate3 first_link first_link (fun _ l => l) (Some 0) base fs [] [] = Some m /\ m_folded m = [] /\ m_dx m = (1, 1, 1)%Qc /\ cshape m = (1, 1, 1) /\
  cell_volumes3 m = Some [Some v; Some (- v)%Qc] /\ v <> 0%Qc.
Proof.
  assert (SO : stage_ok island island_faces [] []) by (apply stageb_ok; vm_compute; reflexivity). assert (PF : plain_faces (loops_of island_faces)) by (apply plainb_ok; vm_compute; reflexivity).
  destruct (c134_defined first_link first_link (fun _ l => l) (Some 0) SO) as [m GE].
  assert (C1 : match generate3 first_link first_link (fun _ l => l) (Some 0) island island_faces [] [] with Some m => Some (option_map (map (option_map this)) (cell_volumes3 m), m_folded m, cshape m) | None => None end = Some (Some [Some (1 # 384)%Q; Some (-1 # 384)%Q], [], (1, 1, 1))) by (vm_compute; reflexivity).
  rewrite GE in C1. apply Some_inj, pair_equal_spec in C1 as [C1 C3]. apply pair_equal_spec in C1 as [C1 C2].
  exists island, island_faces, m, (Q2Qc (1 # 384)). split; auto. split; [split; auto; intros [|[|[|d]]] Hd; cbn; lia|]. split; auto. split; [apply closedb_ok; [apply PF|vm_compute; reflexivity]|]. split; auto. split; auto. split; [|split; auto; split; [|discriminate]].
  - destruct (gen_inv _ _ _ _ SO GE) as (b & C & B & _ & _ & ->). reflexivity.
  - apply this_two. rewrite C1. reflexivity.
Qed.
