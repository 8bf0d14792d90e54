(** Protobuf round trips (C31, C32) and masks of loaded faces (C60). *)
From Coq Require Import Permutation.
From Verif Require Import Base Num CoordMask CoordMaskSpec Vertex VertexSpec Grid SmallestEdge AdaptiveGrid Mesh Proto ProtoProofs.
Local Open Scope Z_scope.

(** ** C31 *)
Theorem c31_vertex v : v_wf 3 v -> de_vertex (ser_vertex v) = v.
Proof. apply vertex_rt. Qed.
(** whatever order protobuf iterates the entries map in *)
Theorem c31_cell c p : ssorted Z.compare (map fst (ce_faces c)) ->
  pc_id p = pc_id (ser_cell c) -> pc_region p = pc_region (ser_cell c) -> pc_grid p = pc_grid (ser_cell c) -> Permutation (pc_entries (ser_cell c)) (pc_entries p) ->
  de_cell p = c.
Proof.
  destruct c as [F i r g], p as [i' r' e g']. cbn. intros S -> -> -> P. unfold de_cell. cbn. f_equal. apply load_map_perm; auto.
Qed.
(** every field but the derived mask (recomputed by the mesh loader, C32/C60) and the cached extra vertices *)
Theorem c31_face f : ssorted zlex (cf_loops f) -> cf_tri f <> Some [] ->
  let g := de_face (ser_face f) in
  cf_loops g = cf_loops f /\ cf_id g = cf_id f /\ cf_N g = cf_N f /\ cf_ext g = cf_ext f /\ cf_tri g = cf_tri f.
Proof.
  intros S T. cbn. repeat split; auto; [apply (set_load zlex_total); auto|]. destruct (cf_tri f) as [[|t l]|]; auto. congruence.
Qed.
Example c31_example :
  let f := mkCutFace [Some 2; None; None] [[4; 7; 9]; [11; 12; 13; 10]] (AxialFace 0 2) (1%Qc, 0%Qc, 0%Qc) (Some (-2, true)) (Some [(4, 7, 9)]) None in
  let g := de_face (ser_face f) in cf_loops g = cf_loops f /\ cf_ext g = Some (-2, true) /\ cf_tri g = Some [(4, 7, 9)] /\ ssorted zlex (cf_loops f).
Proof. repeat split; repeat constructor. Qed.
Example c31_cell_example : de_cell (mkPC 3 1 [(7, true); (2, false)] (1, 2, 3)) = mkCutCell [(2, false); (7, true)] 3 1 (1, 2, 3).
Proof. reflexivity. Qed.

(** ** C32 *)
(** a mesh as the generator leaves it: sets and maps are sorted, masks are those of the vertices *)
Definition wf_mesh (m : mesh3) : Prop :=
  (forall v, In v (m_verts m) -> v_wf 3 v) /\
  (forall f, In f (m_faces m) -> ssorted zlex (cf_loops f) /\ cf_tri f <> Some [] /\ update_mask (list3 (m_vshape m)) (m_verts m) (cf_loops f) = Some (cf_mask f)) /\
  (forall c, In c (m_cells m) -> ssorted Z.compare (map fst (ce_faces c))) /\
  ssorted Z.compare (m_folded m) /\ ssorted Z.compare (map fst (m_bary m)) /\ ssorted Z.compare (map fst (m_cubes m)) /\ ssorted Z.compare (map fst (m_regions m)).
Definition same_face (a b : cut_face) : Prop :=
  cf_mask a = cf_mask b /\ cf_loops a = cf_loops b /\ cf_id a = cf_id b /\ cf_N a = cf_N b /\ cf_ext a = cf_ext b /\ cf_tri a = cf_tri b.
Theorem c32_round_trip m q : wf_mesh m -> map_reorder (serialize m) q -> exists m', from_proto q = Some m' /\
  m_origin m' = m_origin m /\ m_dx m' = m_dx m /\ m_vshape m' = m_vshape m /\ m_verts m' = m_verts m /\ m_origV m' = m_origV m /\ m_origF m' = m_origF m /\
  Forall2 same_face (m_faces m') (m_faces m) /\ m_cells m' = m_cells m /\ m_folded m' = m_folded m /\ m_bary m' = m_bary m /\
  m_cubes m' = m_cubes m /\ m_regions m' = m_regions m /\ m_afaces m' = make_faces (let '(x, y, z) := m_vshape m in (x - 1, y - 1, z - 1)%Z) (m_cubes m).
Proof.
  intros (WV & WF & WC & WS & WB & WQ & WR) (Q1 & Q2 & Q3 & Q4 & Q5 & Q6 & Q7 & Q8 & Q9 & Q10 & Q11 & Q12). cbn in *.
  assert (EV : map de_vertex (pm_vertices q) = m_verts m).
  { rewrite Q4, map_map. rewrite <- map_id. apply map_ext_in. intros v Hv. apply vertex_rt; auto. }
  assert (EF : exists fs, load_faces (list3 (m_vshape m)) (m_verts m) (map ser_face (m_faces m)) = Some fs /\ Forall2 same_face fs (m_faces m)).
  { revert WF. generalize (m_faces m). intros l. induction l as [|f l IH]; intros WF; cbn; [exists []; auto|].
    destruct (WF f) as (S & T & U); [cbn; auto|]. destruct IH as (fs & E & R); [intros; apply WF; cbn; auto|]. rewrite (set_load zlex_total) by auto. rewrite U, E. eexists. split; eauto.
    constructor; auto. unfold same_face. cbn. repeat split; auto. destruct (cf_tri f) as [[|]|]; auto. congruence. }
  destruct EF as (fs & EF & RF). exists (mkMesh (m_origin m) (m_dx m) (m_vshape m) (m_verts m) [] (fun _ => true) (m_origV m) (m_origF m) fs (m_cells m) (m_folded m) (m_bary m) (m_cubes m) (make_faces (cell_shape_of (m_vshape m)) (m_cubes m)) (m_regions m)).
  split; [|cbn; repeat split; auto]. unfold from_proto. rewrite EV, Q1, Q2, Q3, Q5, Q6, Q7, Q8. rewrite EF.
  assert (CU : load_map (map (fun '(i, c) => (i, cell_from_proto c)) (pm_cubes q)) = m_cubes m).
  { apply load_map_perm; auto. apply (Permutation_map (fun '(i, c) => (i, cell_from_proto c))) in Q11. rewrite map_map in Q11.
    rewrite (map_ext (fun x => (let '(i, c) := let '(i, c) := x in (i, cell_serialize c) in (i, cell_from_proto c))) (fun x => x)), map_id in Q11; auto. intros [i [c w]]. reflexivity. }
  assert (CE : map de_cell (pm_cells q) = m_cells m).
  { revert WC Q9. generalize (pm_cells q), (m_cells m). clear. intros l l'. revert l. induction l' as [|c l' IH]; intros l WC Q; inversion Q as [|? p ? ps (A & B & C & D) Q']; subst; auto.
    cbn. f_equal; [|apply IH; auto; intros; apply WC; cbn; auto]. apply c31_cell; cbn; auto. apply WC. cbn; auto. }
  rewrite CU, CE, (load_map_perm WB Q10), (load_map_perm WR Q12), (set_load Zcompare_total) by auto. reflexivity.
Qed.
(** not saved: cut edges, the active-cell mask and extra triangulation vertices are lost on loading *)
Theorem c32_lost_on_load q m' : from_proto q = Some m' ->
  m_cut_edges m' = [] /\ (forall c, m_active m' c = true) /\ forall f, In f (m_faces m') -> cf_triV f = None.
Proof.
  unfold from_proto. destruct (load_faces _ _ _) as [fs|] eqn:E; [|discriminate]. intros [= <-]. cbn. split; auto. split; auto.
  revert fs E. generalize (pm_faces q). intros l. induction l as [|p l IH]; intros fs E f; cbn in E; [injection E as <-; intros []|].
  destruct (update_mask _ _ _); [|discriminate]. destruct (load_faces _ _ l) as [r|]; [|discriminate]. injection E as <-. intros [<-|H]; auto. eapply IH; eauto.
Qed.
Definition sample_mesh : mesh3 :=
  mkMesh (0%Qc, 0%Qc, 0%Qc) (1%Qc, 1%Qc, 1%Qc) (2, 2, 2) [mkVertex [0; 0; 0] [qhalf; qhalf; 0%Qc] [false; false; true]] [(8, 0)] (fun _ => false)
    [(0%Qc, 1%Qc, 0%Qc)] [(0, 0, 0)] [mkCutFace [None; None; Some 0] [[0; 2; 8]] (AxialFace 2 0) (0%Qc, 0%Qc, 1%Qc) None (Some [(0, 2, 8)]) None]
    [mkCutCell [(0, true); (3, false)] 0 0 (0, 0, 0)] [0] [(0, mkBary [(1%Qc, 0%Qc, 0%Qc)] 4)] [(0, ((0, 0, 0), 1))] [] [(0, 0)].
Example c32_example : wf_mesh sample_mesh /\ option_map m_cells (from_proto (serialize sample_mesh)) = Some (m_cells sample_mesh).
Proof.
  split; [|reflexivity]. split; [intros v [<-|[]]; repeat split|]. split; [|repeat split; repeat constructor; intros ? [<-|[]]; repeat constructor].
  intros f [<-|[]]. split; [repeat constructor|]. split; [discriminate|reflexivity].
Qed.

(** ** C60: the mask of a face is the set of grid planes that contain all its vertices *)
Definition lies_on (vs : list Z) (V : list vertex) (i : Z) (d : nat) (c : Z) : Prop :=
  exists v, masked_vertex vs V i = Some v /\ nth_error (pos v) d = Some (Z2Qc c).
Theorem c60_face_mask vs V loops : pos_shape vs -> (forall v, In v V -> v_wf (length vs) v /\ normalised v) ->
  loops <> [] -> (forall l, In l loops -> l <> []) -> (forall l i, In l loops -> In i l -> 0 <= i < shape_size vs + Z.of_nat (length V)) ->
  exists m, update_mask vs V loops = Some m /\ length m = length vs /\
    forall d c, nth_error m d = Some (Some c) <-> forall l i, In l loops -> In i l -> lies_on vs V i d c.
Proof.
  intros HP HV N1 N2 R. destruct (@update_mask_defined vs V HP loops) as [m E]; auto.
  { intros l i A B. specialize (R _ _ A B). split; [lia|]. unfold masked_vertex. rewrite (proj2 (Z.ltb_ge i 0)) by lia. destruct (Z.ltb_spec i (shape_size vs)); [eauto|].
    destruct (nth_error V (Z.to_nat (i - shape_size vs))) eqn:X; eauto. apply nth_error_None in X. lia. }
  exists m. split; auto. apply update_mask_spec in E as (L & _ & B); auto. intros l i A C. specialize (R _ _ A C). lia.
Qed.
(** grid vertices come first, in index order; cut vertices follow *)
Theorem c60_vertex_layout vs V i : pos_shape vs -> 
  (0 <= i < shape_size vs -> exists c, in_shape vs c = true /\ ravel vs c = i /\ option_map pos (masked_vertex vs V i) = Some (map Z2Qc c)) /\
  (forall k v, nth_error V k = Some v -> masked_vertex vs V (shape_size vs + Z.of_nat k) = Some v).
Proof.
  intros HP. split.
  - intros H. exists (unravel vs i). destruct (unravel_in (s := vs) HP H) as [A B]. split; auto. split; auto. unfold masked_vertex.
    rewrite (proj2 (Z.ltb_ge i 0)), (proj2 (Z.ltb_lt i (shape_size vs))) by lia. cbn. f_equal. generalize (unravel vs i). clear. unfold pos, vertex_of_coord. cbn.
    induction l as [|x l IH]; auto. cbn. rewrite IH. f_equal. qc_lra.
  - intros k v E. assert (P := shape_size_pos HP). unfold masked_vertex. rewrite (proj2 (Z.ltb_ge _ 0)), (proj2 (Z.ltb_ge _ (shape_size vs))) by lia. rewrite <- E. f_equal. lia.
Qed.
Example c60_example : update_mask [2; 2; 2] (m_verts sample_mesh) [[0; 2; 8]] = Some [None; None; Some 0].
Proof. reflexivity. Qed.
