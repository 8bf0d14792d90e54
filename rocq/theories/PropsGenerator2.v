(** C119: the edge sets of a generator. *)
From Coq Require Import Permutation Sorted.
From Verif Require Import Base Num CoordMask Vertex VertexSpec VertexProofs VertexTypes Grid Crossings CrossingsSpec CrossingsProofs EdgeBake CutEdges GridEdges Sparse
  PropsConstruct ThresholdProofs EdgeBakeProofs PropsEdgeBake PropsCutEdges TriBake PropsTri BaryMap PropsBary Generator PropsGenerator.
Set Implicit Arguments.
Local Open Scope Z_scope.
Local Arguments Qcplus : simpl never. Local Arguments Qcmult : simpl never. Local Arguments Qcopp : simpl never. Local Arguments Qcminus : simpl never.
Local Arguments Qcdiv : simpl never. Local Arguments Qcinv : simpl never. Local Arguments Q2Qc : simpl never.

Definition of_plane (dim : nat) (k : Z) (m : mask) : Prop := nth_error m dim = Some (Some k).
Lemma fold_if_insert (f : grid_edge_t -> bool) l : forall S, ssorted pair_cmp2 S -> let R := fold_left (fun S e => if f e then set_insert pair_cmp2 (snd e) S else S) l S in
  ssorted pair_cmp2 R /\ forall e, In e R <-> In e S \/ exists m, In (m, e) l /\ f (m, e) = true.
Proof.
  induction l as [|[m x] l IH]; intros S HS; cbn zeta; cbn [fold_left].
  - split; auto. intros e. split; [auto|]. intros [H|(m & [] & _)]; auto.
  - cbn [snd]. destruct (f (m, x)) eqn:F.
    + destruct (IH (set_insert pair_cmp2 x S)) as [I1 I2]; [apply (set_insert_sorted pair_cmp2_total); auto|]. split; auto. intros e. rewrite I2, (set_insert_In pair_cmp2_total). split.
      * intros [[->|H]|(m' & H & H')]; [right; exists m; cbn; auto|auto|right; exists m'; cbn; auto].
      * intros [H|(m' & [E|H] & H')]; [auto|apply pair_equal_spec in E as [_ ->]; auto|right; eauto].
    + destruct (IH S HS) as [I1 I2]. split; auto. intros e. rewrite I2. split.
      * intros [H|(m' & H & H')]; [auto|right; exists m'; cbn; auto].
      * intros [H|(m' & [E|H] & H')]; [auto|rewrite E in F; congruence|right; eauto].
Qed.
(** edges(): the index pairs of the pieces of the input edges and of the grid edges, each once *)
Theorem c119_edges cut grid : NoDup (gen_edges cut grid) /\
  forall e, In e (gen_edges cut grid) <-> (exists m p, In (m, e, p) cut) \/ (exists m, In (m, e) grid).
Proof.
  destruct (@fold_if_insert (fun _ => true) (all_edges cut grid) []) as [A B]; [constructor|]. change (fold_left _ (all_edges cut grid) []) with (gen_edges cut grid) in A, B.
  split; [apply (ssorted_NoDup pair_cmp2_total A)|]. intros e. rewrite B. unfold all_edges. split.
  - intros [[]|(m & H & _)]. apply in_app_or in H as [H|H]; [|eauto]. apply in_map_iff in H as ([[m' e'] p] & E & H). cbn in E. apply pair_equal_spec in E as [-> ->]. eauto.
  - intros [(m & p & H)|(m & H)]; right; exists m; split; auto; apply in_or_app; [left; apply in_map_iff; exists (m, e, p); auto|auto].
Qed.
Lemma on_plane_spec e dim k : on_plane e dim k = true <-> of_plane dim k (fst e).
Proof. unfold on_plane, of_plane. destruct (nth_error (fst e) dim) as [[v|]|]; split; try discriminate; [intros H; apply Z.eqb_eq in H; subst; auto|]. intros E. assert (v = k) by congruence. apply Z.eqb_eq; auto. Qed.
(** edge_slice(dim, k): those on the plane dim = k *)
Theorem c119_slice cut grid dim k : NoDup (edge_slice cut grid dim k) /\
  forall e, In e (edge_slice cut grid dim k) <-> (exists m p, In (m, e, p) cut /\ of_plane dim k m) \/ (exists m, In (m, e) grid /\ of_plane dim k m).
Proof.
  destruct (@fold_if_insert (fun e => on_plane e dim k) (grid ++ map fst cut) []) as [A B]; [constructor|]. change (fold_left _ (grid ++ map fst cut) []) with (edge_slice cut grid dim k) in A, B.
  split; [apply (ssorted_NoDup pair_cmp2_total A)|]. intros e. rewrite B. split.
  - intros [[]|(m & H & P)]. apply on_plane_spec in P. apply in_app_or in H as [H|H]; [eauto|]. apply in_map_iff in H as ([[m' e'] p] & E & H). cbn in E. apply pair_equal_spec in E as [-> ->]. eauto.
  - intros [(m & p & H & P)|(m & H & P)]; right; exists m; (split; [|apply on_plane_spec; auto]); apply in_or_app; [right; apply in_map_iff; exists (m, e, p); auto|auto].
Qed.
Lemma axial_step (l : list grid_edge_t) dim : forall M, ssorted Z.compare (keys M) -> (forall k S, map_find Z.compare k M = Some S -> ssorted pair_cmp2 S) ->
  let R := fold_left (fun M e => match nth_error (fst e) dim with
    | Some (Some v) => map_set Z.compare v (set_insert pair_cmp2 (snd e) (match map_find Z.compare v M with Some l => l | None => [] end)) M | _ => M end) l M in
  ssorted Z.compare (keys R) /\ (forall k S, map_find Z.compare k R = Some S -> ssorted pair_cmp2 S) /\
  forall k, (map_find Z.compare k R = None <-> map_find Z.compare k M = None /\ forall m e, In (m, e) l -> ~ of_plane dim k m) /\
    forall e, (exists S, map_find Z.compare k R = Some S /\ In e S) <-> (exists S, map_find Z.compare k M = Some S /\ In e S) \/ exists m, In (m, e) l /\ of_plane dim k m.
Proof.
  induction l as [|[m x] l IH]; intros M HM HS; cbn zeta; cbn [fold_left].
  - split; auto. split; auto. intros k. split; [split; [intros H; split; auto; intros m e []|tauto]|]. intros e. split; [auto|intros [H|(m & [] & _)]; auto].
  - cbn [fst snd]. unfold of_plane in *. destruct (nth_error m dim) as [[v|]|] eqn:E.
    + set (S0 := match map_find Z.compare v M with Some l => l | None => [] end). assert (SS : ssorted pair_cmp2 S0) by (unfold S0; destruct (map_find Z.compare v M) eqn:F; [apply (HS v); auto|constructor]).
      destruct (IH (map_set Z.compare v (set_insert pair_cmp2 x S0) M)) as (I1 & I2 & I3).
      * apply (map_set_sorted Zcompare_total). auto.
      * intros k S. rewrite (map_find_set Zcompare_total) by auto. destruct (k ?= v) eqn:C; try apply HS. intros Q. apply Some_inj in Q. subst. apply (set_insert_sorted pair_cmp2_total); auto.
      * split; auto. split; auto. intros k. destruct (I3 k) as [J1 J2]. rewrite (map_find_set Zcompare_total) in J1 by auto.
        destruct (Z.eq_dec k v) as [->|N].
        -- rewrite Z.compare_refl in J1. split; [split; [intros H; apply J1 in H; destruct H; discriminate|intros [_ H]; destruct (H m x); cbn; auto]|]. intros e. rewrite J2, (map_find_set Zcompare_total) by auto. rewrite Z.compare_refl. split.
           ++ intros [(S & Q & H)|(m' & H & P)]; [|right; exists m'; cbn; auto]. apply Some_inj in Q. subst S. apply (set_insert_In pair_cmp2_total) in H as [->|H]; [right; exists m; cbn; auto|]. left. unfold S0 in H. destruct (map_find Z.compare v M); [eauto|destruct H].
           ++ intros [(S & Q & H)|(m' & [H|H] & P)].
              ** left. eexists. split; [reflexivity|]. apply (set_insert_In pair_cmp2_total). right. unfold S0. rewrite Q. auto.
              ** apply pair_equal_spec in H as [-> ->]. left. eexists. split; [reflexivity|]. apply (set_insert_In pair_cmp2_total). auto.
              ** right. eauto.
        -- assert (C : (k ?= v) <> Eq) by (intros C; apply Z.compare_eq in C; auto). assert (F : map_find Z.compare k (map_set Z.compare v (set_insert pair_cmp2 x S0) M) = map_find Z.compare k M) by (rewrite (map_find_set Zcompare_total) by auto; destruct (k ?= v); congruence).
           rewrite F in J2. replace (match k ?= v with Eq => Some (set_insert pair_cmp2 x S0) | _ => map_find Z.compare k M end) with (map_find Z.compare k M) in J1 by (destruct (k ?= v); congruence). split.
           ++ rewrite J1. split; intros [H1 H2]; split; auto; [|intros m' e H; apply (H2 m' e); cbn; auto]. intros m' e [H|H]; [apply pair_equal_spec in H as [-> ->]; rewrite E; congruence|eauto].
           ++ intros e. rewrite J2. split; (intros [H|(m' & H & P)]; [auto|]); [right; exists m'; cbn; auto|]. destruct H as [H|H]; [|right; eauto]. apply pair_equal_spec in H as [-> ->]. congruence.
    + destruct (IH M HM HS) as (I1 & I2 & I3). split; auto. split; auto. intros k. destruct (I3 k) as [J1 J2]. split.
      * rewrite J1. split; intros [H1 H2]; split; auto; [|intros m' e H; apply (H2 m' e); cbn; auto]. intros m' e [H|H]; [apply pair_equal_spec in H as [-> ->]; rewrite E; congruence|eauto].
      * intros e. rewrite J2. split; (intros [H|(m' & H & P)]; [auto|]); [right; exists m'; cbn; auto|]. destruct H as [H|H]; [|right; eauto]. apply pair_equal_spec in H as [-> ->]. congruence.
    + destruct (IH M HM HS) as (I1 & I2 & I3). split; auto. split; auto. intros k. destruct (I3 k) as [J1 J2]. split.
      * rewrite J1. split; intros [H1 H2]; split; auto; [|intros m' e H; apply (H2 m' e); cbn; auto]. intros m' e [H|H]; [apply pair_equal_spec in H as [-> ->]; rewrite E; congruence|eauto].
      * intros e. rewrite J2. split; (intros [H|(m' & H & P)]; [auto|]); [right; exists m'; cbn; auto|]. destruct H as [H|H]; [|right; eauto]. apply pair_equal_spec in H as [-> ->]. congruence.
Qed.
(** axial_edges()[dim]: one entry for each plane that has edges, and it is edge_slice of that plane *)
Theorem c119_axial cut grid dim k : map_find Z.compare k (axial_edges cut grid dim) = match edge_slice cut grid dim k with [] => None | l => Some l end.
Proof.
  destruct (@axial_step (all_edges cut grid) dim []) as (A1 & A2 & A3); [constructor|discriminate|]. change (fold_left _ (all_edges cut grid) []) with (axial_edges cut grid dim) in A1, A2, A3. destruct (A3 k) as [B1 B2]. clear A3.
  destruct (@fold_if_insert (fun e => on_plane e dim k) (grid ++ map fst cut) []) as [C1 C2]; [constructor|]. change (fold_left _ (grid ++ map fst cut) []) with (edge_slice cut grid dim k) in C1, C2.
  assert (X : forall e, In e (edge_slice cut grid dim k) <-> exists m, In (m, e) (all_edges cut grid) /\ of_plane dim k m).
  { intros e. rewrite C2. unfold all_edges. split; [intros [[]|(m & H & P)]|intros (m & H & P); right]; exists m; rewrite in_app_iff in *; rewrite on_plane_spec in *; cbn [fst] in *; tauto. }
  destruct (map_find Z.compare k (axial_edges cut grid dim)) as [S|] eqn:F.
  - assert (E : S = edge_slice cut grid dim k).
    { apply (ssorted_ext pair_cmp2_total); auto; [apply (A2 k); auto|]. intros e. rewrite X. specialize (B2 e). split.
      - intros H. destruct (proj1 B2) as [(S' & Q & _)|H']; [exists S; auto|discriminate|auto].
      - intros H. destruct (proj2 B2) as (S' & Q & H'); [auto|]. congruence. }
    rewrite <- E. destruct S as [|e S]; auto. exfalso. enough (Q : Some (@nil (Z * Z)) = None) by discriminate. apply B1. split; auto. intros m e H P. assert (I : In e (edge_slice cut grid dim k)) by (apply X; eauto). rewrite <- E in I. destruct I.
  - destruct (edge_slice cut grid dim k) as [|e S]; auto. destruct (proj1 (X e)) as (m & H & P); [cbn; auto|]. destruct (proj1 B1 eq_refl) as [_ Q]. destruct (Q m e H P).
Qed.
(** an edge of edges() may be listed in both directions: an input edge (1,7/4)-(1,5/4), given downwards along the grid line x = 1, and the grid edges of that line *)
Definition dn_V : list vertex := map from_vertex [[1%Qc; qq 7 4]; [1%Qc; qq 5 4]].
Definition dn : bdata := mkBD dn_V [(0, 1)] [] [bake_edge (Some [5; 5]) (nth 0 dn_V (mkVertex [] [] [])) (nth 1 dn_V (mkVertex [] [] [])) 0] [].
Definition dn_ix (c : crossing) : Z := match c with CV v => if Qc_eq_dec (qat (pos v) 1) (qq 7 4) then 25 else 26 | _ => -1 end.
Theorem c119_both_ways_refuted : crossing_ixs [5; 5] dn = [25; 26] /\
  let cut := cut_edges_of dn_ix (Some [5; 5]) (nth 0 dn_V (mkVertex [] [] [])) (nth 1 dn_V (mkVertex [] [] [])) 0 in
  let grid := map (fun e => ([Some 1; None], e)) (grid_edge_pieces 2 [5; 5] (combine (source_vertices dn) (crossing_ixs [5; 5] dn)) 1 [1; 1]) in
  In (25, 26) (gen_edges cut grid) /\ In (26, 25) (gen_edges cut grid).
Proof. split; [vm_compute; reflexivity|]. vm_compute. tauto. Qed.
Example c119_sample : edge_slice [([None; Some 1], (25, 29), 0)] [([Some 1; None], (6, 29))] 0 1 = [(6, 29)] /\ axial_edges [([None; Some 1], (25, 29), 0)] [([Some 1; None], (6, 29))] 1 = [(1, [(25, 29)])].
Proof. split; reflexivity. Qed.
