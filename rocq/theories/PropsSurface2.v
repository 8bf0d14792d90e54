(** Properties C90, C91: the operators on the immersed curve of a CutCellMesh<2>. *)
From Verif Require Import Base Num CoordMask Vertex Grid SmallestEdge AdaptiveGrid Mesh ExteriorGrid Sparse Mesh2 PropsMesh2 Surface2.
Local Open Scope Z_scope.

(** ** specification *)
(** cut edge e is a piece of an input edge and v is one of its ends *)
Definition touches (m : mesh2) (e v : Z) : Prop := 0 <= e /\ exists c, nth_error (m2_edges m) (Z.to_nat e) = Some c /\ is_mesh_edge c = true /\ (fst (e2_ix c) = v \/ snd (e2_ix c) = v).
(** the mesh edges at v in increasing order; an edge with both ends at v is listed twice *)
Definition incident (m : mesh2) (v : Z) : list Z := flat_map (fun '(i, (a, b)) => (if a =? v then [i] else []) ++ (if b =? v then [i] else [])) (mesh_edges m).
Definition same_pair (p q : Z * Z) : Prop := q = p \/ q = (snd p, fst p).

Lemma mesh_edges_In m i e : In (i, e) (mesh_edges m) <-> 0 <= i /\ exists c, nth_error (m2_edges m) (Z.to_nat i) = Some c /\ is_mesh_edge c = true /\ e2_ix c = e.
Proof.
  unfold mesh_edges. rewrite in_map_iff. split.
  - intros ([i' c] & E & I). apply pair_equal_spec in E as [-> <-]. apply filter_In in I as [I M]. apply enum_In in I as [L I]. split; eauto.
  - intros (L & c & E & M & <-). exists (i, c). split; auto. apply filter_In. split; auto. apply enum_In. auto.
Qed.
Lemma incident_In m v e : In e (incident m v) <-> touches m e v.
Proof.
  unfold incident. rewrite in_flat_map. split.
  - intros ([i [a b]] & I & J). apply mesh_edges_In in I as (L & c & E & M & X).
    assert (Q : i = e /\ (a = v \/ b = v)) by (destruct (Z.eqb_spec a v), (Z.eqb_spec b v); cbn in J; intuition auto).
    destruct Q as [ <- Q]. split; auto. exists c. rewrite X. auto.
  - intros (L & c & E & M & X). exists (e, e2_ix c). split; [apply mesh_edges_In; eauto|]. destruct (e2_ix c) as [a b]. cbn in X. rewrite in_app_iff. destruct X as [ -> | -> ]; rewrite Z.eqb_refl; cbn; auto.
Qed.

(** ** the map before the walk *)
Notation find v a := (map_find Z.compare v a).
Notation zsorted a := (ssorted Z.compare (keys a)).
Definition slots (l : list Z) : option (Z * Z) := match l with [] => None | e :: t => Some (e, last t (-1)) end.
Lemma slots_snoc l e : slots (l ++ [e]) = match slots l with None => Some (e, -1) | Some p => Some (fst p, e) end.
Proof. destruct l as [|a l]; cbn; auto. rewrite last_last. auto. Qed.
Lemma find_set v k p (a : adjacency) : zsorted a -> find v (map_set Z.compare k p a) = if v =? k then Some p else find v a.
Proof. intros S. rewrite (map_find_set Zcompare_total) by auto. destruct (Z.compare_spec v k), (Z.eqb_spec v k); auto; lia. Qed.
Lemma add_end_spec v e (a : adjacency) : zsorted a -> zsorted (add_end v e a) /\ forall u, find u (add_end v e a) = if u =? v then match find v a with None => Some (e, -1) | Some p => Some (fst p, e) end else find u a.
Proof.
  intros S. unfold add_end. destruct (find v a) eqn:E; (split; [apply (map_set_sorted Zcompare_total); auto|intros u; rewrite find_set by auto; auto]).
Qed.
Lemma build_spec m : zsorted (build m) /\ forall v, find v (build m) = slots (incident m v).
Proof.
  unfold build, incident. induction (mesh_edges m) as [|[i [a b]] l IH] using rev_ind.
  - split; [constructor|reflexivity].
  - destruct IH as [S F]. rewrite fold_left_app. cbn [fold_left]. match type of S with zsorted ?X => set (A := X) in * end. cbn [fst snd].
    destruct (add_end_spec a i A S) as [S1 F1]. destruct (add_end_spec b i _ S1) as [S2 F2]. split; auto.
    intros v. rewrite F2, !F1, !F, flat_map_app. cbn [flat_map]. rewrite app_nil_r, app_assoc.
    rewrite (Z.eqb_sym v b), (Z.eqb_sym v a). destruct (Z.eqb_spec b v); [subst b; rewrite slots_snoc, (Z.eqb_sym v a); destruct (Z.eqb_spec a v)|].
    + subst. rewrite slots_snoc. destruct (slots _); auto.
    + rewrite app_nil_r. auto.
    + destruct (Z.eqb_spec a v); [subst a|]; rewrite !app_nil_r; auto. rewrite slots_snoc. auto.
Qed.
Lemma slots_in l x y : slots l = Some (x, y) -> In x l /\ (y = -1 \/ In y l).
Proof.
  destruct l as [|e t]; cbn; [discriminate|]. intros [= <- <-]. split; auto. destruct t as [|a t]; [left; auto|right; right]. destruct (@exists_last _ (a :: t)) as (l & z & E); [discriminate|]. rewrite E, last_last. apply in_app_iff. cbn. auto.
Qed.
(** ** the walk *)
Definition sim (a b : adjacency) : Prop := forall v, match find v a with None => find v b = None | Some p => exists q, find v b = Some q /\ same_pair p q end.
Lemma sim_refl a : sim a a. Proof. intros v. destruct (find v a); auto. exists p. split; auto. left; auto. Qed.
Lemma sim_trans a b c : sim a b -> sim b c -> sim a c.
Proof.
  intros H K v. specialize (H v). specialize (K v). destruct (find v a) as [p|]; [destruct H as (q & E & H)|]; [|rewrite H in K; auto].
  rewrite E in K. destruct K as (r & E' & K). exists r. split; auto. destruct H as [ -> | -> ], K as [ -> | -> ]; [left|right|right|left]; auto. destruct p; auto.
Qed.
Lemma sim_set v q (a : adjacency) p : zsorted a -> find v a = Some p -> same_pair p q -> sim a (map_set Z.compare v q a).
Proof.
  intros S F H u. rewrite find_set by auto. destruct (Z.eqb_spec u v); [subst; rewrite F; eauto|]. apply (sim_refl a u).
Qed.
Lemma swap_to_same e p : same_pair p (swap_to e p).
Proof. unfold swap_to. destruct (fst p =? e); [left|right]; auto. Qed.
Definition shrinks (w w' : walk) : Prop := zsorted (w_adj w') /\ sim (w_adj w) (w_adj w') /\ exists P, w_unseen w' = filter P (w_unseen w) /\ w_open w' = filter P (w_open w).
Lemma filter_filter (A : Type) (f g : A -> bool) l : filter f (filter g l) = filter (fun x => g x && f x) l.
Proof. induction l as [|a l IH]; cbn; auto. destruct (g a); cbn; [destruct (f a)|]; rewrite IH; auto. Qed.
Lemma filter_true (A : Type) (l : list A) : filter (fun _ => true) l = l.
Proof. induction l; cbn; congruence. Qed.
Lemma shrinks_trans a b c : shrinks a b -> shrinks b c -> shrinks a c.
Proof.
  intros (S & H & P & U & O) (S' & H' & P' & U' & O'). split; [|split]; auto; [eapply sim_trans; eauto|]. exists (fun x => P x && P' x). rewrite U', O', U, O, !filter_filter. auto.
Qed.
Lemma remove_shrinks v w : zsorted (w_adj w) -> shrinks w (w_remove v w).
Proof. intros S. split; [|split]; auto; [apply sim_refl|]. exists (fun x => negb (x =? v)). auto. Qed.
Definition is_key (v : Z) (w : walk) : Prop := exists p, find v (w_adj w) = Some p.
Lemma sim_key w w' v : shrinks w w' -> is_key v w -> is_key v w'.
Proof. intros (_ & H & _) [p E]. specialize (H v). rewrite E in H. destruct H as (q & F & _). exists q; auto. Qed.
Lemma step_shrinks v k w : zsorted (w_adj w) -> is_key v w ->
  shrinks w (mkWalk (map_set Z.compare v (swap_to k (adj_at (w_adj w) v)) (w_adj w)) (erase v (w_unseen w)) (erase v (w_open w))).
Proof.
  intros S [p E]. unfold adj_at. rewrite E. split; [|split]; cbn.
  - apply (map_set_sorted Zcompare_total); auto.
  - eapply sim_set; eauto. apply swap_to_same.
  - exists (fun x => negb (x =? v)). auto.
Qed.
Lemma run_spec e s k w : zsorted (w_adj w) -> fst e = s \/ snd e = s -> is_key (fst e) w -> is_key (snd e) w -> exists w', run 2 e s s k w = Some w' /\ shrinks w w'.
Proof.
  intros S He K0 K1. set (o := if fst e =? s then snd e else fst e).
  assert (Ko : is_key o w) by (unfold o; destruct (fst e =? s); auto).
  assert (Ks : is_key s w) by (destruct He; subst; auto).
  assert (S1 := step_shrinks o k w S Ko).
  cbn [run]. fold o. cbn [w_adj w_remove w_unseen w_open]. set (w1 := mkWalk _ _ _) in *. set (de := swap_to k _) in *.
  destruct (snd de <? 0); [exists w1; split; auto|]. destruct (Z.eqb_spec o s) as [Eo|No]; [exists w1; split; auto|].
  assert (Eb : (if fst e =? o then snd e else fst e) = s).
  { unfold o in No |- *. destruct (Z.eqb_spec (fst e) s) as [A|A].
    - destruct (Z.eqb_spec (fst e) (snd e)); [congruence|auto].
    - rewrite Z.eqb_refl. destruct He; auto. contradiction. }
  rewrite Eb. assert (S2 := step_shrinks s (snd de) w1 (proj1 S1) (sim_key _ _ _ S1 Ks)).
  match goal with |- context [if ?b then Some _ else _] => destruct b end; [|rewrite Z.eqb_refl]; eexists; (split; [reflexivity|eapply shrinks_trans; [exact S1|exact S2]]).
Qed.
(** a state of the walk on mesh m *)
Definition good (m : mesh2) (w : walk) : Prop := zsorted (w_adj w) /\ sim (build m) (w_adj w) /\ exists P, w_unseen w = filter P (unseen0 (build m)) /\ w_open w = filter P (open0 (build m)).
Lemma good_shrinks m w w' : good m w -> shrinks w w' -> good m w'.
Proof. intros (S & H & P & U & O) (S' & H' & P' & U' & O'). split; [|split]; auto; [eapply sim_trans; eauto|]. exists (fun x => P x && P' x). rewrite U', O', U, O, !filter_filter. auto. Qed.
Lemma touches_ix m e v : touches m e v -> exists ix, cut_edge_ix m e = Some ix /\ (fst ix = v \/ snd ix = v) /\ touches m e (fst ix) /\ touches m e (snd ix).
Proof.
  intros (L & c & E & M & X). exists (e2_ix c). unfold cut_edge_ix. destruct (Z.ltb_spec e 0); [lia|]. rewrite E. cbn. split; auto. split; auto. split; split; eauto 6.
Qed.
Lemma touches_key m e v w : good m w -> touches m e v -> is_key v w.
Proof.
  intros (_ & H & _) T. apply incident_In in T. specialize (H v). rewrite (proj2 (build_spec m)) in H. destruct (incident m v) as [|a l]; [destruct T|]. cbn in H. destruct H as (q & F & _). exists q. auto.
Qed.
Lemma run_from_spec m w s k : good m w -> touches m k s -> exists w', run_from m s k w = Some w' /\ shrinks w w'.
Proof.
  intros G T. destruct (touches_ix _ _ _ T) as (ix & E & He & T0 & T1). unfold run_from. rewrite E.
  apply run_spec; auto; [apply G|eapply touches_key; eauto|eapply touches_key; eauto].
Qed.
Lemma good_entry m w v : good m w -> is_key v w -> exists x y, find v (build m) = Some (x, y) /\ touches m x v /\ (y = -1 \/ touches m y v) /\ (find v (w_adj w) = Some (x, y) \/ find v (w_adj w) = Some (y, x)).
Proof.
  intros (S & H & _) [q K]. specialize (H v). assert (B := proj2 (build_spec m) v). destruct (find v (build m)) as [[x y]|]; [|congruence].
  destruct H as (q' & F & P). exists x, y. symmetry in B. apply slots_in in B as [Bx By]. split; auto. split; [apply incident_In; auto|]. split; [destruct By; [left; auto|right; apply incident_In; auto]|].
  destruct P as [ -> | -> ]; auto.
Qed.
Lemma unseen_key m w v : good m w -> In v (w_unseen w) -> is_key v w.
Proof.
  intros (S & H & P & U & _) I. rewrite U in I. apply filter_In in I as [I _]. unfold unseen0 in I. apply in_map_iff in I as ([k p] & <- & I). apply (map_find_Some Zcompare_total) in I; [|apply build_spec].
  specialize (H k). cbn in *. rewrite I in H. destruct H as (q & F & _). exists q; auto.
Qed.
Lemma open_unseen m w v : good m w -> In v (w_open w) -> In v (w_unseen w).
Proof.
  intros (_ & _ & P & U & O) I. rewrite U. rewrite O in I. apply filter_In in I as [I J]. apply filter_In. split; auto. unfold open0, unseen0 in *. apply in_map_iff in I as (x & <- & I). apply filter_In in I as [I _]. apply in_map. auto.
Qed.
Lemma filter_le (A : Type) (f : A -> bool) l : (length (filter f l) <= length l)%nat.
Proof. induction l as [|a l IH]; cbn; auto. destruct (f a); cbn; lia. Qed.
Lemma erase_head s l : (length (erase s (s :: l)) <= length l)%nat.
Proof. unfold erase. cbn. rewrite Z.eqb_refl. cbn. apply filter_le. Qed.
Lemma good_remove m s w : good m w -> good m (w_remove s w).
Proof. intros G. eapply good_shrinks; eauto. apply remove_shrinks, G. Qed.
Lemma open_loop_spec m : forall fuel w, good m w -> (length (w_open w) <= fuel)%nat -> exists w', open_loop fuel m w = Some w' /\ good m w' /\ w_open w' = [].
Proof.
  induction fuel as [|f IH]; intros w G L; (destruct (w_open w) as [|s l] eqn:E; [exists w; repeat split; auto; try apply G; cbn; rewrite ?E; auto|]); cbn [length] in L; [lia|].
  cbn [open_loop]. rewrite E. assert (G1 := good_remove m s w G).
  assert (K : is_key s w) by (apply (unseen_key m); auto; apply (open_unseen m); auto; rewrite E; cbn; auto).
  destruct (good_entry m w s G K) as (x & y & B & Tx & Ty & F). cbn zeta.
  assert (T : touches m (if fst (adj_at (w_adj (w_remove s w)) s) =? -1 then snd (adj_at (w_adj (w_remove s w)) s) else fst (adj_at (w_adj (w_remove s w)) s)) s).
  { cbn [w_adj w_remove]. unfold adj_at. destruct F as [ -> | -> ]; cbn [fst snd].
    - destruct (Z.eqb_spec x (-1)); auto. destruct Tx. lia.
    - destruct (Z.eqb_spec y (-1)); auto. destruct Ty; auto. contradiction. }
  destruct (run_from_spec m _ s _ G1 T) as (w2 & R & Sh). rewrite R. apply IH; [eapply good_shrinks; eauto|].
  destruct Sh as (_ & _ & P & _ & O). rewrite O. cbn [w_remove w_open]. rewrite E. etransitivity; [apply filter_le|]. etransitivity; [apply erase_head|]. lia.
Qed.
Lemma unseen_loop_spec m : forall fuel w, good m w -> w_open w = [] -> (length (w_unseen w) <= fuel)%nat -> exists w', unseen_loop fuel m w = Some w' /\ good m w'.
Proof.
  induction fuel as [|f IH]; intros w G O L; (destruct (w_unseen w) as [|s l] eqn:E; [exists w; split; auto; cbn; rewrite E; auto|]); cbn [length] in L; [lia|].
  cbn [unseen_loop]. rewrite E. assert (G1 := good_remove m s w G).
  assert (K : is_key s w) by (apply (unseen_key m); auto; rewrite E; cbn; auto).
  destruct (good_entry m w s G K) as (x & y & B & Tx & Ty & F). cbn zeta.
  assert (T : touches m (fst (adj_at (w_adj (w_remove s w)) s)) s).
  { cbn [w_adj w_remove]. unfold adj_at. destruct F as [ -> | -> ]; cbn [fst snd]; auto. destruct Ty as [ -> |]; auto. exfalso.
    destruct G as (_ & _ & P & U & O'). rewrite O in O'. assert (I : In s (w_unseen w)) by (rewrite E; cbn; auto). rewrite U in I. apply filter_In in I as [I Ps].
    assert (J : In s (filter P (open0 (build m)))); [|rewrite <- O' in J; destruct J]. apply filter_In. split; auto. unfold open0. apply in_map_iff. exists (s, (x, -1)). split; auto. apply filter_In. split; [apply (map_find_Some Zcompare_total); auto; apply build_spec|].
    cbn. apply Bool.orb_true_r. }
  destruct (run_from_spec m _ s _ G1 T) as (w2 & R & Sh). rewrite R.
  destruct (Sh) as (_ & _ & P & U & O2). apply IH; [eapply good_shrinks; eauto| |].
  - rewrite O2. cbn [w_remove w_open]. rewrite O. auto.
  - rewrite U. cbn [w_remove w_unseen]. rewrite E. etransitivity; [apply filter_le|]. etransitivity; [apply erase_head|]. lia.
Qed.
Lemma adjacency_sim m : exists adj, surface_adjacency m = Some adj /\ zsorted adj /\ sim (build m) adj.
Proof.
  unfold surface_adjacency. cbn zeta. set (w0 := mkWalk _ _ _).
  assert (G0 : good m w0). { split; [|split]; [apply build_spec|apply sim_refl|]. exists (fun _ => true). rewrite !filter_true. auto. }
  destruct (open_loop_spec m (length (build m)) w0 G0) as (w1 & R & G1 & O).
  { cbn. unfold open0. rewrite map_length. apply filter_le. }
  rewrite R. destruct (unseen_loop_spec m (length (build m)) w1 G1 O) as (w2 & R2 & G2).
  { destruct G1 as (_ & _ & P & U & _). rewrite U. etransitivity; [apply filter_le|]. unfold unseen0. rewrite map_length. auto. }
  rewrite R2. cbn. exists (w_adj w2). split; auto. split; apply G2.
Qed.

(** ** C90: surface_adjacency terminates on every mesh, dereferences only mesh edges, and gives every end of a mesh edge its first and its last mesh edge, in one order or the other *)
Theorem c90_adjacency m : exists adj, surface_adjacency m = Some adj /\ ssorted Z.compare (map fst adj) /\ forall v,
  ((forall e, ~ touches m e v) -> map_find Z.compare v adj = None) /\
  (forall e t, incident m v = e :: t -> exists p, map_find Z.compare v adj = Some p /\ same_pair (e, last t (-1)) p).
Proof.
  destruct (adjacency_sim m) as (adj & R & S & H). exists adj. split; auto. split; auto. intros v. specialize (H v). rewrite (proj2 (build_spec m)) in H. split.
  - intros N. destruct (incident m v) as [|a l] eqn:E; [auto|]. destruct (N a). apply incident_In. rewrite E. cbn; auto.
  - intros e t E. rewrite E in H. cbn in H. auto.
Qed.
(** on a curve (at most two mesh edges at every vertex) nothing is lost *)
Theorem c90_curve m adj v : surface_adjacency m = Some adj ->
  (forall e, incident m v = [e] -> map_find Z.compare v adj = Some (e, -1) \/ map_find Z.compare v adj = Some (-1, e)) /\
  (forall e f, incident m v = [e; f] -> map_find Z.compare v adj = Some (e, f) \/ map_find Z.compare v adj = Some (f, e)).
Proof.
  intros R. destruct (c90_adjacency m) as (adj' & R' & _ & H). rewrite R in R'. injection R' as <-. destruct (H v) as [_ K].
  split; intros; (destruct (K _ _ H0) as (p & F & P)); rewrite F; cbn in P; destruct P as [ -> | -> ]; auto.
Qed.
(** REFUTED: all the mesh edges at a vertex are kept.  Where three or more meet, only the first and the last are *)
Theorem c90_nonmanifold_refuted m adj v e f g p : surface_adjacency m = Some adj -> incident m v = [e; f; g] -> f <> e -> f <> g ->
  map_find Z.compare v adj = Some p -> fst p <> f /\ snd p <> f.
Proof.
  intros R E N1 N2 F. destruct (c90_adjacency m) as (adj' & R' & _ & H). rewrite R in R'. injection R' as <-. destruct (H v) as [_ K]. destruct (K _ _ E) as (q & F' & P). rewrite F in F'. injection F' as <-.
  cbn in P. destruct P as [ -> | -> ]; cbn; auto.
Qed.
(** the orientation the comments promise: a mesh edge is the second edge of one of its ends and the first of the other *)
Definition oriented (m : mesh2) (adj : adjacency) : Prop :=
  forall e c p q, 0 <= e -> nth_error (m2_edges m) (Z.to_nat e) = Some c -> is_mesh_edge c = true ->
    map_find Z.compare (fst (e2_ix c)) adj = Some p -> map_find Z.compare (snd (e2_ix c)) adj = Some q -> (snd p = e /\ fst q = e) \/ (fst p = e /\ snd q = e).
Definition curve_mesh (es : list edge) : mesh2 := mkMesh2 (0, 0)%Qc (1, 1)%Qc [1; 1] [] (map (fun e => mkEdge2 [None; None] e (MeshEdge 0) None) es) [] (fun _ => false) [] [] [].
Definition triangle : mesh2 := curve_mesh [(0, 1); (1, 2); (2, 0)].
(** REFUTED: the result is oriented.  On a triangle the walk, which always steps along its first edge, leaves edge 0 leaving both its ends and edge 2 entering both, although an orientation exists; on a single open edge both ends are first *)
Theorem c90_orientation_refuted :
  (forall v, touches triangle 0 v \/ touches triangle 1 v \/ touches triangle 2 v -> length (incident triangle v) = 2%nat) /\
  surface_adjacency triangle = Some [(0, (2, 0)); (1, (1, 0)); (2, (2, 1))] /\ ~ oriented triangle [(0, (2, 0)); (1, (1, 0)); (2, (2, 1))] /\
  oriented triangle [(0, (2, 0)); (1, (0, 1)); (2, (1, 2))] /\
  surface_adjacency (curve_mesh [(0, 1)]) = Some [(0, (0, -1)); (1, (0, -1))] /\ ~ oriented (curve_mesh [(0, 1)]) [(0, (0, -1)); (1, (0, -1))].
Proof.
  split; [|split; [|split; [|split; [|split]]]].
  - intros v [T|[T|T]]; destruct T as (_ & c & E & _ & X); cbn in E; injection E as <-; cbn in X; destruct X as [ <- | <- ]; reflexivity.
  - vm_compute. reflexivity.
  - intros O. destruct (O 0 (mkEdge2 [None; None] (0, 1) (MeshEdge 0) None) (2, 0) (1, 0)) as [[_ A]|[A _]]; try reflexivity; discriminate.
  - intros e c p q L E M. destruct (Z.to_nat e) as [|[|[|k]]] eqn:K; cbn in E; [| | |destruct k; discriminate]; injection E as <-; cbn; intros [= <-] [= <-]; cbn; lia.
  - vm_compute. reflexivity.
  - intros O. destruct (O 0 (mkEdge2 [None; None] (0, 1) (MeshEdge 0) None) (0, -1) (0, -1)) as [[A _]|[_ A]]; try reflexivity; discriminate.
Qed.
(** some numberings do come out oriented *)
Example c90_example : let m := curve_mesh [(0, 1); (2, 0); (1, 2)] in exists adj, surface_adjacency m = Some adj /\ oriented m adj /\ incident m 0 = [0; 1].
Proof.
  exists [(0, (1, 0)); (1, (0, 2)); (2, (2, 1))]. split; [vm_compute; reflexivity|split; [|reflexivity]].
  intros e c p q L E M. destruct (Z.to_nat e) as [|[|[|k]]] eqn:K; cbn in E; [| | |destruct k; discriminate]; injection E as <-; cbn; intros [= <-] [= <-]; cbn; lia.
Qed.

(** ** C91: lengths, divergence and Laplacian on the curve *)
Local Open Scope Qc_scope.
Local Arguments Qcplus : simpl never. Local Arguments Qcmult : simpl never. Local Arguments Qcopp : simpl never. Local Arguments Qcminus : simpl never. Local Arguments Qcdiv : simpl never. Local Arguments Qcinv : simpl never.
Definition ind (i e : Z) : Qc := if ((0 <=? i) && (i =? e))%Z%bool then 1 else 0.
Lemma entries_of adj (f : Z * (Z * Z) -> Qc) v p : zsorted adj -> find v adj = Some p -> (forall k q, k <> v -> f (k, q) = 0) -> lsum f adj = f (v, p).
Proof.
  intros S F Z0. apply (map_find_Some Zcompare_total) in F; auto. apply lsum_single; auto.
  - apply (NoDup_map_inv fst), (ssorted_NoDup Zcompare_total); auto.
  - intros [k q] I N. apply Z0. intros ->. apply N. f_equal. apply (map_find_Some Zcompare_total) in I; auto. apply (map_find_Some Zcompare_total) in F; auto. congruence.
Qed.
Lemma entries_none adj (f : Z * (Z * Z) -> Qc) v : zsorted adj -> find v adj = None -> (forall k q, k <> v -> f (k, q) = 0) -> lsum f adj = 0.
Proof.
  intros S F Z0. apply lsum_0. intros [k q] I. apply Z0. intros ->. apply (map_find_Some Zcompare_total) in I; auto. congruence.
Qed.
Lemma dual_length_at len adj v p : zsorted adj -> find v adj = Some p -> surface_dual_length len adj v = (slot len (fst p) + slot len (snd p)) / (1 + 1).
Proof.
  intros S F. unfold surface_dual_length. f_equal. rewrite (entries_of adj _ v p S F); [destruct p; rewrite Z.eqb_refl; auto|]. intros k [a b] N. destruct (Z.eqb_spec k v); [contradiction|auto].
Qed.
Lemma mulTv_boundary adj x v p : zsorted adj -> find v adj = Some p -> mulTv (surface_boundary adj) x v = slot x (snd p) - slot x (fst p).
Proof.
  intros S F. unfold mulTv, surface_boundary. rewrite lsum_flat. rewrite (entries_of adj _ v p S F).
  - destruct p as [a b]. rewrite lsum_app. unfold slot. cbn [fst snd]. destruct (Z.leb_spec 0 a), (Z.leb_spec 0 b); cbn; rewrite ?Z.eqb_refl; ring.
  - intros k [a b] N. rewrite lsum_app. destruct (0 <=? a)%Z, (0 <=? b)%Z; cbn; destruct (Z.eqb_spec k v); try contradiction; ring.
Qed.
Lemma mulv_boundary adj u e : mulv (surface_boundary adj) u e = lsum (fun '(v, (n, p)) => (ind p e - ind n e) * u v) adj.
Proof.
  unfold mulv, surface_boundary. rewrite lsum_flat. apply lsum_ext. intros [v [a b]] _. rewrite lsum_app. unfold ind. destruct (0 <=? a)%Z, (0 <=? b)%Z; cbn; destruct (a =? e)%Z, (b =? e)%Z; ring.
Qed.
Lemma laplacian_sum adj h x e : zsorted adj -> surface_laplacian adj h x e = lsum (fun '(v, (n, p)) => (ind p e - ind n e) * (h v * (slot x p - slot x n))) adj.
Proof.
  intros S. unfold surface_laplacian. rewrite mulv_boundary. apply lsum_ext. intros [v [a b]] I. apply (map_find_Some Zcompare_total) in I; auto. rewrite (mulTv_boundary adj x v (a, b) S I). auto.
Qed.
(** the value the Laplacian at an edge sees across its end: the other edge there, or nothing at an open end *)
Inductive across (m : mesh2) (v e : Z) (x : Z -> Qc) : Qc -> Prop :=
| across_edge f : f <> e -> incident m v = [e; f] \/ incident m v = [f; e] -> across m v e x (x f)
| across_open : incident m v = [e] -> across m v e x 0.
Lemma incident_nonneg m v e : In e (incident m v) -> (0 <= e)%Z. Proof. intros I. apply incident_In in I. apply I. Qed.
Lemma term_at m adj (h : Z -> Qc) x v e y : surface_adjacency m = Some adj -> across m v e x y ->
  exists n p, find v adj = Some (n, p) /\ (ind p e - ind n e) * (h v * (slot x p - slot x n)) = h v * (x e - y) /\ surface_dual_length x adj v = (x e + y) / (1 + 1).
Proof.
  intros R A. destruct (c90_curve m adj v R) as [K1 K2]. assert (S : zsorted adj) by (destruct (c90_adjacency m) as (adj' & R' & S & _); rewrite R in R'; injection R' as <-; auto).
  assert (C : exists f g, (find v adj = Some (e, f) \/ find v adj = Some (f, e)) /\ f <> e /\ (0 <= e)%Z /\ slot x f = y /\ g = f).
  { destruct A as [f N I|I].
    - exists f, f. assert (0 <= e /\ 0 <= f)%Z as [P Q] by (split; apply (incident_nonneg m v); destruct I as [ -> | -> ]; cbn; auto).
      split; [destruct I as [I|I]; destruct (K2 _ _ I); auto|]. repeat split; auto. unfold slot. destruct (Z.leb_spec 0 f); auto; lia.
    - exists (-1)%Z, (-1)%Z. assert (0 <= e)%Z by (apply (incident_nonneg m v); rewrite I; cbn; auto). split; [apply K1; auto|]. repeat split; auto; try lia. }
  destruct C as (f & _ & F & N & P & Y & _). assert (Se : slot x e = x e) by (unfold slot; destruct (Z.leb_spec 0 e); auto; lia).
  assert (Ie : ind e e = 1) by (unfold ind; rewrite Z.eqb_refl; destruct (Z.leb_spec 0 e); auto; lia). assert (If : ind f e = 0) by (unfold ind; destruct (Z.eqb_spec f e); [contradiction|rewrite Bool.andb_false_r; auto]).
  destruct F as [F|F]; [exists e, f|exists f, e]; (split; [auto|split; [|rewrite (dual_length_at x adj v _ S F); cbn [fst snd]]]); rewrite ?Ie, ?If, Se, Y; try ring; f_equal; ring.
Qed.
(** entry e of L x is the sum over the two ends of the edge of (dual length) * (difference with the next edge) *)
Theorem c91_laplacian m adj h x e c y0 y1 : surface_adjacency m = Some adj ->
  (0 <= e)%Z -> nth_error (m2_edges m) (Z.to_nat e) = Some c -> is_mesh_edge c = true -> fst (e2_ix c) <> snd (e2_ix c) ->
  across m (fst (e2_ix c)) e x y0 -> across m (snd (e2_ix c)) e x y1 ->
  surface_laplacian adj h x e = h (fst (e2_ix c)) * (x e - y0) + h (snd (e2_ix c)) * (x e - y1).
Proof.
  intros R L E M N A0 A1. assert (S : zsorted adj) by (destruct (c90_adjacency m) as (adj' & R' & S & _); rewrite R in R'; injection R' as <-; auto).
  set (u := fst (e2_ix c)) in *. set (v := snd (e2_ix c)) in *.
  destruct (term_at m adj h x u e y0 R A0) as (n0 & p0 & F0 & T0 & _). destruct (term_at m adj h x v e y1 R A1) as (n1 & p1 & F1 & T1 & _).
  rewrite laplacian_sum by auto.
  set (g := fun '(w, (n, p)) => (ind p e - ind n e) * (h w * (slot x p - slot x n))).
  rewrite (@lsum_ext _ _ (fun a => (if (fst a =? u)%Z then g a else 0) + (if (fst a =? v)%Z then g a else 0)) adj).
  - rewrite lsum_add. rewrite (entries_of adj _ u _ S F0), (entries_of adj _ v _ S F1); cbn [fst]; rewrite ?Z.eqb_refl.
    + unfold g. rewrite T0, T1. auto.
    + intros k q K. cbn. destruct (Z.eqb_spec k v); [contradiction|auto].
    + intros k q K. cbn. destruct (Z.eqb_spec k u); [contradiction|auto].
  - intros [w [a b]] I. cbn [fst]. assert (F := proj2 (map_find_Some Zcompare_total w (a, b) adj S) I).
    destruct (Z.eqb_spec w u) as [->|Nu]; [destruct (Z.eqb_spec u v); [contradiction|ring]|]. destruct (Z.eqb_spec w v) as [->|Nv]; [ring|].
    assert (X : ind a e = 0 /\ ind b e = 0); [|unfold g; destruct X as [ -> -> ]; ring].
    assert (T : forall i, i = a \/ i = b -> ind i e = 0).
    { intros i Hi. unfold ind. destruct (Z.leb_spec 0 i), (Z.eqb_spec i e); auto. subst i. exfalso.
      assert (I' : In e (incident m w)).
      { destruct (c90_adjacency m) as (adj' & R' & _ & H'). rewrite R in R'. injection R' as <-. destruct (H' w) as [H1 H2]. destruct (incident m w) as [|z l] eqn:Ez.
        - rewrite H1 in F; [discriminate|]. intros e' Te. apply incident_In in Te. rewrite Ez in Te. destruct Te.
        - destruct (H2 _ _ eq_refl) as (q & Fq & Pq). rewrite F in Fq. injection Fq as <-.
          assert (Q : e = z \/ e = last l (-1)%Z) by (destruct Pq as [Pq|Pq]; injection Pq as -> ->; intuition auto).
          destruct Q as [ -> |Q]; [cbn; auto|]. right. destruct l as [|l0 l]; [cbn in Q; lia|]. destruct (@exists_last _ (l0 :: l)) as (l' & zz & El); [discriminate|]. rewrite El in Q |- *. rewrite last_last in Q. subst. apply in_app_iff. cbn; auto. }
      apply incident_In in I'. destruct I' as (_ & c' & E' & _ & X). rewrite E in E'. injection E' as <-. fold u v in X. destruct X; congruence. }
    split; apply T; auto.
Qed.
(** symmetric and, with non-negative lengths, positive semidefinite; ne, nv = numbers of edges and vertices *)
Definition transpose (ts : list triplet) : list triplet := map (fun '(r, c, v) => (c, r, v)) ts.
Lemma transpose_mulv ts x r : mulv (transpose ts) x r = mulTv ts x r.
Proof. unfold mulv, mulTv, transpose. rewrite lsum_map. apply lsum_ext. intros [[a b] v] _. auto. Qed.
Lemma transpose_mulTv ts x r : mulTv (transpose ts) x r = mulv ts x r.
Proof. unfold mulv, mulTv, transpose. rewrite lsum_map. apply lsum_ext. intros [[a b] v] _. auto. Qed.
Lemma mulv_ext' ts x y r : (forall c, x c = y c) -> mulv ts x r = mulv ts y r.
Proof. intros H. unfold mulv. apply lsum_ext. intros t _. rewrite H. auto. Qed.
Lemma laplacian_lap adj h x e : surface_laplacian adj h x e = lap (transpose (surface_boundary adj)) h x e.
Proof.
  unfold surface_laplacian, lap. rewrite transpose_mulTv. apply mulv_ext'. intros c. rewrite transpose_mulv. auto.
Qed.
Lemma entry_touches m adj : surface_adjacency m = Some adj -> forall v a b i, In (v, (a, b)) adj -> i = a \/ i = b -> (0 <= i)%Z -> touches m i v.
Proof.
  intros R. destruct (c90_adjacency m) as (adj' & R' & S & H). rewrite R in R'. injection R' as <-.
  intros v a b i I Hi L. assert (F := proj2 (map_find_Some Zcompare_total v (a, b) adj S) I). destruct (H v) as [H1 H2]. destruct (incident m v) as [|z l] eqn:Ez.
    - rewrite H1 in F; [discriminate|]. intros e' Te. apply incident_In in Te. rewrite Ez in Te. destruct Te.
    - apply incident_In. rewrite Ez. destruct (H2 _ _ eq_refl) as (q & Fq & Pq). rewrite F in Fq. injection Fq as <-.
      assert (Q : i = z \/ i = last l (-1)%Z) by (destruct Pq as [Pq|Pq]; injection Pq as -> ->; intuition auto).
      destruct Q as [ -> |Q]; [cbn; auto|]. right. destruct l as [|l0 l]; [cbn in Q; lia|]. destruct (@exists_last _ (l0 :: l)) as (l' & zz & El); [discriminate|]. rewrite El in Q |- *. rewrite last_last in Q. subst. apply in_app_iff. cbn; auto.
Qed.
Lemma adjacency_range m adj ne nv : surface_adjacency m = Some adj -> ne = Z.of_nat (length (m2_edges m)) -> (forall e v, touches m e v -> (0 <= v < nv)%Z) ->
  Forall (fun t => 0 <= t_row t < nv)%Z (transpose (surface_boundary adj)) /\ Forall (fun t => 0 <= t_col t < ne)%Z (transpose (surface_boundary adj)).
Proof.
  intros R -> HV. assert (Q := entry_touches m adj R).
  assert (A : forall t, In t (transpose (surface_boundary adj)) -> touches m (t_col t) (t_row t)).
  { intros t It. unfold transpose, surface_boundary in It. apply in_map_iff in It as ([[r c] w] & <- & It). apply in_flat_map in It as ([v [a b]] & I & J). apply in_app_iff in J. cbn.
    destruct (Z.leb_spec 0 a), (Z.leb_spec 0 b); cbn in J; repeat match goal with H : _ \/ _ |- _ => destruct H end; try contradiction; match goal with H : _ = _ |- _ => apply pair_equal_spec in H as [H _]; apply pair_equal_spec in H as [ <- <- ] end; eapply Q; eauto. }
  split; apply Forall_forall; intros t It; apply A in It; [eapply HV; eauto|]. destruct It as (L & c & E & _). split; auto. assert (Z.to_nat (t_col t) < length (m2_edges m))%nat by (apply nth_error_Some; congruence). lia.
Qed.
Theorem c91_symmetric_psd m adj ne nv h : surface_adjacency m = Some adj -> ne = Z.of_nat (length (m2_edges m)) -> (forall e v, touches m e v -> (0 <= v < nv)%Z) ->
  (forall x y, lsum (fun e => y e * surface_laplacian adj h x e) (zseq ne) = lsum (fun e => x e * surface_laplacian adj h y e) (zseq ne)) /\
  ((forall v, (0 <= v < nv)%Z -> 0 <= h v) -> forall x, 0 <= lsum (fun e => x e * surface_laplacian adj h x e) (zseq ne)).
Proof.
  intros R E HV. destruct (adjacency_range m adj ne nv R E HV) as [RR CC].
  assert (F : forall x y, lsum (fun e => y e * surface_laplacian adj h x e) (zseq ne) = form nv (transpose (surface_boundary adj)) h x y).
  { intros x y. rewrite (@lsum_ext _ _ (fun e => y e * lap (transpose (surface_boundary adj)) h x e)); [apply lap_form; auto|]. intros e _. rewrite laplacian_lap. auto. }
  split; intros; rewrite !F; [apply form_sym|apply form_psd; auto].
Qed.
(** a closed curve: every vertex of a mesh edge has exactly two *)
Definition closed (m : mesh2) : Prop := forall v, length (incident m v) = 0%nat \/ length (incident m v) = 2%nat.
Lemma closed_entries m adj v a b : closed m -> surface_adjacency m = Some adj -> In (v, (a, b)) adj -> (0 <= a)%Z /\ (0 <= b)%Z.
Proof.
  intros C R I. destruct (c90_adjacency m) as (adj' & R' & S & H). rewrite R in R'. injection R' as <-. assert (F := proj2 (map_find_Some Zcompare_total v (a, b) adj S) I). destruct (c90_curve m adj v R) as [_ K]. destruct (C v) as [L|L].
  - destruct (incident m v) eqn:Ez; [|discriminate]. destruct (H v) as [H1 _]. rewrite H1 in F; [discriminate|]. intros e' Te. apply incident_In in Te. rewrite Ez in Te. destruct Te.
  - destruct (incident m v) as [|e [|f [|]]] eqn:Ez; try discriminate. assert (0 <= e /\ 0 <= f)%Z by (split; apply (incident_nonneg m v); rewrite Ez; cbn; auto).
    destruct (K _ _ eq_refl) as [F'|F']; rewrite F in F'; injection F' as -> ->; tauto.
Qed.
(** constants are in the kernel on closed curves, and what the divergence moves it conserves *)
Theorem c91_closed m adj h : closed m -> surface_adjacency m = Some adj ->
  (forall k e, surface_laplacian adj h (fun _ => k) e = 0) /\
  (forall u, lsum (fun e => surface_divergence adj h u e) (zseq (Z.of_nat (length (m2_edges m)))) = 0).
Proof.
  intros C R. assert (S : zsorted adj) by (destruct (c90_adjacency m) as (adj' & R' & S & _); rewrite R in R'; injection R' as <-; auto). split.
  - intros k e. rewrite laplacian_sum by auto. apply lsum_0. intros [v [a b]] I. destruct (closed_entries m adj v a b C R I) as [A B]. unfold slot. destruct (Z.leb_spec 0 a), (Z.leb_spec 0 b); try lia. ring.
  - intros u. unfold surface_divergence. rewrite (@lsum_ext _ _ (fun e => lsum (fun '(v, (n, p)) => (ind p e - ind n e) * (h v * u v)) adj)); [|intros; apply mulv_boundary].
    rewrite lsum_swap. apply lsum_0. intros [v [a b]] I. destruct (closed_entries m adj v a b C R I) as [A B].
    assert (V : forall i, i = a \/ i = b -> In i (zseq (Z.of_nat (length (m2_edges m))))).
    { intros i Hi. destruct (entry_touches m adj R v a b i I Hi) as (L & c & E & _); [destruct Hi; subst; auto|]. apply zseq_in. assert (Z.to_nat i < length (m2_edges m))%nat by (apply nth_error_Some; congruence). lia. }
    rewrite (@lsum_ext _ _ (fun e => h v * u v * ind b e + (- (h v * u v)) * ind a e)) by (intros; ring). rewrite lsum_add, !lsum_scale.
    assert (One : forall i, i = a \/ i = b -> lsum (ind i) (zseq (Z.of_nat (length (m2_edges m)))) = 1).
    { intros i Hi. rewrite (@lsum_single _ _ _ i); [|apply zseq_nodup|auto|intros j _ N; unfold ind; destruct (Z.eqb_spec i j); [congruence|rewrite Bool.andb_false_r; auto]].
      unfold ind. rewrite Z.eqb_refl. destruct (Z.leb_spec 0 i); auto. destruct Hi; subst; lia. }
    rewrite !One by auto. ring.
Qed.
(** REFUTED: the divergence of a constant flow along a closed curve vanishes *)
Theorem c91_divergence_refuted : closed triangle /\ exists adj, surface_adjacency triangle = Some adj /\
  map (fun e => this (surface_divergence adj (fun _ => 1) (fun _ => 1) e)) [0; 1; 2]%Z = [2 # 1; 0; (-2) # 1]%Q.
Proof.
  split.
  - intros v. unfold incident. change (mesh_edges triangle) with [(0, (0, 1)); (1, (1, 2)); (2, (2, 0))]%Z. cbn [flat_map]. destruct (Z.eqb_spec 0 v); [subst; cbn; auto|]. destruct (Z.eqb_spec 1 v); [subst; cbn; auto|]. destruct (Z.eqb_spec 2 v); cbn; auto.
  - exists [(0, (2, 0)); (1, (1, 0)); (2, (2, 1))]%Z. split; vm_compute; reflexivity.
Qed.
(** every vertex carries half the length of its edges; on a curve these add up to the length of the curve *)
Theorem c91_dual_lengths m adj len : surface_adjacency m = Some adj -> (forall v, length (incident m v) <= 2)%nat ->
  (forall v, surface_dual_length len adj v = lsum len (incident m v) / (1 + 1)) /\
  lsum (fun '(v, _) => surface_dual_length len adj v) adj = lsum (fun '(e, _) => len e) (mesh_edges m).
Proof.
  intros R CV. destruct (c90_adjacency m) as (adj' & R' & S & H). rewrite R in R'. injection R' as <-.
  assert (A : forall v, surface_dual_length len adj v = lsum len (incident m v) / (1 + 1)).
  { intros v. destruct (c90_curve m adj v R) as [K1 K2]. destruct (H v) as [H1 _]. specialize (CV v).
    assert (NN : forall i, In i (incident m v) -> slot len i = len i) by (intros i Ii; assert (Li := incident_nonneg m v i Ii); unfold slot; destruct (Z.leb_spec 0 i); auto; lia).
    destruct (incident m v) as [|e [|f [|]]] eqn:Ez; [| | |cbn in CV; lia].
    - unfold surface_dual_length. rewrite (entries_none adj _ v S); [reflexivity|apply H1; intros e' Te; apply incident_In in Te; rewrite Ez in Te; destruct Te|]. intros k [a b] N. destruct (Z.eqb_spec k v); [contradiction|auto].
    - destruct (K1 _ eq_refl) as [F|F]; rewrite (dual_length_at len adj v _ S F); cbn [fst snd lsum]; rewrite (NN e) by (cbn; auto); f_equal; unfold slot; cbn; ring.
    - destruct (K2 _ _ eq_refl) as [F|F]; rewrite (dual_length_at len adj v _ S F); cbn [fst snd lsum]; rewrite !NN by (cbn; auto); f_equal; ring. }
  split; auto. rewrite (@lsum_ext _ _ (fun '(v, p) => / (1 + 1) * lsum len (incident m v))); [|intros [v p] _; rewrite A; unfold Qcdiv; ring].
  assert (W : lsum (fun '(v, p) => lsum len (incident m v)) adj = (1 + 1) * lsum (fun '(e, _) => len e) (mesh_edges m)).
  { unfold incident. rewrite (@lsum_ext _ _ (fun vp => lsum (fun '(i, (a, b)) => (if (a =? fst vp)%Z then len i else 0) + (if (b =? fst vp)%Z then len i else 0)) (mesh_edges m))).
    - rewrite lsum_swap. rewrite <- lsum_scale. apply lsum_ext. intros [i [a b]] I. rewrite lsum_add.
      assert (Q : forall w, touches m i w -> lsum (fun vp : Z * (Z * Z) => if (w =? fst vp)%Z then len i else 0) adj = len i).
      { intros w T. apply incident_In in T. destruct (incident m w) as [|z l] eqn:Ez; [destruct T|]. destruct (H w) as [_ H2]. destruct (H2 _ _ Ez) as (q & F & _). rewrite (entries_of adj _ w q S F); cbn; [rewrite Z.eqb_refl; auto|]. intros k _ N. cbn. destruct (Z.eqb_spec w k); congruence. }
      apply mesh_edges_In in I as (L & c & E & M & X). rewrite !Q; [ring| |]; (split; [auto|]); exists c; rewrite X; cbn; auto.
    - intros [v p] _. rewrite lsum_flat. cbn [fst]. apply lsum_ext. intros [i [a b]] _. rewrite lsum_app. destruct (a =? v)%Z, (b =? v)%Z; cbn; ring. }
  rewrite (@lsum_ext _ _ (fun vp => / (1 + 1) * (let '(v, p) := vp in lsum len (incident m v)))); [|intros [v p] _; auto]. rewrite lsum_scale.
  rewrite W. rewrite Qcmult_assoc. rewrite (Qcmult_comm (/ _)), Qcmult_inv_r by discriminate. ring.
Qed.
(** non-vacuity: an open chain of two edges of lengths 1 and 3 *)
Example c91_example : let m := curve_mesh [(5, 7); (7, 9)]%Z in exists adj, surface_adjacency m = Some adj /\
  map (fun v => this (surface_dual_length (fun e => if (e =? 0)%Z then 1 else 1 + 1 + 1) adj v)) [5; 7; 9; 8]%Z = [1 # 2; 2 # 1; 3 # 2; 0]%Q /\
  across m 7 0 (fun e => Z2Qc e) 1 /\ across m 5 0 (fun e => Z2Qc e) 0 /\ map this (map (surface_laplacian adj (fun _ => 1) (fun e => Z2Qc e)) [0; 1]%Z) = [(-1) # 1; 2 # 1]%Q.
Proof.
  exists [(5, (-1, 0)); (7, (1, 0)); (9, (-1, 1))]%Z. split; [vm_compute; reflexivity|]. split; [vm_compute; reflexivity|].
  split; [|split; [apply across_open; reflexivity|vm_compute; reflexivity]]. change 1 with (Z2Qc 1). apply (across_edge _ _ _ (fun e => Z2Qc e) 1%Z); [discriminate|left; reflexivity].
Qed.
