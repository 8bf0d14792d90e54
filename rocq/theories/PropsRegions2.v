(** C107: region labels of a 2D cut-cell mesh. *)
From Coq Require Import Relations.
From Verif Require Import Base Num CoordMask Vertex Grid SmallestEdge AdaptiveGrid Mesh ExteriorGrid ExteriorProofs Sparse Mesh2 DisjointSet DisjointSetSpec DisjointSetProofs PropsCollapse
  CellCollapser FaceCollapserIds Regions Surface2 ExternalBoundary Gen2 PropsExterior PropsMesh2 PropsRegions PropsGen2 Regions2.
Set Implicit Arguments.
Local Open Scope Z_scope.

(** ** Specification *)
(** the number of the exterior grid cell c among the cells of the mesh *)
Definition ext_id (m : mesh2) (c : coord) : Z := num_cutfaces m + ext_cell_index (m2_cells m) (m2_mask m) c.
(** cut edge e is not part of the input *)
Definition open_edge (m : mesh2) (e : Z) (x : cut_edge2) : Prop := is_edge m e x /\ (forall i, e2_id x <> MeshEdge i).
(** two cells touch through an edge that is not an input edge *)
Inductive touch2 (m : mesh2) : Z -> Z -> Prop :=
| t2_cut f g e s s' x : bounds m f e s -> bounds m g e s' -> open_edge m e x -> touch2 m f g
| t2_ext f e s x o b : bounds m f e s -> open_edge m e x -> e2_ext x = Some (o, b) -> 0 <= o -> touch2 m f (ext_id m (unravel (m2_cells m) o))
| t2_exts c d : exterior (m2_cells m) (m2_mask m) c -> exterior (m2_cells m) (m2_mask m) (step c d) -> (d < length (m2_cells m))%nat ->
    touch2 m (ext_id m c) (ext_id m (step c d)).
Definition linked2 (m : mesh2) : Z -> Z -> Prop := connected (touch2 m).
(** cell i has label k, as regions() reports it *)
Definition has_region (m : mesh2) (i k : Z) : Prop := 0 <= i /\ nth_error (regions2 m) (Z.to_nat i) = Some k.
(** c is an exterior cell at the side of the domain *)
Definition border_cell (m : mesh2) (c : coord) : Prop := exterior (m2_cells m) (m2_mask m) c /\
  exists d, (d < length (m2_cells m))%nat /\ (at0 c d = 0 \/ at0 c d = at0 (m2_cells m) d - 1).

(** ** Union-find with all nodes added first *)
Lemma Some_inj (A : Type) (x y : A) : Some x = Some y -> x = y. Proof. congruence. Qed.
Section G.
  Variable N : nat.
  Variable J : list (Z * Z).
  Hypothesis JN : forall a b, In (a, b) J -> 0 <= a < Z.of_nat N /\ 0 <= b < Z.of_nat N.
  Variable lnk : ds -> Z -> Z -> bool.
  Definition gops : list ds_op := map OpAdd (zrange 0 N) ++ join_ops J.
  Lemma added_joins l x : ~ added (join_ops l) x.
  Proof. induction l as [|[a b] l IH]; simpl; auto. Qed.
  Lemma added_adds x : added (map OpAdd (zrange 0 N)) x <-> 0 <= x < Z.of_nat N.
  Proof.
    rewrite <- (Z.add_0_l (Z.of_nat N)), <- zrange_In. generalize (zrange 0 N). induction l as [|y l IH]; simpl; [tauto|]. rewrite IH. split; intros [H|H]; auto.
  Qed.
  Lemma added_gops x : added gops x <-> 0 <= x < Z.of_nat N.
  Proof. unfold gops. rewrite added_app, added_adds. split; [intros [H|H]; auto; destruct (added_joins _ _ H)|auto]. Qed.
  Lemma joined_gops a b : joined gops a b <-> In (a, b) J.
  Proof.
    split.
    - intros (p & q & E & _). assert (I : In (OpJoin a b) gops) by (rewrite E; apply in_or_app; simpl; auto). unfold gops in I. apply in_app_or in I as [I|I].
      + apply in_map_iff in I as (? & [=] & _).
      + unfold join_ops in I. apply in_map_iff in I as ((x & y) & [=] & I). subst. auto.
    - intros I. destruct (JN _ _ I) as [Ha Hb]. apply in_split in I as (l1 & l2 & E). exists (map OpAdd (zrange 0 N) ++ join_ops l1), (join_ops l2). split.
      + unfold gops. rewrite E. unfold join_ops. rewrite map_app. simpl. rewrite <- app_assoc. reflexivity.
      + rewrite !added_app, !added_adds. auto.
  Qed.
  Lemma conn_gops a b : connected (joined gops) a b <-> connected (fun x y => In (x, y) J) a b.
  Proof.
    split; intros H; induction H; [apply rst_step, joined_gops; auto|apply rst_refl|apply rst_sym; auto|eapply rst_trans; eauto|apply rst_step, joined_gops; auto|apply rst_refl|apply rst_sym; auto|eapply rst_trans; eauto].
  Qed.
  Lemma groots a b : 0 <= a < Z.of_nat N -> 0 <= b < Z.of_nat N ->
    (root_of (ds_run lnk gops) a = root_of (ds_run lnk gops) b <-> connected (fun x y => In (x, y) J) a b).
  Proof.
    intros Ha Hb. rewrite <- conn_gops. destruct (c23_same_root_iff_connected lnk gops) as (R1 & _ & R3 & _).
    apply added_gops in Ha, Hb. rewrite <- (R3 a b Ha Hb). unfold root_of. apply R1 in Ha as (x & Ex). apply R1 in Hb as (y & Ey). rewrite Ex, Ey. split; congruence.
  Qed.
  Lemma groot_range a : 0 <= a < Z.of_nat N -> 0 <= root_of (ds_run lnk gops) a.
  Proof.
    intros Ha. destruct (c23_same_root_iff_connected lnk gops) as (R1 & R2 & _). apply added_gops in Ha. apply R1 in Ha as (x & Ex). unfold root_of. rewrite Ex. apply R2 in Ex as [Ex _]. apply added_gops in Ex. lia.
  Qed.
End G.

(** the renumbering without a reserved label starts with the first root *)
Lemma re_unreserved out x L : x <> out -> ~ In out L -> fold_left (reindex_step out) (x :: L) [] = fold_left (reindex_step x) L (map_set Z.compare x 0 []).
Proof.
  intros NX NL. simpl. unfold reindex_step at 2. rewrite (proj2 (Z.eqb_neq x out)) by auto. simpl map_find. cbn [length Z.of_nat].
  assert (G : forall L re, ssorted Z.compare (keys re) -> In x (keys re) -> ~ In out L -> fold_left (reindex_step out) L re = fold_left (reindex_step x) L re).
  { clear. induction L as [|y L IH]; intros re S Hx NL; auto. simpl. assert (E : reindex_step out re y = reindex_step x re y).
    { unfold reindex_step. rewrite (proj2 (Z.eqb_neq y out)) by (intros ->; apply NL; simpl; auto). destruct (Z.eqb_spec y x) as [ -> |N]; auto.
      destruct (map_find Z.compare x re) eqn:F; auto. apply (map_find_None Zcompare_total) in F; auto. contradiction. }
    rewrite E. apply IH; [| |intros H; apply NL; simpl; auto].
    - unfold reindex_step. destruct (y =? x); auto. destruct (map_find _ _ _); auto. apply (map_set_sorted Zcompare_total); auto.
    - unfold reindex_step. destruct (y =? x); auto. destruct (map_find _ _ _); auto. rewrite map_set_keys, (set_insert_In Zcompare_total). auto. }
  apply G; auto. - repeat constructor. - simpl. auto.
Qed.

Section M.
  Variable m : mesh2.
  Hypothesis OK : incidence_ok m.
  Notation ncf := (num_cutfaces m).
  Notation shape := (m2_cells m).
  Notation mask := (m2_mask m).
  Definition fjoins : list (Z * Z) := flat_map (fun '(cid, es) => flat_map (fun '(eid, _) =>
    match nth_error (m2_edges m) (Z.to_nat eid) with Some e => if is_mesh_edge e then [] else [(cid, eid + ncells2 m)] | None => [] end) es) (m2_fbm m).
  Lemma face_joins_eq : face_joins m = Some fjoins.
  Proof.
    unfold face_joins, fjoins. assert (HE := ok_edges _ OK).
    assert (G : forall (fbm : list (Z * list (Z * bool))) (acc : list (Z * Z)), (forall f es e s, In (f, es) fbm -> In (e, s) es -> 0 <= e < num_cutedges m) ->
      fold_left (fun acc '(cid, es) => fold_left (fun acc '(eid, _) => if eid <? 0 then acc else match acc, nth_error (m2_edges m) (Z.to_nat eid) with
        | Some l, Some e => Some (if is_mesh_edge e then l else l ++ [(cid, eid + ncells2 m)]) | _, _ => None end) es acc) fbm (Some acc) =
      Some (acc ++ flat_map (fun '(cid, es) => flat_map (fun '(eid, _) =>
        match nth_error (m2_edges m) (Z.to_nat eid) with Some e => if is_mesh_edge e then [] else [(cid, eid + ncells2 m)] | None => [] end) es) fbm)).
    { induction fbm as [|[f es] fbm IH]; intros acc HB; [simpl; rewrite app_nil_r; auto|]. cbn [fold_left flat_map].
      assert (K : forall (es : list (Z * bool)) (acc : list (Z * Z)), (forall e s, In (e, s) es -> 0 <= e < num_cutedges m) ->
        fold_left (fun acc '(eid, _) => if eid <? 0 then acc else match acc, nth_error (m2_edges m) (Z.to_nat eid) with
          | Some l, Some e => Some (if is_mesh_edge e then l else l ++ [(f, eid + ncells2 m)]) | _, _ => None end) es (Some acc) =
        Some (acc ++ flat_map (fun '(eid, _) => match nth_error (m2_edges m) (Z.to_nat eid) with Some e => if is_mesh_edge e then [] else [(f, eid + ncells2 m)] | None => [] end) (es : list (Z * bool)))).
      { clear. induction es as [|[e s] es IH]; intros acc HB; [simpl; rewrite app_nil_r; auto|]. cbn [fold_left flat_map].
        assert (R : 0 <= e < num_cutedges m) by (apply (HB e s); simpl; auto). rewrite (proj2 (Z.ltb_ge e 0)) by lia.
        destruct (nth_error (m2_edges m) (Z.to_nat e)) eqn:E; [|apply nth_error_None in E; unfold num_cutedges in R; lia].
        rewrite IH by (intros; eapply HB; simpl; eauto). destruct (is_mesh_edge c); auto. rewrite app_assoc. reflexivity. }
      rewrite K by (intros; eapply HB; simpl; eauto). rewrite IH by (intros; eapply HB; simpl; eauto). rewrite app_assoc. reflexivity. }
    apply G. intros f es e s H1 H2. destruct (HE f es H1) as (_ & _ & H). eapply H; eauto.
  Qed.
  Definition mjoins : list (Z * Z) := facet_joins m ++ fjoins ++ ext_joins m.
  Definition nn : nat := Z.to_nat (ncells2 m + num_cutedges m).
  Lemma ops_eq : region_ops2 m = Some (gops nn mjoins).
  Proof. unfold region_ops2. rewrite face_joins_eq. reflexivity. Qed.
  Definition enode (e : Z) : Z := e + ncells2 m.
  Lemma counts : 0 <= ncf /\ 0 <= ext_cells m /\ ncells2 m = ext_cells m + ncf /\ 0 <= num_cutedges m /\ Z.of_nat nn = ncells2 m + num_cutedges m.
  Proof.
    assert (0 <= ncf) by (unfold num_cutfaces; lia). assert (0 <= num_cutedges m) by (unfold num_cutedges; lia).
    assert (0 <= ext_cells m). { unfold ext_cells. destruct (c33_index_bijection shape mask) as (E & _). lia. }
    unfold nn, ncells2, num_faces2. lia.
  Qed.
  Lemma ext_id_range c : exterior shape mask c -> ncf <= ext_id m c < ncells2 m.
  Proof. intros H. destruct (c33_index_bijection shape mask) as (_ & E & _). apply E in H as [H _]. unfold ext_id, ncells2, num_faces2, ext_cells. lia. Qed.
  Lemma cell_ix_ext c : exterior shape mask c -> cell_ix shape mask c + ncf = ext_id m c.
  Proof. intros [H _]. unfold ext_id, ext_cell_index. rewrite H. simpl. lia. Qed.
  Lemma is_mesh_open x : is_mesh_edge x = false <-> forall i, e2_id x <> MeshEdge i.
  Proof. unfold is_mesh_edge. destruct (e2_id x) as [k|]; split; intros H; try discriminate; auto. exfalso. apply (H k); auto. Qed.
  Lemma joins_In a b : In (a, b) mjoins <->
    (exists c d, exterior shape mask c /\ exterior shape mask (step c d) /\ (d < length shape)%nat /\ a = ext_id m c /\ b = ext_id m (step c d)) \/
    (exists e s x, bounds m a e s /\ open_edge m e x /\ b = enode e) \/
    (exists e x o s, is_edge m e x /\ e2_ext x = Some (o, s) /\ 0 <= o /\ a = enode e /\ b = ext_id m (unravel shape o)).
  Proof.
    unfold mjoins. rewrite !in_app_iff.
    assert (R : forall P Q P' Q' S S' : Prop, (P <-> P') -> (Q <-> Q') -> (S <-> S') -> (P \/ Q \/ S <-> P' \/ Q' \/ S')) by tauto. apply R; clear R.
    - unfold facet_joins. rewrite in_flat_map. split.
      + intros ((x & y) & H & E). destruct ((0 <=? x) && (0 <=? y)) eqn:C; [|destruct E]. destruct E as [E|[]]. injection E as <- <-. apply andb_true_iff in C as [C1 C2].
        unfold facet_pairs in H. apply in_map_iff in H as ((d & p) & EP & H). simpl in EP. subst p. apply c34_facets_exact in H as [Hd [(c & H1 & H2 & -> & ->)|[(-> & _)|(_ & -> & _)]]]; try discriminate.
        exists c, d. repeat (split; auto); unfold ext_id; lia.
      + intros (c & d & H1 & H2 & Hd & -> & ->). exists (ext_cell_index shape mask c, ext_cell_index shape mask (step c d)). split.
        * unfold facet_pairs. apply in_map_iff. exists (d, (ext_cell_index shape mask c, ext_cell_index shape mask (step c d))). split; auto. apply c34_facets_exact. split; auto. left. eauto.
        * destruct (c33_index_bijection shape mask) as (_ & E & _). apply E in H1 as [H1 _]. apply E in H2 as [H2 _]. rewrite (proj2 (Z.leb_le 0 _)), (proj2 (Z.leb_le 0 _)) by lia. simpl. left. unfold ext_id. f_equal; lia.
    - unfold fjoins. rewrite in_flat_map. split.
      + intros ((f & es) & H1 & H2). apply in_flat_map in H2 as ((e & s) & H2 & H3). destruct (nth_error (m2_edges m) (Z.to_nat e)) as [x|] eqn:EX; [|destruct H3]. destruct (is_mesh_edge x) eqn:EM; [destruct H3|]. destruct H3 as [H3|[]]. injection H3 as <- <-.
        exists e, s, x. split; [exists es; auto|]. split; [|reflexivity]. split; [|apply is_mesh_open; auto]. split; auto. destruct (ok_edges _ OK _ _ H1) as (_ & _ & R). apply R in H2. lia.
      + intros (e & s & x & (es & H1 & H2) & [[H3 H4] H5] & ->). exists (a, es). split; auto. apply in_flat_map. exists (e, s). split; auto. rewrite H4. rewrite (proj2 (is_mesh_open x)) by auto. simpl. auto.
    - unfold ext_joins. rewrite in_flat_map. split.
      + intros ((e & x) & H1 & H2). apply enum_In in H1. destruct (e2_ext x) as [(o & s)|] eqn:EX; [|destruct H2]. destruct (Z.leb_spec 0 o); [|destruct H2]. destruct H2 as [H2|[]]. injection H2 as <- <-.
        exists e, x, o, s. repeat (split; [solve [auto; apply H1]|]). rewrite cell_ix_ext; auto. destruct H1 as [_ H1]. apply nth_error_In in H1. eapply (ok_ext _ OK); eauto.
      + intros (e & x & o & s & H1 & H2 & H3 & -> & ->). exists (e, x). split; [apply enum_In; auto|]. rewrite H2, (proj2 (Z.leb_le 0 o)) by auto. rewrite cell_ix_ext; [left; reflexivity|]. destruct H1 as [_ H1]. apply nth_error_In in H1. eapply (ok_ext _ OK); eauto.
  Qed.
  Lemma is_edge_node e x : is_edge m e x -> ncells2 m <= enode e < Z.of_nat nn.
  Proof. intros H. apply is_edge_range in H. destruct counts as (? & ? & ? & ? & ?). unfold enode. lia. Qed.
  Lemma bounds_range f e s : bounds m f e s -> 0 <= f < ncf.
  Proof. intros (es & H & _). destruct (ok_edges _ OK _ _ H) as (_ & H' & _). auto. Qed.
  Lemma ext_of e x o s : is_edge m e x -> e2_ext x = Some (o, s) -> 0 <= o -> exterior shape mask (unravel shape o).
  Proof. intros [_ H1] H2 H3. apply nth_error_In in H1. eapply (ok_ext _ OK); eauto. Qed.
  Lemma joins_range a b : In (a, b) mjoins -> 0 <= a < Z.of_nat nn /\ 0 <= b < Z.of_nat nn.
  Proof.
    destruct counts as (C1 & C2 & C3 & C4 & C5). intros H. apply joins_In in H as [(c & d & H1 & H2 & _ & -> & ->)|[(e & s & x & H1 & [H2 _] & ->)|(e & x & o & s & H1 & H2 & H3 & -> & ->)]].
    - apply ext_id_range in H1, H2. lia.
    - apply bounds_range in H1. apply is_edge_node in H2. lia.
    - assert (H4 := ext_of H1 H2 H3). apply is_edge_node in H1. apply ext_id_range in H4. lia.
  Qed.
  (** the cells behind a node *)
  Definition behind2 (x c : Z) : Prop :=
    (x = c /\ 0 <= c < ncells2 m) \/
    exists e y, is_edge m e y /\ x = enode e /\
      ((exists s, bounds m c e s /\ open_edge m e y) \/ exists o s, e2_ext y = Some (o, s) /\ 0 <= o /\ c = ext_id m (unravel shape o)).
  Lemma behind2_unique x c c' : (forall e y, is_edge m e y -> x = enode e -> open_edge m e y \/ c = c') -> behind2 x c -> behind2 x c' -> linked2 m c c'.
  Proof.
    intros HO [[-> Hc]|(e & y & He & Hx & B)] [[<- Hc']|(e' & y' & He' & Hx' & B')].
    - apply rst_refl.
    - apply is_edge_node in He'. lia.
    - apply is_edge_node in He. lia.
    - assert (e = e') as <- by (unfold enode in *; lia). assert (y = y') as <- by (destruct He as [_ He], He' as [_ He']; congruence).
      destruct (HO e y He Hx) as [OE| -> ]; [|apply rst_refl].
      destruct B as [(s & B1 & _)|(o & s & B1 & B2 & ->)], B' as [(s' & B1' & _)|(o' & s' & B1' & B2' & ->)].
      + apply rst_step. eapply t2_cut; eauto.
      + apply rst_step. eapply t2_ext; eauto.
      + apply rst_sym, rst_step. eapply t2_ext; eauto.
      + assert (o = o') by congruence. subst. apply rst_refl.
  Qed.
  Lemma behind2_linked x c c' : behind2 x c -> behind2 x c' -> linked2 m c c'.
  Proof.
    intros B B'. apply (@behind2_unique x); auto. intros e y He Hx.
    destruct (is_mesh_edge y) eqn:EM; [|left; split; auto; apply is_mesh_open; auto]. right.
    assert (K : forall k, behind2 x k -> exists o s, e2_ext y = Some (o, s) /\ k = ext_id m (unravel shape o)).
    { intros k [[-> Hk]|(e' & y' & He' & Hx' & BB)]; [apply is_edge_node in He; lia|]. assert (e = e') as <- by (unfold enode in *; lia). assert (y = y') as <- by (destruct He as [_ He], He' as [_ He']; congruence).
      destruct BB as [(s & _ & [_ O])|(o & s & E1 & _ & E2)]; [apply is_mesh_open in O; congruence|eauto]. }
    destruct (K c B) as (o & s & E1 & ->), (K c' B') as (o' & s' & E2 & ->). congruence.
  Qed.
  Lemma joins_behind a b : In (a, b) mjoins -> exists ca cb, behind2 a ca /\ behind2 b cb /\ linked2 m ca cb.
  Proof.
    destruct counts as (C1 & C2 & C3 & C4 & C5). intros H. apply joins_In in H as [(c & d & H1 & H2 & Hd & -> & ->)|[(e & s & x & H1 & H2 & ->)|(e & x & o & s & H1 & H2 & H3 & -> & ->)]].
    - exists (ext_id m c), (ext_id m (step c d)). assert (R1 := ext_id_range H1). assert (R2 := ext_id_range H2). split; [left; split; [auto|lia]|]. split; [left; split; [auto|lia]|]. apply rst_step, t2_exts; auto.
    - assert (R := bounds_range H1). exists a, a. split; [left; split; [auto|lia]|]. split; [|apply rst_refl]. right. exists e, x. split; [apply H2|]. split; auto. left. eauto.
    - assert (R := ext_id_range (ext_of H1 H2 H3)). exists (ext_id m (unravel shape o)), (ext_id m (unravel shape o)). split; [right; exists e, x; split; auto; split; auto; right; eauto|]. split; [left; split; [auto|lia]|apply rst_refl].
  Qed.
  Notation jn := (fun x y => In (x, y) mjoins).
  Lemma conn_behind2 a b : connected jn a b -> a = b \/ exists ca cb, behind2 a ca /\ behind2 b cb /\ linked2 m ca cb.
  Proof.
    induction 1 as [a b H|a|a b H IH|a b c H1 IH1 H2 IH2].
    - right. apply joins_behind; auto.
    - auto.
    - destruct IH as [ -> |(x & y & ? & ? & ?)]; auto. right. exists y, x. repeat split; auto. apply rst_sym; auto.
    - destruct IH1 as [ -> |(x & y & B1 & B2 & K1)]; auto. destruct IH2 as [ <- |(y' & z & B3 & B4 & K2)]; [right; eauto|]. right. exists x, z. repeat split; auto. eapply rst_trans; [exact K1|]. eapply rst_trans; [eapply behind2_linked; eauto|auto].
  Qed.
  Lemma touch_conn a b : touch2 m a b -> connected jn a b.
  Proof.
    intros [f g e s s' x H1 H2 H3|f e s x o b' H1 H2 H3 H4|c d H1 H2 Hd].
    - eapply rst_trans; [apply rst_step; apply joins_In; right; left; exists e, s, x; eauto|]. apply rst_sym, rst_step, joins_In. right; left; exists e, s', x; auto.
    - eapply rst_trans; [apply rst_step; apply joins_In; right; left; exists e, s, x; eauto|]. apply rst_step, joins_In. right; right. exists e, x, o, b'. split; [apply H2|auto].
    - apply rst_step, joins_In. left. exists c, d. auto.
  Qed.
  Lemma conn_cells a b : 0 <= a < ncells2 m -> 0 <= b < ncells2 m -> (connected jn a b <-> linked2 m a b).
  Proof.
    intros Ha Hb. split; intros H.
    - apply conn_behind2 in H as [ -> |(ca & cb & B1 & B2 & K)]; [apply rst_refl|]. eapply rst_trans; [|eapply rst_trans; [exact K|]].
      + eapply behind2_linked; [|exact B1]. left; auto.
      + eapply behind2_linked; [exact B2|]. left; auto.
    - clear -H OK. induction H; [apply touch_conn; auto|apply rst_refl|apply rst_sym; auto|eapply rst_trans; eauto].
  Qed.
  Variable lnk : ds -> Z -> Z -> bool.
  Notation d := (ds_run lnk (gops nn mjoins)).
  Lemma roots2 a b : 0 <= a < ncells2 m -> 0 <= b < ncells2 m -> (root_of d a = root_of d b <-> linked2 m a b).
  Proof. intros Ha Hb. destruct counts as (C1 & C2 & C3 & C4 & C5). rewrite groots by (try exact joins_range; lia). apply conn_cells; auto. Qed.
  Lemma root2_nonneg a : 0 <= a < ncells2 m -> 0 <= root_of d a.
  Proof. intros Ha. destruct counts as (C1 & C2 & C3 & C4 & C5). apply (@groot_range nn mjoins); lia. Qed.
End M.

(** ** the border of the domain *)
Definition on_border (p : Z * Z) : Prop := fst p = -2 \/ snd p = -2.
Lemma pair_facet m a b : In (a, b) (facet_pairs (m2_cells m) (m2_mask m)) -> on_border (a, b) ->
  exists c, border_cell m c /\ ((a = -2 /\ b = ext_cell_index (m2_cells m) (m2_mask m) c) \/ (a <> -2 /\ b = -2 /\ a = ext_cell_index (m2_cells m) (m2_mask m) c)).
Proof.
  intros H HB. assert (IX := c33_index_bijection (m2_cells m) (m2_mask m)). destruct IX as (_ & IX & _).
  unfold facet_pairs in H. apply in_map_iff in H as ((d & p) & E & H). simpl in E. subst p. apply c34_facets_exact in H as [Hd [(c & H1 & H2 & -> & ->)|[(-> & c & H1 & H2 & ->)|(L & -> & c & H1 & H2 & ->)]]].
  - apply IX in H1, H2. destruct HB as [HB|HB]; simpl in HB; lia.
  - exists c. split; [split; auto; exists d; auto|]. auto.
  - exists c. split; [split; auto; exists d; auto|]. right. apply IX in H1. split; [lia|auto].
Qed.
Lemma border_pair m c : border_cell m c -> exists p, In p (facet_pairs (m2_cells m) (m2_mask m)) /\ on_border p.
Proof.
  intros [HE (d & Hd & H)]. unfold facet_pairs. set (x := ext_cell_index (m2_cells m) (m2_mask m) c).
  assert (K : at0 c d = 0 \/ (2 <= at0 (m2_cells m) d /\ at0 c d = at0 (m2_cells m) d - 1)).
  { destruct H as [H|H]; auto. destruct HE as [HE _]. apply in_shape_pt in HE as [_ HE]. specialize (HE d Hd). lia. }
  destruct K as [K|[K1 K2]].
  - exists (-2, x). split; [|left; auto]. apply in_map_iff. exists (d, (-2, x)). split; auto. apply c34_facets_exact. split; auto. right; left. split; auto. exists c. auto.
  - exists (x, -2). split; [|right; auto]. apply in_map_iff. exists (d, (x, -2)). split; auto. apply c34_facets_exact. split; auto. right; right. split; auto. split; auto. exists c. auto.
Qed.
Lemma boundary_cell_spec m : (boundary_cell m = -1 /\ forall c, ~ border_cell m c) \/ exists c, border_cell m c /\ boundary_cell m = ext_id m c.
Proof.
  unfold boundary_cell.
  assert (G : forall l acc, (forall p, In p l -> In p (facet_pairs (m2_cells m) (m2_mask m))) ->
    (fold_left (fun acc '(a, b) => if a =? -2 then b + num_cutfaces m else if b =? -2 then a + num_cutfaces m else acc) l acc = acc /\ forall p, In p l -> ~ on_border p) \/
    exists c, border_cell m c /\ fold_left (fun acc '(a, b) => if a =? -2 then b + num_cutfaces m else if b =? -2 then a + num_cutfaces m else acc) l acc = ext_id m c).
  { induction l as [|[a b] l IH]; intros acc HL; [left; split; auto|]. cbn [fold_left]. assert (HL' : forall p, In p l -> In p (facet_pairs (m2_cells m) (m2_mask m))) by (intros; apply HL; simpl; auto).
    match goal with |- context [fold_left _ l ?x] => set (acc' := x) end. destruct (IH acc' HL') as [[E N]|H]; auto. rewrite E. subst acc'.
    assert (HI : In (a, b) (facet_pairs (m2_cells m) (m2_mask m))) by (apply HL; simpl; auto).
    destruct (Z.eqb_spec a (-2)) as [Ea|Na].
    - right. destruct (@pair_facet m a b HI) as (c & Hc & [(_ & ->)|(F & _)]); [left; auto| |congruence]. exists c. split; auto. unfold ext_id. lia.
    - destruct (Z.eqb_spec b (-2)) as [Eb|Nb].
      + right. destruct (@pair_facet m a b HI) as (c & Hc & [(F & _)|(_ & _ & ->)]); [right; auto|congruence|]. exists c. split; auto. unfold ext_id. lia.
      + left. split; auto. intros p [ <- |Hp]; auto. intros [F|F]; simpl in F; auto. }
  destruct (G (facet_pairs (m2_cells m) (m2_mask m)) (-1)) as [[E N]|H]; auto. left. split; auto. intros c Hc. apply border_pair in Hc as (p & H1 & H2). apply (N p); auto.
Qed.

Section O.
  Variable m : mesh2.
  Hypothesis OK : incidence_ok m.
  Variable lnk : ds -> Z -> Z -> bool.
  Notation d := (ds_run lnk (gops (nn m) (mjoins m))).
  (** the cell whose region gets the label 0 *)
  Definition zero_cell : Z := if boundary_cell m =? -1 then 0 else boundary_cell m.
  Lemma zero_range : 0 < ncells2 m -> 0 <= zero_cell < ncells2 m.
  Proof.
    intros HN. unfold zero_cell. destruct (boundary_cell_spec m) as [[-> _]|(c & [Hc _] & ->)]; [simpl; lia|]. apply ext_id_range in Hc. assert (C := counts m).
    destruct (Z.eqb_spec (ext_id m c) (-1)); lia.
  Qed.
  Definition L2 : list Z := map (root_of d) (zrange 0 (Z.to_nat (ncells2 m))).
  Lemma re2 : 0 < ncells2 m -> re_inv (root_of d zero_cell) L2 (reindexer2 m d).
  Proof.
    intros HN. unfold reindexer2. rewrite <- (@fold_left_map _ _ _ (reindex_step (outside_root2 m d)) (root_of d)). fold L2.
    assert (HR := zero_range HN). assert (NZ : forall a, 0 <= a < ncells2 m -> 0 <= root_of d a) by (intros; apply root2_nonneg; auto).
    unfold zero_cell in *. unfold outside_root2. destruct (boundary_cell_spec m) as [[E N]|(c & Hc & E)].
    - rewrite E. cbn [Z.eqb Pos.eqb]. assert (F : find (fun '(a, b) => (a =? -2) && (0 <=? b) || (b =? -2) && (0 <=? a)) (facet_pairs (m2_cells m) (m2_mask m)) = None).
      { destruct (find _ _) as [[a b]|] eqn:F; auto. exfalso. apply find_some in F as [F1 F2]. destruct (@pair_facet m a b F1) as (c & Hc & _); [|apply (N c); auto].
        apply orb_true_iff in F2 as [F2|F2]; apply andb_true_iff in F2 as [F2 _]; apply Z.eqb_eq in F2; [left|right]; auto. }
      rewrite F. simpl Z.leb. cbv iota.
      assert (EL : exists n, Z.to_nat (ncells2 m) = S n) by (exists (Z.to_nat (ncells2 m) - 1)%nat; lia). destruct EL as (n & EL).
      assert (EZ : L2 = root_of d 0 :: map (root_of d) (zrange 1 n)). { unfold L2. rewrite EL. assert (ZR : zrange 0 (S n) = 0 :: zrange 1 n) by (unfold zrange; cbn [seq map]; rewrite <- seq_shift, map_map; f_equal; apply map_ext; intros; lia). rewrite ZR. reflexivity. }
      rewrite EZ. rewrite re_unreserved.
      + assert (I := re_inv_run (root_of d 0) (root_of d 0 :: map (root_of d) (zrange 1 n))). cbn [fold_left] in I.
        assert (R : reindex_step (root_of d 0) (map_set Z.compare (root_of d 0) 0 []) (root_of d 0) = map_set Z.compare (root_of d 0) 0 []) by (unfold reindex_step; rewrite Z.eqb_refl; auto). rewrite R in I. exact I.
      + assert (0 <= root_of d 0) by (apply NZ; lia). lia.
      + intros H. apply in_map_iff in H as (j & H1 & H2). apply zrange_In in H2. assert (0 <= root_of d j) by (apply NZ; lia). lia.
    - destruct (Z.eqb_spec (boundary_cell m) (-1)) as [E1|E1].
      + exfalso. destruct Hc as [Hc _]. apply ext_id_range in Hc. assert (C := counts m). lia.
      + rewrite (proj2 (Z.leb_le 0 _)) by (apply NZ; auto). apply re_inv_run.
  Qed.
  Lemma region2_find i : 0 <= i < ncells2 m -> map_find Z.compare (root_of d i) (reindexer2 m d) = Some (region2 m d i).
  Proof.
    intros R. assert (HI : re_inv (root_of d zero_cell) L2 (reindexer2 m d)) by (apply re2; lia). unfold region2. destruct (map_find Z.compare (root_of d i) (reindexer2 m d)) eqn:F; auto.
    apply (map_find_None Zcompare_total) in F; [|apply (ri1 _ _ _ HI)]. exfalso. apply F. apply (ri2 _ _ _ HI). right. unfold L2. apply in_map, zrange_In. lia.
  Qed.
  Variable m' : mesh2.
  Hypothesis HM : extra_metadata2 lnk m = Some m'.
  Lemma m'_eq : m' = mkMesh2 (m2_origin m) (m2_dx m) (m2_cells m) (m2_verts m) (m2_edges m)
    (map (fun '(i, f) => mkFace2 (f2_loops f) (region2 m d i)) (enum (m2_faces m))) (m2_mask m) (m2_owner m) (m2_fbm m)
    (map (fun i => region2 m d (num_cutfaces m + i)) (zrange 0 (Z.to_nat (ext_cells m)))).
  Proof. revert HM. unfold extra_metadata2. rewrite ops_eq by auto. intros E. apply Some_inj in E. auto. Qed.
  Lemma regions_eq : regions2 m' = map (region2 m d) (zrange 0 (Z.to_nat (ncells2 m))).
  Proof.
    rewrite m'_eq. unfold regions2. cbn [m2_faces m2_ext_regions]. assert (C := counts m). destruct C as (C1 & C2 & C3 & _).
    rewrite C3. replace (Z.to_nat (ext_cells m + num_cutfaces m)) with (length (m2_faces m) + Z.to_nat (ext_cells m))%nat by (unfold num_cutfaces in *; lia).
    unfold zrange. rewrite seq_app, !map_app, !map_map. f_equal.
    - unfold enum, zseq. rewrite Nat2Z.id. generalize (m2_faces m). intros l. generalize 0%nat as s. induction l as [|f l IH]; intros s; [reflexivity|]. cbn [length seq map combine f2_region]. f_equal. apply IH.
    - rewrite Nat.add_0_l. replace (seq (length (m2_faces m)) (Z.to_nat (ext_cells m))) with (seq (length (m2_faces m) + 0) (Z.to_nat (ext_cells m))) by (f_equal; lia). generalize 0%nat as s. induction (Z.to_nat (ext_cells m)) as [|n IH]; intros s; [reflexivity|]. cbn [seq map]. f_equal; [f_equal; unfold num_cutfaces; lia|]. rewrite IH, Nat.add_succ_r. reflexivity.
  Qed.
  Lemma has_region_eq i k : has_region m' i k <-> 0 <= i < ncells2 m /\ region2 m d i = k.
  Proof.
    unfold has_region. rewrite regions_eq, nth_error_map. split.
    - intros [H0 H]. assert (R : 0 <= i < ncells2 m).
      { destruct (nth_error (zrange 0 (Z.to_nat (ncells2 m))) (Z.to_nat i)) eqn:E; [|discriminate]. assert (E' : nth_error (zrange 0 (Z.to_nat (ncells2 m))) (Z.to_nat i) <> None) by congruence. apply nth_error_Some in E'. rewrite zrange_length in E'. lia. }
      split; auto. rewrite zrange_nth in H by lia. simpl in H. congruence.
    - intros [R H]. split; [lia|]. rewrite zrange_nth by lia. simpl. congruence.
  Qed.
End O.

(** ** C107 *)
(** every cell gets one label, nothing else in the mesh changes *)
Theorem c107_labelled : forall lnk m, incidence_ok m -> exists m', extra_metadata2 lnk m = Some m' /\
  Z.of_nat (length (regions2 m')) = num_cutfaces m + ext_cells m /\ (forall i k, has_region m' i k -> 0 <= k) /\
  map f2_loops (m2_faces m') = map f2_loops (m2_faces m) /\ m2_edges m' = m2_edges m /\ m2_verts m' = m2_verts m /\ m2_fbm m' = m2_fbm m /\
  m2_cells m' = m2_cells m /\ m2_mask m' = m2_mask m /\ m2_owner m' = m2_owner m /\ m2_origin m' = m2_origin m /\ m2_dx m' = m2_dx m.
Proof.
  intros lnk m OK. destruct (extra_metadata2 lnk m) as [m'|] eqn:E; [|unfold extra_metadata2 in E; rewrite ops_eq in E by auto; discriminate].
  exists m'. split; auto. split; [rewrite (regions_eq OK _ E), map_length, zrange_length; assert (C := counts m); lia|]. split.
  - intros i k H. apply (has_region_eq OK _ E) in H as [R <- ]. assert (F := @region2_find m lnk i R). assert (HI : 0 < ncells2 m) by lia. apply (@re2 m lnk) in HI. assert (K := proj2 (ri3 _ _ _ HI (region2 m (ds_run lnk (gops (nn m) (mjoins m))) i))). assert (0 <= region2 m (ds_run lnk (gops (nn m) (mjoins m))) i < Z.of_nat (length (reindexer2 m (ds_run lnk (gops (nn m) (mjoins m)))))) by (apply K; eauto). lia.
  - rewrite (m'_eq OK _ E). cbn. repeat split. rewrite map_map. unfold enum, zseq. rewrite Nat2Z.id. generalize 0%nat as s. induction (m2_faces m) as [|f l IH]; intros s; [reflexivity|]. cbn [length seq map combine f2_loops]. f_equal. apply IH.
Qed.
(** two cells have the same label exactly if a chain of cells touching through edges that are not input edges links them *)
Theorem c107_same_region : forall lnk m m' i j k l, incidence_ok m -> extra_metadata2 lnk m = Some m' -> has_region m' i k -> has_region m' j l -> (k = l <-> linked2 m i j).
Proof.
  intros lnk m m' i j k l OK E Hi Hj. apply (has_region_eq OK _ E) in Hi as [Ri Fi], Hj as [Rj Fj]. assert (HI : 0 < ncells2 m) by lia. apply (@re2 m lnk) in HI.
  rewrite <- (roots2 OK lnk) by auto. assert (Ki := @region2_find m lnk i Ri). assert (Kj := @region2_find m lnk j Rj). rewrite Fi in Ki. rewrite Fj in Kj. split.
  - intros <-. eapply (ri4 _ _ _ HI); eauto.
  - intros EQ. rewrite EQ in Ki. congruence.
Qed.
(** labels are given out without gaps, in the order of the cells *)
Theorem c107_contiguous : forall lnk m m' i k l, incidence_ok m -> extra_metadata2 lnk m = Some m' -> has_region m' i k -> 0 < l < k -> exists j, j < i /\ has_region m' j l.
Proof.
  intros lnk m m' i k l OK E Hi Hl. apply (has_region_eq OK _ E) in Hi as [Ri Fi]. assert (HI : 0 < ncells2 m) by lia. apply (@re2 m lnk) in HI. assert (Ki := @region2_find m lnk i Ri). rewrite Fi in Ki.
  set (d := ds_run lnk (gops (nn m) (mjoins m))) in *. destruct (zrange_split (Z.to_nat (ncells2 m)) i) as (q & EZ); [lia|].
  destruct (ri6 _ _ _ HI (map (root_of d) (zrange 0 (Z.to_nat i))) (root_of d i) (map (root_of d) q) k l) as (y & Hy & Fy); auto.
  { unfold L2. fold d. rewrite EZ, map_app. reflexivity. }
  apply in_map_iff in Hy as (j & <- & Hj). apply zrange_In in Hj. exists j. split; [lia|]. apply (has_region_eq OK _ E). split; [lia|]. assert (Kj := @region2_find m lnk j). fold d in Kj. rewrite Fy in Kj. apply Some_inj. symmetry. apply Kj. lia.
Qed.
Lemma c107_zero : forall lnk m m' i k, incidence_ok m -> extra_metadata2 lnk m = Some m' -> has_region m' i k -> (k = 0 <-> linked2 m (zero_cell m) i).
Proof.
  intros lnk m m' i k OK E Hi. assert (Hi' := Hi). apply (has_region_eq OK _ E) in Hi' as [Ri _]. assert (HN : 0 < ncells2 m) by lia.
  assert (Z0 : has_region m' (zero_cell m) 0).
  { apply (has_region_eq OK _ E). assert (R := zero_range m HN). split; auto. assert (K := @region2_find m lnk _ R). assert (HI := @re2 m lnk HN). rewrite (ri5 _ _ _ HI) in K. congruence. }
  rewrite <- (c107_same_region lnk OK E Z0 Hi). split; congruence.
Qed.
(** label 0 marks the region of an uncut cell at the side of the domain, if there is one ... *)
Theorem c107_outside : forall lnk m m', incidence_ok m -> extra_metadata2 lnk m = Some m' -> (exists c, border_cell m c) ->
  exists o, border_cell m o /\ forall i k, has_region m' i k -> (k = 0 <-> linked2 m (ext_id m o) i).
Proof.
  intros lnk m m' OK E (c & Hc). destruct (boundary_cell_spec m) as [[_ N]|(o & Ho & EO)]; [destruct (N c); auto|]. exists o. split; auto. intros i k Hi. rewrite (c107_zero lnk OK E Hi).
  unfold zero_cell. destruct (Z.eqb_spec (boundary_cell m) (-1)) as [F|F]; [|rewrite EO; tauto]. exfalso. destruct Ho as [Ho _]. apply ext_id_range in Ho. assert (C := counts m). lia.
Qed.
(** ... and otherwise the region of cell 0, the first cut face, wherever it is *)
Theorem c107_no_border : forall lnk m m', incidence_ok m -> extra_metadata2 lnk m = Some m' -> (forall c, ~ border_cell m c) ->
  forall i k, has_region m' i k -> (k = 0 <-> linked2 m 0 i).
Proof.
  intros lnk m m' OK E N i k Hi. rewrite (c107_zero lnk OK E Hi). unfold zero_cell. destruct (boundary_cell_spec m) as [[ -> _]|(o & Ho & _)]; [simpl; tauto|destruct (N o); auto].
Qed.
(** the labels do not depend on how the union-find structure links its trees *)
Theorem c107_deterministic : forall lnk lnk' m, incidence_ok m -> extra_metadata2 lnk m = extra_metadata2 lnk' m.
Proof.
  intros lnk lnk' m OK. destruct (c107_labelled lnk OK) as (a & Ea & _). destruct (c107_labelled lnk' OK) as (b & Eb & _). rewrite Ea, Eb. f_equal.
  assert (HR : forall i k l, has_region a i k -> has_region b i l -> k = l).
  { intros i. assert (W : forall n i k l, (Z.to_nat i < n)%nat -> has_region a i k -> has_region b i l -> k = l).
    { induction n as [|n IH]; intros j k l Hn Ha Hb; [lia|].
      assert (LAB : forall x, 0 <= x -> x < j -> exists k', has_region a x k' /\ has_region b x k').
      { intros x H0 Hx. assert (R := proj1 (proj1 (has_region_eq OK _ Ea _ _) Ha)). assert (Rx : 0 <= x < ncells2 m) by lia.
        eexists. split; [apply (has_region_eq OK _ Ea); split; [auto|reflexivity]|]. apply (has_region_eq OK _ Eb). split; auto. symmetry. apply (IH x); [destruct Ha; lia| |]; [apply (has_region_eq OK _ Ea)|apply (has_region_eq OK _ Eb)]; auto. }
      assert (ZZ : k = 0 <-> l = 0) by (rewrite (c107_zero lnk OK Ea Ha), (c107_zero lnk' OK Eb Hb); tauto).
      assert (Pk : 0 <= k) by (destruct (c107_labelled lnk OK) as (a' & Ea' & _ & P & _); rewrite Ea in Ea'; apply Some_inj in Ea'; subst; eauto).
      assert (Pl : 0 <= l) by (destruct (c107_labelled lnk' OK) as (b' & Eb' & _ & P & _); rewrite Eb in Eb'; apply Some_inj in Eb'; subst; eauto).
      destruct (Z.lt_trichotomy k l) as [C|[C|C]]; auto.
      - destruct (@c107_contiguous lnk' m b j l k OK Eb Hb) as (x & Hx & Bx); [lia|]. destruct (LAB x) as (k' & A1 & B1); [destruct Bx; lia|auto|]. assert (k' = k) by (destruct Bx, B1; congruence). subst k'.
        assert (LK := proj1 (c107_same_region lnk OK Ea A1 Ha) eq_refl). apply (c107_same_region lnk' OK Eb Bx Hb) in LK. auto.
      - destruct (@c107_contiguous lnk m a j k l OK Ea Ha) as (x & Hx & Ax); [lia|]. destruct (LAB x) as (k' & A1 & B1); [destruct Ax; lia|auto|]. assert (k' = l) by (destruct Ax, A1; congruence). subst k'.
        assert (LK := proj1 (c107_same_region lnk' OK Eb B1 Hb) eq_refl). apply (c107_same_region lnk OK Ea Ax Ha) in LK. auto. }
    intros k l. apply (W (S (Z.to_nat i))). lia. }
  assert (RG : forall i, 0 <= i < ncells2 m -> region2 m (ds_run lnk (gops (nn m) (mjoins m))) i = region2 m (ds_run lnk' (gops (nn m) (mjoins m))) i).
  { intros i R. apply (HR i); [apply (has_region_eq OK _ Ea)|apply (has_region_eq OK _ Eb)]; auto. }
  rewrite (m'_eq OK _ Ea), (m'_eq OK _ Eb). assert (C := counts m). f_equal.
  - apply map_ext_in. intros (i & f) H. apply enum_In in H as [H1 H2]. assert (Z.to_nat i < length (m2_faces m))%nat by (apply nth_error_Some; congruence). rewrite RG; auto. unfold num_cutfaces in *. lia.
  - apply map_ext_in. intros i H. apply zrange_In in H. apply RG. lia.
Qed.

(** REFUTED that input edges separate regions: where an input edge lies on a grid line, the grid edge under it is the one the faces on both
    sides are bounded by (c106_parallel_refuted), so these faces get the same label. *)
Theorem c107_gridline_refuted : forall lnk m m' i j k l fi fj e e0 x x0 n a b, incidence_ok m -> extra_metadata2 lnk m = Some m' ->
  face_boundary_map2 (map e2_ix (m2_edges m)) (map f2_loops (m2_faces m)) = Some (m2_fbm m) ->
  is_face m i fi -> is_face m j fj -> In (a, b) (face_sides (f2_loops fi)) -> In (b, a) (face_sides (f2_loops fj)) ->
  (* the input edge e0 between the two faces, and the grid edge e with the same ends, the last one *)
  is_edge m e0 x0 -> e2_id x0 = MeshEdge n -> joins (map e2_ix (m2_edges m)) e0 a b ->
  open_edge m e x -> last_joining (map e2_ix (m2_edges m)) e a b ->
  has_region m' i k -> has_region m' j l -> k = l.
Proof.
  intros lnk m m' i j k l fi fj e e0 x x0 n a b OK E FB [Hi Fi] [Hj Fj] Si Sj _ _ _ OE LJ Ri Rj.
  assert (B : forall i f p q, 0 <= i -> nth_error (m2_faces m) (Z.to_nat i) = Some f -> In (p, q) (face_sides (f2_loops f)) -> last_joining (map e2_ix (m2_edges m)) e p q -> exists s, bounds m i e s).
  { clear - FB. intros i f p q Hi Fi S LJ.
    assert (NE : f2_loops f <> []) by (intros C; rewrite C in S; destruct S).
    assert (NF : exists fm, face_map2 (map e2_ix (m2_edges m)) (f2_loops f) = Some fm).
    { assert (G : forall fs i m0, fbm_from (map e2_ix (m2_edges m)) i fs = Some m0 -> forall f, In f fs -> face_map2 (map e2_ix (m2_edges m)) f <> None).
      { clear. induction fs as [|g fs IH]; intros i m0 H f []; simpl in H.
        - subst. destruct (face_map2 _ f); [discriminate|]. discriminate.
        - destruct (face_map2 _ g); [|discriminate]. destruct (fbm_from _ (i + 1) fs) eqn:F; [|discriminate]. eapply IH; eauto. }
      destruct (face_map2 (map e2_ix (m2_edges m)) (f2_loops f)) eqn:F; eauto. exfalso. eapply G; [exact FB| |exact F]. apply in_map. eapply nth_error_In; eauto. }
    destruct NF as (fm & NF). destruct (@c106_map _ _ _ NF) as (_ & _ & C). destruct (C p q S) as (e' & s & I & LJ'). assert (e' = e) by (eapply last_unique; eauto). subst e'.
    exists s, fm. split; auto. apply (@c106_faces _ _ _ FB). split; auto. exists (f2_loops f). split; [rewrite nth_error_map, Fi; auto|auto]. }
  destruct (B i fi a b Hi Fi Si LJ) as (s & Bi).
  assert (LJ' : last_joining (map e2_ix (m2_edges m)) e b a) by (destruct LJ as [J L]; split; [apply joins_swap; auto|intros e' J'; apply L, joins_swap; auto]).
  destruct (B j fj b a Hj Fj Sj LJ') as (s' & Bj).
  apply (c107_same_region lnk OK E Ri Rj). apply rst_step. eapply t2_cut; eauto.
Qed.
(** the hypothesis [incidence_ok] holds of what generate_faces puts into a mesh *)
Theorem c107_generated : forall m V, pos_shape (m2_cells m) ->
  face_boundary_map2 (map e2_ix (m2_edges m)) (map f2_loops (m2_faces m)) = Some (m2_fbm m) ->
  (forall e, In e (m2_edges m) -> boundary_pair2 (m2_cells m) (m2_mask m) V [fst (e2_ix e); snd (e2_ix e)] = Some (e2_ext e)) ->
  (forall e o s, In e (m2_edges m) -> e2_ext e = Some (o, s) -> o < shape_size (m2_cells m)) -> incidence_ok m.
Proof.
  intros m V PS FB EB RG. assert (CF := @c106_faces _ _ _ FB). constructor.
  - assert (G : forall fs i m0, fbm_from (map e2_ix (m2_edges m)) i fs = Some m0 -> NoDup (map fst m0)).
    { clear. induction fs as [|f fs IH]; intros i m0 H; simpl in H; [apply Some_inj in H; subst; constructor|].
      destruct (face_map2 _ f) as [fm|]; [|discriminate]. destruct (fbm_from _ (i + 1) fs) as [r|] eqn:F; [|discriminate]. apply Some_inj in H.
      assert (I := IH _ _ F). destruct f; [subst; auto|]. subst. simpl. constructor; auto. intros H. apply in_map_iff in H as ((k & g) & E & H). simpl in E. subst k.
      destruct (@fbm_from_spec _ _ _ _ F) as [A _]. apply A in H. lia. }
    eapply G. exact FB.
  - intros f es H. apply CF in H as (H0 & l & H1 & H2 & H3). rewrite nth_error_map in H1. destruct (nth_error (m2_faces m) (Z.to_nat f)) as [x|] eqn:E; [|discriminate]. simpl in H1. apply Some_inj in H1. subst l.
    destruct (@c106_map _ _ _ H3) as (A & B & _). split; [exact A|]. split.
    + split; auto. assert (Z.to_nat f < length (m2_faces m))%nat by (apply nth_error_Some; congruence). unfold num_cutfaces. lia.
    + intros e s He. apply B in He as (a & b & _ & _ & R). assert (R' : exists p q, runs (map e2_ix (m2_edges m)) e p q) by (destruct s; eauto). destruct R' as (p & q & [R0 R1]). split; auto.
      assert (L : (Z.to_nat e < length (map e2_ix (m2_edges m)))%nat) by (apply nth_error_Some; congruence). rewrite map_length in L. unfold num_cutedges. lia.
  - intros e o s He Ho H0. assert (B := EB e He). assert (L := RG e o s He Ho). rewrite Ho in B. destruct (unravel_in PS (conj H0 L)) as [U1 U2]. split; auto.
    unfold boundary_pair2 in B. destruct (geometry_possible_cells V [fst (e2_ix e); snd (e2_ix e)]) as [[|p [|q [|? ?]]]|]; try discriminate.
    destruct (nth_error p _) as [u|]; [|discriminate]. destruct (nth_error q _) as [v|]; [|discriminate]. destruct (nth_error (m2_cells m) _) as [w|]; [|discriminate].
    destruct (u <? 0); [apply Some_inj, Some_inj in B; injection B as <- _; lia|]. destruct (w <=? v); [apply Some_inj, Some_inj in B; injection B as <- _; lia|].
    destruct (m2_mask m (unravel (m2_cells m) (ravel (m2_cells m) p))) eqn:EP; destruct (m2_mask m (unravel (m2_cells m) (ravel (m2_cells m) q))) eqn:EQ; simpl in B; try discriminate; apply Some_inj, Some_inj in B; injection B as <- _; auto.
Qed.

(** two cells, the left one cut by an input edge from bottom to top, the right one uncut *)
Definition ax (v : edge) (o : option (Z * bool)) : cut_edge2 := mkEdge2 [None; None] v (AxialEdge 0 0) o.
Definition me (v : edge) : cut_edge2 := mkEdge2 [None; None] v (MeshEdge 0) None.
Definition ex107 : mesh2 := mkMesh2 (0, 0)%Qc (1, 1)%Qc [2; 1] []
  [me (6, 7); ax (0, 6) (Some (-2, true)); ax (6, 2) (Some (-2, true)); ax (1, 7) (Some (-2, false)); ax (7, 3) (Some (-2, false)); ax (0, 1) (Some (-2, true)); ax (2, 3) (Some (1, true))]
  [mkFace2 [[0; 6; 7; 1]] 0; mkFace2 [[6; 2; 3; 7]] 0] (fun c => at0 c 0 =? 1) []
  [(0, [(0, false); (1, false); (3, true); (5, true)]); (1, [(0, true); (2, false); (4, true); (6, false)])] [].
Ltac pick := repeat match goal with H : _ \/ _ |- _ => destruct H as [H|H] | H : False |- _ => destruct H | H : (_, _) = (_, _) |- _ => apply pair_equal_spec in H; destruct H as [<- <-] end.
Example c107_witness : incidence_ok ex107 /\ face_boundary_map2 (map e2_ix (m2_edges ex107)) (map f2_loops (m2_faces ex107)) = Some (m2_fbm ex107) /\ border_cell ex107 [1; 0] /\
  option_map regions2 (extra_metadata2 (fun _ _ _ => true) ex107) = Some [1; 0; 0].
Proof.
  split; [constructor|split; [vm_compute; reflexivity|split; [|vm_compute; reflexivity]]].
  - repeat constructor; simpl; intuition discriminate.
  - intros f es H. simpl in H. pick; (split; [vm_compute; repeat (constructor; [cbn; intuition discriminate|]); constructor|]); (split; [cbn; lia|]); intros e s He; simpl in He; pick; cbn; lia.
  - intros e o s H E. simpl in H. pick; subst e; simpl in E; try discriminate E; apply Some_inj in E; apply pair_equal_spec in E as [<- <-]; try lia; intros _; split; reflexivity.
  - split; [split; reflexivity|]. exists 1%nat. split; [simpl; lia|]. left. reflexivity.
Qed.
(** REFUTED that label 0 is outside: one cell, an input triangle inside it; the inside of the triangle is numbered first *)
Definition ex107_in : mesh2 := mkMesh2 (0, 0)%Qc (1, 1)%Qc [1; 1] []
  [me (4, 5); me (5, 6); me (6, 4); ax (0, 2) (Some (-2, true)); ax (2, 3) (Some (-2, false)); ax (1, 3) (Some (-2, false)); ax (0, 1) (Some (-2, true))]
  [mkFace2 [[4; 5; 6]] 0; mkFace2 [[0; 2; 3; 1]; [4; 6; 5]] 0] (fun _ => false) []
  [(0, [(0, false); (1, false); (2, false)]); (1, [(0, true); (1, true); (2, true); (3, false); (4, false); (5, true); (6, true)])] [].
Theorem c107_outside_refuted : exists m m' lnk, incidence_ok m /\ face_boundary_map2 (map e2_ix (m2_edges m)) (map f2_loops (m2_faces m)) = Some (m2_fbm m) /\
  extra_metadata2 lnk m = Some m' /\
  (* cell 0 is labelled 0 and has no edge on the side of the domain, cell 1 has one and is not labelled 0 *)
  has_region m' 0 0 /\ has_region m' 1 1 /\ (exists e s x, bounds m 1 e s /\ is_edge m e x /\ is_domain_edge x = true) /\
  (forall e s x, bounds m 0 e s -> is_edge m e x -> is_domain_edge x = false).
Proof.
  exists ex107_in. eexists. exists (fun _ _ _ => true). split; [constructor|split; [vm_compute; reflexivity|split; [vm_compute; reflexivity|]]].
  - repeat constructor; simpl; intuition discriminate.
  - intros f es H. simpl in H. pick; (split; [vm_compute; repeat (constructor; [cbn; intuition discriminate|]); constructor|]); (split; [cbn; lia|]); intros e s He; simpl in He; pick; cbn; lia.
  - intros e o s H E. simpl in H. pick; subst e; simpl in E; try discriminate E; apply Some_inj in E; apply pair_equal_spec in E as [<- <-]; lia.
  - split; [split; [lia|reflexivity]|]. split; [split; [lia|reflexivity]|]. split.
    + exists 3, false, (ax (0, 2) (Some (-2, true))). split; [eexists; split; [simpl; right; left; reflexivity|simpl; auto 10]|]. split; [split; [lia|reflexivity]|reflexivity].
    + intros e s x (es & H1 & H2) [_ H3]. simpl in H1. destruct H1 as [H1|[H1|[]]]; [|discriminate]. injection H1 as <-. simpl in H2. pick; simpl in H3; apply Some_inj in H3; subst x; reflexivity.
Qed.
Print Assumptions c107_same_region.
