From Verif Require Import Base Num SmallestEdge SmallestEdgeProofs DisjointSet DisjointSetSpec DisjointSetProofs
  FaceCollapser FaceCollapserProofs FaceCollapserIds FaceCollapserLoops FaceCollapserGeom CellCollapser CellCollapserSpec CellCollapserProofs.
From Coq Require Import Relations Permutation.
Local Open Scope Z_scope.

Lemma clos_map (A B : Type) (R : A -> A -> Prop) (R' : B -> B -> Prop) (g : A -> B) :
  (forall a b, R a b -> R' (g a) (g b)) -> forall a b, clos_refl_sym_trans A R a b -> clos_refl_sym_trans B R' (g a) (g b).
Proof. intros H a b C. induction C; [apply rst_step; auto|apply rst_refl|apply rst_sym; auto|eapply rst_trans; eauto]. Qed.

Section Merge.
  Variable lnk : ds -> Z -> Z -> bool.
  Variable ord : edge -> list Z -> list Z.
  Variable open : bool.
  Hypothesis ord_perm : forall e fs, Permutation (ord e fs) fs.
  Variable faces : list (Z * list loop).
  Hypothesis fid_pos : forall f, In f (map fst faces) -> 0 <= f.
  Let x := cc_build faces.
  Let m := cc_hf x.
  Let ops := cc_ops x ++ merge_ops ord open x.
  Let d := ds_run lnk ops.
  Let m' := final_hf d m.

  Definition node (s : side) : Z := 100 * fst s + (if snd s then 0 else 1).
  Definition dec (z : Z) : side := (z / 100, z mod 100 =? 0).
  Lemma dec_node s : dec (node s) = s.
  Proof.
    destruct s as [f b]. unfold dec, node; cbn [fst snd].
    assert (H : forall k, 0 <= k < 100 -> (100 * f + k) / 100 = f /\ (100 * f + k) mod 100 = k).
    { intros k Hk. split; symmetry; [apply Z.div_unique with (r := k)|apply Z.mod_unique with (q := f)]; lia. }
    destruct b; [destruct (H 0)|destruct (H 1)]; try lia; f_equal; lia.
  Qed.
  Lemma node_inj a b : node a = node b -> a = b.
  Proof. intros H. rewrite <- (dec_node a), H, dec_node. auto. Qed.

  Lemma WF : hf_wf m (survives x). Proof. apply (build_wf faces). Qed.
  Lemma OWF : ops_wf (cc_ops x) (survives x). Proof. apply (build_wf faces). Qed.
  Lemma surv_pos f : survives x f -> 0 <= f.
  Proof. intros H. apply fid_pos. apply (build_wf faces). auto. Qed.
  Lemma m_In h v : In (h, v) m <-> map_find hf_cmp h m = Some v.
  Proof. symmetry. apply (map_find_Some hf_total). apply WF. Qed.
  Lemma val_node f e c s : map_find hf_cmp (f, e) m = Some (c, s) -> c = node (f, s) /\ survives x f.
  Proof. intros H. apply (hw_val _ _ WF) in H as (? & _ & ->). auto. Qed.
  Lemma cell_side f e i : cell_id m (f, e) = Some i <-> exists s, side_at m f e s /\ i = node (f, s).
  Proof.
    unfold cell_id, side_at. split.
    - destruct (map_find hf_cmp (f, e) m) as [[c s]|] eqn:E; [|discriminate]. intros [= <-]. exists s. split; [eauto|]. eapply val_node; eauto.
    - intros (s & [c E] & ->). rewrite E. simpl. f_equal. eapply val_node; eauto.
  Qed.
  Lemma faces_at_In e f : In f (faces_at m e) <-> exists s, side_at m f e s.
  Proof.
    unfold faces_at, side_at. rewrite in_map_iff. split.
    - intros ([[f' e'] [c s]] & <- & H). apply filter_In in H as [H E]. cbn in E. apply edge_eqb_eq in E. subst e'.
      exists s, c. apply m_In. auto.
    - intros (s & c & E). exists ((f, e), (c, s)). split; auto. apply filter_In. split; [apply m_In; auto|]. cbn. apply edge_eqb_eq; auto.
  Qed.
  Lemma joins_In i j : In (OpJoin i j) (merge_ops ord open x) <->
    exists a b, dihedral ord open m (cc_invalid x) a b /\ i = node a /\ j = node b.
  Proof.
    unfold merge_ops. rewrite in_flat_map. split.
    - intros (e & He & H). unfold collected_edges in He. apply filter_In in He as [He HI].
      apply negb_true_iff in HI. destruct ((fst e <? snd e) && _) eqn:C; [|destruct H].
      apply andb_true_iff in C as [C1 C2]. apply Z.ltb_lt in C1. apply orb_true_iff in C2.
      unfold around_ops in H. apply in_flat_map in H as ([f f1] & Hc & H). fold m in H, Hc, C2.
      match type of H with context [cell_id ?a ?b] => destruct (cell_id a b) as [i'|] eqn:E1 end; [|destruct H].
      match type of H with context [cell_id ?a ?b] => destruct (cell_id a b) as [j'|] eqn:E2 end; [|destruct H].
      destruct H as [[= -> ->]|[]]. apply cell_side in E1 as (s & Hs & ->). apply cell_side in E2 as (s1 & Hs1 & ->).
      exists (f, s), (f1, s1). split; auto. exists e. split; auto. split; [rewrite <- mem_edge_In; congruence|].
      split; [destruct C2 as [?|C2]; [auto|right; apply Nat.ltb_lt in C2; auto]|]. split; [apply cyc_next_iff; auto|]. auto.
    - intros ([f s] & [f1 s1] & (e & H1 & H2 & H3 & H4 & H5 & H6) & -> & ->). cbn [fst snd] in *.
      exists e. split.
      + unfold collected_edges. apply filter_In. split; [|rewrite negb_true_iff, <- not_true_iff_false, mem_edge_In; auto].
        rewrite (set_of_list_In edge_total). destruct H5 as [c H5]. apply m_In in H5. apply in_map_iff. exists ((f, e), (c, s)). auto.
      + rewrite (proj2 (Z.ltb_lt _ _) H1). simpl. fold m.
        assert (C : open || (1 <? length (faces_at m e))%nat = true).
        { apply orb_true_iff. destruct H3; [auto|right; apply Nat.ltb_lt; lia]. }
        rewrite C. unfold around_ops. apply in_flat_map. exists (f, f1). split; [apply cyc_next_iff; auto|].
        rewrite (proj2 (cell_side f e (node (f, s)))) by eauto. rewrite (proj2 (cell_side f1 (swap_edge e) (node (f1, s1)))) by eauto. simpl; auto.
  Qed.
  Lemma dihedral_surv a b : dihedral ord open m (cc_invalid x) a b -> survives x (fst a) /\ survives x (fst b).
  Proof. intros (e & _ & _ & _ & _ & [c H1] & [c' H2]). split; [eapply (proj2 (val_node _ _ _ _ H1))|eapply (proj2 (val_node _ _ _ _ H2))]. Qed.
  Lemma merge_noadd z : ~ In (OpAdd z) (merge_ops ord open x).
  Proof.
    unfold merge_ops. rewrite in_flat_map. intros (e & _ & H). destruct (_ && _); [|destruct H]. unfold around_ops in H.
    apply in_flat_map in H as ([f f1] & _ & H). destruct (cell_id _ _); [|destruct H]. destruct (cell_id _ _); [destruct H as [H|[]]; discriminate|destruct H].
  Qed.
  Lemma c_added z : added ops z <-> exists s, survives x (fst s) /\ z = node s.
  Proof.
    unfold ops. rewrite added_app. rewrite (proj2 OWF). rewrite (added_In lnk [] (merge_ops ord open x)). split.
    - intros [(f & s & H & ->)|H]; [exists (f, s); auto|exfalso; eapply merge_noadd; eauto].
    - intros ([f s] & H & ->). left. exists f, s. auto.
  Qed.
  Lemma c_ws : ws (fun _ => False) ops.
  Proof.
    unfold ops. apply ws_app. split.
    - apply ws_all. intros a b H. exfalso. eapply (proj1 OWF); eauto.
    - apply ws_all. intros a b H. apply joins_In in H as (u & v & H & -> & ->). apply dihedral_surv in H as [H1 H2].
      split; right; apply (proj2 OWF); [exists (fst u), (snd u)|exists (fst v), (snd v)]; auto.
  Qed.
  Lemma c_joined i j : joined ops i j <-> exists a b, dihedral ord open m (cc_invalid x) a b /\ i = node a /\ j = node b.
  Proof.
    rewrite joined_ws by apply c_ws. unfold ops. rewrite in_app_iff, joins_In. split; [|auto].
    intros [H|H]; auto. exfalso. eapply (proj1 OWF); eauto.
  Qed.
  Lemma c_conn a b : connected (joined ops) (node a) (node b) <-> dihedrally_connected ord open m (cc_invalid x) a b.
  Proof.
    split.
    - intros H. rewrite <- (dec_node a), <- (dec_node b). revert H. apply clos_map. intros i j H. apply c_joined in H as (u & v & H & -> & ->).
      rewrite !dec_node. auto.
    - apply clos_map. intros u v H. apply c_joined. eauto.
  Qed.
  Lemma dd_inv : ds_inv d (added ops) (joined ops). Proof. apply ds_run_inv. Qed.
  Lemma re_eq : cell_reindexer d = fold_left rank_step (ds_roots d) []. Proof. reflexivity. Qed.
  Lemma re_len : length (cell_reindexer d) = length (ds_roots d).
  Proof.
    rewrite re_eq. destruct (rank_fold (ds_roots d) [] (ss_nil _) (ds_roots_NoDup _ (di_nodup _ _ _ dd_inv))) as (_ & L & _); [intros ? ? []|]. exact L.
  Qed.
  Lemma side_root s : survives x (fst s) -> exists r p, ds_root d (node s) = Some r /\ nth_error (ds_roots d) p = Some r /\
    map_find Z.compare r (cell_reindexer d) = Some (Z.of_nat p).
  Proof.
    intros H. assert (Hin : In (node s) (ds_nodes d)) by (apply (di_nodes _ _ _ dd_inv), c_added; eauto).
    apply ds_root_In in Hin as [r Hr]. assert (Hr' := di_fix _ _ _ dd_inv _ _ Hr).
    apply ds_roots_In in Hr'; [|apply (di_nodup _ _ _ dd_inv)]. apply In_nth_error in Hr' as [p Hp]. exists r, p. split; auto. split; auto.
    rewrite re_eq. apply ranks_nil; [apply ds_roots_NoDup, (di_nodup _ _ _ dd_inv)|]. exists p; auto.
  Qed.
  Definition side_cell (f : Z) (s : bool) : Z :=
    match ds_root d (node (f, s)) with
    | Some r => match map_find Z.compare r (cell_reindexer d) with Some k => k | None => 0 end
    | None => 0 end.
  Lemma side_cell_eq f s : survives x f -> exists r p, ds_root d (node (f, s)) = Some r /\ nth_error (ds_roots d) p = Some r /\ side_cell f s = Z.of_nat p.
  Proof.
    intros H. destruct (side_root (f, s) H) as (r & p & H1 & H2 & H3). exists r, p. split; auto. split; auto.
    unfold side_cell. rewrite H1, H3. auto.
  Qed.
  Lemma side_cell_same f s f' s' : survives x f -> survives x f' ->
    (side_cell f s = side_cell f' s' <-> dihedrally_connected ord open m (cc_invalid x) (f, s) (f', s')).
  Proof.
    intros H H'. rewrite <- c_conn. destruct (side_cell_eq f s H) as (r & p & H1 & H2 & ->). destruct (side_cell_eq f' s' H') as (r' & p' & H1' & H2' & ->).
    rewrite <- (di_conn _ _ _ dd_inv _ _ _ _ H1 H1'). split.
    - intros E. assert (p = p') by lia. congruence.
    - intros ->. f_equal. apply (proj1 (NoDup_nth_error _) (ds_roots_NoDup _ (di_nodup _ _ _ dd_inv))); [apply nth_error_Some; congruence|congruence].
  Qed.
  Lemma side_cell_range f s : survives x f -> 0 <= side_cell f s < Z.of_nat (length (ds_roots d)).
  Proof.
    intros H. destruct (side_cell_eq f s H) as (r & p & H1 & H2 & ->). assert (p < length (ds_roots d))%nat by (apply nth_error_Some; congruence). lia.
  Qed.
  Lemma side_cell_surj c : 0 <= c < Z.of_nat (length (ds_roots d)) -> exists f s, survives x f /\ side_cell f s = c.
  Proof.
    intros Hc. destruct (nth_error (ds_roots d) (Z.to_nat c)) as [r|] eqn:E; [|apply nth_error_None in E; lia].
    assert (Hr : In r (ds_roots d)) by (eapply nth_error_In; eauto). apply ds_roots_In in Hr; [|apply (di_nodup _ _ _ dd_inv)].
    assert (Hn : In r (ds_nodes d)) by (apply ds_root_In; eauto). apply (di_nodes _ _ _ dd_inv), c_added in Hn as ([f s] & Hs & ->).
    exists f, s. split; auto. destruct (side_cell_eq f s Hs) as (r' & p & H1 & H2 & ->). assert (r' = node (f, s)) by congruence. subst r'.
    assert (p = Z.to_nat c); [|lia]. apply (proj1 (NoDup_nth_error _) (ds_roots_NoDup _ (di_nodup _ _ _ dd_inv))); [apply nth_error_Some; congruence|congruence].
  Qed.
  Lemma final_keys : keys m' = keys m.
  Proof. unfold m', final_hf, keys. rewrite map_map. apply map_ext. intros [h [c s]]; auto. Qed.
  Lemma final_hf_find h : map_find hf_cmp h m' = match map_find hf_cmp h m with
    | Some (c, s) => Some (side_cell (fst h) s, s) | None => None end.
  Proof.
    destruct (map_find hf_cmp h m) as [[c s]|] eqn:E.
    - assert (E' := E). destruct h as [f e]. apply val_node in E' as [-> HS]. cbn [fst].
      assert (G : forall mm, map_find hf_cmp (f, e) mm = Some (node (f, s), s) -> map_find hf_cmp (f, e) (final_hf d mm) = Some (side_cell f s, s)).
      { unfold final_hf. induction mm as [|[h' [c' s']] mm IH]; simpl; [discriminate|]. destruct (hf_cmp (f, e) h'); auto; try discriminate.
        intros H. apply some_inj, pair_equal_spec in H as [-> ->]. f_equal. f_equal.
        assert (0 <= node (f, s)). { assert (P := surv_pos f HS). unfold node; cbn [fst snd]. destruct s; lia. }
        rewrite (proj2 (Z.leb_le _ _)) by auto. unfold side_cell.
        destruct (side_root (f, s) HS) as (r & p & -> & _). auto. }
      apply G; auto.
    - apply (map_find_None hf_total); [rewrite final_keys; apply WF|]. rewrite final_keys. apply (map_find_None hf_total); auto. apply WF.
  Qed.
  Lemma m'_In f e c s : In ((f, e), (c, s)) m' <-> side_at m f e s /\ c = side_cell f s.
  Proof.
    rewrite <- (map_find_Some hf_total) by (rewrite final_keys; apply WF). rewrite final_hf_find. unfold side_at.
    destruct (map_find hf_cmp (f, e) m) as [[c0 s0]|]; cbn [fst].
    - split; [intros [= <- <-]; eauto|intros [[c1 [= -> ->]] ->]; auto].
    - split; [discriminate|intros [[? ?] _]; discriminate].
  Qed.
  Lemma survives_edge f : survives x f -> forall s, exists e, side_at m f e s.
  Proof.
    intros H s. destruct (hw_ex _ _ WF f H) as (e & c & E). destruct s; [exists e, c; auto|].
    apply (hw_pair _ _ WF) in E as [c' E]. exists (swap_edge e), c'. auto.
  Qed.
  Lemma side_survives f e s : side_at m f e s -> survives x f.
  Proof. intros [c H]. eapply (proj2 (val_node _ _ _ _ H)). Qed.

  (** boundaries *)
  Lemma bnd_fold c : forall (l : hfmap) acc, ssorted Z.compare (keys acc) ->
    let r := fold_left (fun acc '((f, _), (c', b)) => if c' =? c then map_set Z.compare f b acc else acc) l acc in
    ssorted Z.compare (keys r) /\
    (forall f s, map_find Z.compare f r = Some s -> (exists e, In ((f, e), (c, s)) l) \/ map_find Z.compare f acc = Some s) /\
    (forall f, (exists e s, In ((f, e), (c, s)) l) \/ (exists s, map_find Z.compare f acc = Some s) -> exists s, map_find Z.compare f r = Some s).
  Proof.
    induction l as [|[[f0 e0] [c0 s0]] l IH]; intros acc HS; cbn [fold_left].
    - split; auto. split; auto. intros f [(e & s & [])|H]; auto.
    - destruct (Z.eqb_spec c0 c) as [->|Hne].
      + destruct (IH (map_set Z.compare f0 s0 acc)) as (I1 & I2 & I3); [apply (map_set_sorted Zcompare_total); auto|].
        split; auto. split.
        * intros f s H. destruct (I2 f s H) as [[e He]|He]; [left; exists e; simpl; auto|].
          rewrite (map_find_set Zcompare_total) in He by auto. destruct (Z.compare_spec f f0) as [->|?|?]; auto.
          injection He as ->. left. exists e0. simpl; auto.
        * intros f [(e & s & [[= -> -> ->]|He])|[s Hs]].
          -- apply I3. right. rewrite (map_find_set Zcompare_total), Z.compare_refl by auto. eauto.
          -- apply I3. left; eauto.
          -- apply I3. right. rewrite (map_find_set Zcompare_total) by auto. destruct (f ?= f0); eauto.
      + destruct (IH acc HS) as (I1 & I2 & I3). split; auto. split.
        * intros f s H. destruct (I2 f s H) as [[e He]|He]; [left; exists e; simpl; auto|auto].
        * intros f [(e & s & [[= -> -> -> ->]|He])|Hs]; [congruence|apply I3; left; eauto|apply I3; auto].
  Qed.
  Lemma bnd_spec c f : (forall s, map_find Z.compare f (boundary_of m' c) = Some s -> survives x f /\ side_cell f s = c) /\
    (forall s, survives x f -> side_cell f s = c -> exists s', map_find Z.compare f (boundary_of m' c) = Some s').
  Proof.
    destruct (bnd_fold c m' [] (ss_nil _)) as (_ & I2 & I3). fold (boundary_of m' c) in I2, I3. split.
    - intros s H. destruct (I2 f s H) as [[e He]|He]; [|discriminate]. apply m'_In in He as [Hs ->]. split; auto. eapply side_survives; eauto.
    - intros s HS E. destruct (survives_edge f HS s) as [e He]. apply I3. left. exists e, s. apply m'_In. auto.
  Qed.

  Let r := collapse lnk ord open faces.
  Lemma bnd_nth c b : nth_error (cl_bnd r) c = Some b <-> (c < length (ds_roots d))%nat /\ b = boundary_of m' (Z.of_nat c).
  Proof.
    change (cl_bnd r) with (map (boundary_of m') (zrange 0 (length (cell_reindexer d)))). rewrite re_len. split.
    - intros H. assert (L : (c < length (ds_roots d))%nat). { rewrite <- (zrange_length 0 (length (ds_roots d))), <- (map_length (boundary_of m')). apply nth_error_Some. congruence. }
      split; auto. unfold zrange in H. rewrite map_map in H. erewrite map_nth_error in H; [|rewrite nth_error_nth' with (d := 0%nat) by (rewrite seq_length; auto); rewrite seq_nth by auto; reflexivity].
      injection H as <-. f_equal.
    - intros [L ->]. unfold zrange. rewrite map_map. erewrite map_nth_error; [|rewrite nth_error_nth' with (d := 0%nat) by (rewrite seq_length; auto); rewrite seq_nth by auto; reflexivity].
      f_equal.
  Qed.

  Theorem sides_ok : exists sc : Z -> bool -> Z,
    (forall f e s, side_at m f e s -> survives x f /\ cell_id (cl_hf r) (f, e) = Some (sc f s)) /\
    (forall f s, survives x f -> (exists e, side_at m f e s) /\ 0 <= sc f s < Z.of_nat (length (cl_bnd r))) /\
    (forall c, 0 <= c < Z.of_nat (length (cl_bnd r)) -> exists f s, survives x f /\ sc f s = c) /\
    (forall c b f s, nth_error (cl_bnd r) c = Some b ->
       (map_find Z.compare f b = Some s -> survives x f /\ sc f s = Z.of_nat c) /\
       (survives x f -> sc f s = Z.of_nat c -> sc f (negb s) <> Z.of_nat c -> map_find Z.compare f b = Some s) /\
       (survives x f -> sc f s = Z.of_nat c -> exists s', map_find Z.compare f b = Some s')) /\
    (forall f, In f (folded_faces (cl_hf r)) <-> survives x f /\ sc f true = sc f false) /\
    (forall f s f' s', survives x f -> survives x f' ->
       (sc f s = sc f' s' <-> dihedrally_connected ord open m (cc_invalid x) (f, s) (f', s'))).
  Proof.
    assert (LB : length (cl_bnd r) = length (ds_roots d)).
    { unfold r, collapse. cbn [cl_bnd]. rewrite map_length, zrange_length. apply re_len. }
    exists side_cell. rewrite LB. split; [|split; [|split; [|split; [|split]]]].
    - intros f e s H. split; [eapply side_survives; eauto|]. change (cl_hf r) with m'. unfold cell_id. rewrite final_hf_find.
      destruct H as [c ->]. auto.
    - intros f s H. split; [apply survives_edge; auto|apply side_cell_range; auto].
    - apply side_cell_surj.
    - intros c b f s H. apply bnd_nth in H as [_ ->]. destruct (bnd_spec (Z.of_nat c) f) as [B1 B2]. split; [apply B1|]. split; [|apply B2].
      intros HS E N. destruct (B2 s HS E) as [s' H]. assert (H' := H). apply B1 in H' as [_ H']. destruct (Bool.bool_dec s s') as [->|Hne]; auto.
      exfalso. apply N. replace (negb s) with s' by (destruct s, s'; simpl; congruence). auto.
    - intros f. change (cl_hf r) with m'. unfold folded_faces. rewrite (set_of_list_In Zcompare_total), in_flat_map. split.
      + intros ([[f' e] [c s]] & Hin & H). apply m'_In in Hin as [[c0 Hc] ->].
        unfold cell_id in H. rewrite final_hf_find in H. assert (HS := proj2 (val_node _ _ _ _ Hc)).
        destruct (hw_pair _ _ WF _ _ _ _ Hc) as [c1 E1]. fold m in E1. rewrite E1 in H. cbn [option_map fst] in H.
        destruct (Z.eqb_spec (side_cell f' (negb s)) (side_cell f' s)) as [E|]; [|destruct H]. destruct H as [<-|[]]. split; auto.
        destruct s; simpl in E; congruence.
      + intros [HS E]. destruct (survives_edge f HS true) as [e He]. exists ((f, e), (side_cell f true, true)). split; [apply m'_In; auto|].
        destruct He as [c0 Hc]. unfold cell_id. rewrite final_hf_find. destruct (hw_pair _ _ WF _ _ _ _ Hc) as [c1 E1]. fold m in E1. rewrite E1.
        cbn [option_map fst negb]. rewrite E, Z.eqb_refl. simpl; auto.
    - apply side_cell_same.
  Qed.
End Merge.
