(** Properties of the life cycle of CutData and SliceGenerator (CutLife.v). *)
From Verif Require Import Base CutLife.
Set Implicit Arguments.
Local Open Scope Z_scope.

Section AllLemmas.
  Variables (A B C : Type) (f : A -> option B).
  Lemma all_proj : forall (p : A -> C) (q : B -> C) l l', (forall a b, f a = Some b -> q b = p a) -> all f l = Some l' -> map q l' = map p l.
  Proof.
    intros p q; induction l as [|a t IH]; intros l' H; cbn; [intros [= <-]; reflexivity|].
    destruct (f a) eqn:Ea; [|discriminate]. destruct (all f t) eqn:Et; [|discriminate]. intros [= <-]. cbn. rewrite (H _ _ Ea). f_equal. apply IH; auto.
  Qed.
  Lemma all_some : forall l, Forall (fun a => f a <> None) l -> exists l', all f l = Some l'.
  Proof.
    induction l as [|a t IH]; intros H; cbn; [eauto|]. inversion H; subst. destruct (f a); [|congruence]. destruct IH as [l' ->]; eauto.
  Qed.
  Lemma all_none : forall l l', all f l = Some l' -> Forall (fun a => f a <> None) l.
  Proof.
    induction l as [|a t IH]; intros l'; cbn; [constructor|]. destruct (f a) eqn:E; [|discriminate]. destruct (all f t) eqn:Et; [|discriminate]. intros _. constructor; [congruence|eauto].
  Qed.
End AllLemmas.

Lemma combine_firstn : forall (A B : Type) (l : list A) (m : list B), combine l m = combine l (firstn (length l) m).
Proof. induction l as [|a t IH]; intros [|b m]; cbn; auto. f_equal; auto. Qed.

Section LifeProofs.
  Variables (vtx grid indexer emask eres tmask tres cross cedge cface : Type).
  Variable edges_of_faces : list itri -> list iedge.
  Variable face_edges_of : list itri -> list iedge -> list itri.
  Variable edge_mask : vtx -> vtx -> emask.
  Variable tri_mask : vtx -> vtx -> vtx -> tmask.
  Variable edge_bake : option grid -> emask -> vtx -> vtx -> Z -> eres.
  Variable tri_bake : option grid -> tmask -> tres -> vtx * vtx * vtx -> list eres -> itri -> Z -> tres.
  Variables (no_eres : eres) (no_tres : tres).
  Variable crossings_of : indexer -> bool -> list vtx -> list eres -> list tres -> cross.
  Variable cut_edges_of : cross -> list (iedge * emask * eres * Z) -> list tres -> list cedge.
  Variable cut_faces_of : cross -> list (itri * tmask * tres * Z) -> list eres -> list cface.
  Variable no_cross : cross.
  (** boundary_elements of no faces is empty *)
  Hypothesis no_faces_no_edges : forall E, face_edges_of [] E = [].

  Notation cutdata := (cutdata vtx indexer emask eres tmask tres cross cedge cface).
  Notation reset_intersections := (@reset_intersections vtx indexer emask eres tmask tres cross cedge cface face_edges_of edge_mask tri_mask no_eres no_tres).
  Notation set_topology_EF := (@set_topology_EF vtx indexer emask eres tmask tres cross cedge cface face_edges_of edge_mask tri_mask no_eres no_tres).
  Notation set_topology := (@set_topology vtx indexer emask eres tmask tres cross cedge cface edges_of_faces face_edges_of edge_mask tri_mask no_eres no_tres).
  Notation set_vertices := (@set_vertices vtx indexer emask eres tmask tres cross cedge cface).
  Notation refresh_eis := (@refresh_eis vtx emask eres edge_mask).
  Notation refresh_tis := (@refresh_tis vtx tmask tres tri_mask).
  Notation new_eis := (@new_eis vtx emask eres edge_mask no_eres).
  Notation new_tis := (@new_tis vtx tmask tres tri_mask no_tres).
  Notation clear := (@clear vtx indexer emask eres tmask tres cross cedge cface edge_mask tri_mask no_eres no_tres no_cross).
  Notation update_topology_masks := (@update_topology_masks vtx indexer emask eres tmask tres cross cedge cface edge_mask tri_mask).
  Notation update_vertices := (@update_vertices vtx indexer emask eres tmask tres cross cedge cface edge_mask tri_mask no_eres no_tres no_cross).
  Notation update_grid := (@update_grid vtx indexer emask eres tmask tres cross cedge cface).
  Notation bake := (@bake vtx grid indexer emask eres tmask tres cross cedge cface edge_bake tri_bake crossings_of cut_edges_of cut_faces_of).
  Notation empty := (@empty vtx indexer emask eres tmask tres cross cedge cface no_cross).
  Notation construct := (@construct vtx indexer emask eres tmask tres cross cedge cface face_edges_of edge_mask tri_mask no_eres no_tres no_cross).
  Notation op := (op vtx grid indexer emask).
  Notation exec := (@exec vtx grid indexer emask eres tmask tres cross cedge cface edges_of_faces face_edges_of edge_mask tri_mask edge_bake tri_bake no_eres no_tres crossings_of cut_edges_of cut_faces_of no_cross).
  Notation run := (@run vtx grid indexer emask eres tmask tres cross cedge cface edges_of_faces face_edges_of edge_mask tri_mask edge_bake tri_bake no_eres no_tres crossings_of cut_edges_of cut_faces_of no_cross).

  Definition strip_e (e : eis emask eres) := mkEis (ei_ends e) (ei_mask e) no_eres (ei_ix e).
  Definition strip_t (t : tis tmask tres) := mkTis (ti_corners t) (ti_mask t) (ti_edges t) no_tres (ti_ix t).
  Lemma refresh_new_e : forall V es, option_map (map strip_e) (all (refresh_eis V) es) = all (new_eis V) (combine (map (@ei_ix _ _) es) (map (@ei_ends _ _) es)).
  Proof.
    intros V; induction es as [|[[a b] m r i] t IH]; cbn; [reflexivity|]. rewrite <- IH. unfold CutLife.refresh_eis at 1; cbn.
    destruct (vget V a), (vget V b); cbn; try reflexivity. destruct (all _ t); reflexivity.
  Qed.
  Lemma refresh_new_t : forall V ts, option_map (map strip_t) (all (refresh_tis V) ts) = all (new_tis V) (combine (map (@ti_ix _ _) ts) (combine (map (@ti_corners _ _) ts) (map (@ti_edges _ _) ts))).
  Proof.
    intros V; induction ts as [|[[[a b] c] m e r i] t IH]; cbn; [reflexivity|]. rewrite <- IH. unfold CutLife.refresh_tis at 1; cbn.
    destruct (vget V a), (vget V b), (vget V c); cbn; try reflexivity. destruct (all _ t); reflexivity.
  Qed.

  Definition okE (V : list vtx) (e : iedge) : Prop := vget V (fst e) <> None /\ vget V (snd e) <> None.
  Definition okF (V : list vtx) (f : itri) : Prop := let '(a, b, c) := f in vget V a <> None /\ vget V b <> None /\ vget V c <> None.
  Record Inv (s : cutdata) : Prop := mkInv {
    i_ends : map (@ei_ends _ _) (cd_eis s) = cd_E s;
    i_eix : map (@ei_ix _ _) (cd_eis s) = map Z.of_nat (seq 0 (length (cd_E s)));
    i_corners : map (@ti_corners _ _) (cd_tis s) = cd_F s;
    i_tix : map (@ti_ix _ _) (cd_tis s) = map Z.of_nat (seq 0 (length (cd_F s)));
    i_edges : map (@ti_edges _ _) (cd_tis s) = firstn (length (cd_F s)) (cd_FE s);
    i_len : (length (cd_F s) <= length (cd_FE s))%nat;
    i_nil : cd_F s = [] -> cd_E s = [] /\ cd_FE s = [];
    i_ok : cd_ptrs s = true -> Forall (okE (cd_V s)) (cd_E s) /\ Forall (okF (cd_V s)) (cd_F s) }.

  Lemma okE_iff : forall V e, okE V (ei_ends e) <-> refresh_eis V e <> None.
  Proof. intros V [[a b] m r i]; unfold okE, CutLife.refresh_eis; cbn. destruct (vget V a), (vget V b); split; try (intros [? ?]); try split; congruence. Qed.
  Lemma okF_iff : forall V t, okF V (ti_corners t) <-> refresh_tis V t <> None.
  Proof. intros V [[[a b] c] m e r i]; unfold okF, CutLife.refresh_tis; cbn. destruct (vget V a), (vget V b), (vget V c); split; try (intros (? & ? & ?)); repeat split; congruence. Qed.
  Lemma Forall_map_iff : forall (A B : Type) (f : A -> B) (P : B -> Prop) l, Forall P (map f l) <-> Forall (fun a => P (f a)) l.
  Proof. intros; rewrite Forall_map; reflexivity. Qed.
  Lemma okE_all : forall V es, Forall (okE V) (map (@ei_ends _ _) es) <-> Forall (fun e => refresh_eis V e <> None) es.
  Proof. intros. rewrite Forall_map_iff. split; apply Forall_impl; intros a; apply okE_iff. Qed.
  Lemma okF_all : forall V ts, Forall (okF V) (map (@ti_corners _ _) ts) <-> Forall (fun t => refresh_tis V t <> None) ts.
  Proof. intros. rewrite Forall_map_iff. split; apply Forall_impl; intros a; apply okF_iff. Qed.

  Lemma inv_refreshes : forall s, Inv s -> cd_ptrs s = true -> exists es ts, all (refresh_eis (cd_V s)) (cd_eis s) = Some es /\ all (refresh_tis (cd_V s)) (cd_tis s) = Some ts.
  Proof.
    intros s I P. destruct (i_ok I P) as [H1 H2]. rewrite <- (i_ends I) in H1. rewrite <- (i_corners I) in H2.
    apply okE_all in H1. apply okF_all in H2. destruct (all_some _ H1) as [es He], (all_some _ H2) as [ts Ht]. eauto.
  Qed.

  Lemma map_combine_snd : forall (A B : Type) (l : list A) (m : list B), length l = length m -> map snd (combine l m) = m.
  Proof. induction l as [|a t IH]; intros [|b m]; cbn; try discriminate; auto. intros [= H]. f_equal; auto. Qed.
  Lemma map_combine_fst : forall (A B : Type) (l : list A) (m : list B), (length l <= length m)%nat -> map fst (combine l m) = l.
  Proof. induction l as [|a t IH]; intros [|b m]; cbn; auto; intros H; [lia|]. f_equal; apply IH; lia. Qed.
  Lemma map_combine_snd_firstn : forall (A B : Type) (l : list A) (m : list B), map snd (combine l m) = firstn (length l) m.
  Proof. induction l as [|a t IH]; intros [|b m]; cbn; auto. f_equal; auto. Qed.

  Lemma reset_inv : forall s s', (cd_F s = [] -> cd_E s = [] /\ cd_FE s = []) -> reset_intersections s = Some s' -> Inv s'.
  Proof.
    intros s s' Hn. unfold CutLife.reset_intersections. set (FE := match cd_FE s with [] => _ | _ => _ end).
    destruct (Nat.ltb_spec (length FE) (length (cd_F s))) as [|Hl]; [discriminate|].
    destruct (all (new_eis _) _) as [es|] eqn:He; [|discriminate]. destruct (all (new_tis _) _) as [ts|] eqn:Ht; [|discriminate]. intros [= <-].
    assert (Le : forall (A : Type) (l : list A), length (map Z.of_nat (seq 0 (length l))) = length l) by (intros; rewrite map_length, seq_length; reflexivity).
    assert (Lc : length (combine (cd_F s) FE) = length (cd_F s)) by (rewrite combine_length; lia).
    constructor; cbn.
    - rewrite (all_proj _ (fun x => snd x) (@ei_ends _ _)) with (2 := He); [apply map_combine_snd, Le|].
      intros [i [a b]] e; unfold CutLife.new_eis; destruct (vget (cd_V s) a), (vget (cd_V s) b); try discriminate. intros [= <-]; reflexivity.
    - rewrite (all_proj _ (fun x => fst x) (@ei_ix _ _)) with (2 := He); [apply map_combine_fst; rewrite Le; lia|].
      intros [i [a b]] e; unfold CutLife.new_eis; destruct (vget (cd_V s) a), (vget (cd_V s) b); try discriminate. intros [= <-]; reflexivity.
    - rewrite (all_proj _ (fun x => fst (snd x)) (@ti_corners _ _)) with (2 := Ht).
      + unfold numbered. rewrite <- map_map, map_combine_snd by apply Le. apply map_combine_fst; lia.
      + intros [i [[[a b] c] fe]] e; unfold CutLife.new_tis; destruct (vget (cd_V s) a), (vget (cd_V s) b), (vget (cd_V s) c); try discriminate. intros [= <-]; reflexivity.
    - rewrite (all_proj _ (fun x => fst x) (@ti_ix _ _)) with (2 := Ht).
      + unfold numbered. rewrite map_combine_fst by (rewrite Le; lia). rewrite Lc; reflexivity.
      + intros [i [[[a b] c] fe]] e; unfold CutLife.new_tis; destruct (vget (cd_V s) a), (vget (cd_V s) b), (vget (cd_V s) c); try discriminate. intros [= <-]; reflexivity.
    - rewrite (all_proj _ (fun x => snd (snd x)) (@ti_edges _ _)) with (2 := Ht).
      + unfold numbered. rewrite <- map_map, map_combine_snd by apply Le. apply map_combine_snd_firstn.
      + intros [i [[[a b] c] fe]] e; unfold CutLife.new_tis; destruct (vget (cd_V s) a), (vget (cd_V s) b), (vget (cd_V s) c); try discriminate. intros [= <-]; reflexivity.
    - exact Hl.
    - intros E. destruct (Hn E) as [E1 E2]. split; [exact E1|]. subst FE. rewrite E2, E. apply no_faces_no_edges.
    - intros _. apply all_none in He, Ht. split; apply Forall_forall.
      + intros e Hin. rewrite <- (map_combine_snd (map Z.of_nat (seq 0 (length (cd_E s)))) (cd_E s)) in Hin by apply Le.
        apply in_map_iff in Hin. destruct Hin as ([i [a b]] & <- & Hin). rewrite Forall_forall in He. specialize (He _ Hin). unfold CutLife.new_eis in He. unfold okE; cbn.
        destruct (vget (cd_V s) a), (vget (cd_V s) b); split; congruence.
      + intros f Hin. rewrite <- (map_combine_fst (cd_F s) (FE)) in Hin by lia. apply in_map_iff in Hin. destruct Hin as ([[[a b] c] fe] & <- & Hin).
        rewrite <- (map_combine_snd (map Z.of_nat (seq 0 (length (combine (cd_F s) FE)))) (combine (cd_F s) FE)) in Hin by apply Le.
        apply in_map_iff in Hin. destruct Hin as ([i x] & Ex & Hin). cbn in Ex; subst x. rewrite Forall_forall in Ht. specialize (Ht _ Hin). unfold CutLife.new_tis in Ht. unfold okF; cbn.
        destruct (vget (cd_V s) a), (vget (cd_V s) b), (vget (cd_V s) c); repeat split; congruence.
  Qed.

  (** replacing the intersections by ones with the same corners, edges and indices *)
  Lemma inv_same : forall s es ts c el fl,
    Inv s -> cd_ptrs s = true -> map (@ei_ends _ _) es = map (@ei_ends _ _) (cd_eis s) -> map (@ei_ix _ _) es = map (@ei_ix _ _) (cd_eis s) ->
    map (@ti_corners _ _) ts = map (@ti_corners _ _) (cd_tis s) -> map (@ti_ix _ _) ts = map (@ti_ix _ _) (cd_tis s) -> map (@ti_edges _ _) ts = map (@ti_edges _ _) (cd_tis s) ->
    Inv (mkCD (cd_ix s) (cd_V s) (cd_E s) (cd_F s) (cd_FE s) es ts true c el fl).
  Proof.
    intros s es ts c el fl I P H1 H2 H3 H4 H5. destruct I. constructor; cbn; try congruence; auto.
  Qed.
  Lemma refresh_e_same : forall V e e', refresh_eis V e = Some e' -> ei_ends e' = ei_ends e /\ ei_ix e' = ei_ix e.
  Proof. intros V [[a b] m r i] e'; unfold CutLife.refresh_eis; cbn. destruct (vget V a), (vget V b); try discriminate. intros [= <-]; auto. Qed.
  Lemma refresh_t_same : forall V e e', refresh_tis V e = Some e' -> ti_corners e' = ti_corners e /\ ti_ix e' = ti_ix e /\ ti_edges e' = ti_edges e.
  Proof. intros V [[[a b] c] m fe r i] e'; unfold CutLife.refresh_tis; cbn. destruct (vget V a), (vget V b), (vget V c); try discriminate. intros [= <-]; auto. Qed.
  Lemma masks_inv : forall s s', Inv s -> update_topology_masks s = Some s' -> Inv s'.
  Proof.
    intros s s' I. unfold CutLife.update_topology_masks. destruct (cd_ptrs s) eqn:P; [|discriminate].
    destruct (all (refresh_eis _) _) as [es|] eqn:He; [|discriminate]. destruct (all (refresh_tis _) _) as [ts|] eqn:Ht; [|discriminate]. intros [= <-].
    apply inv_same; auto; first [eapply all_proj in He; [exact He|] | eapply all_proj in Ht; [exact Ht|]]; intros a b Hab; first [apply refresh_e_same in Hab | apply refresh_t_same in Hab]; tauto.
  Qed.
  Lemma clear_inv : forall s s', Inv s -> clear s = Some s' -> Inv s'.
  Proof.
    intros s s' I. unfold CutLife.clear. destruct (cd_ptrs s) eqn:P; [|discriminate].
    destruct (all (refresh_eis _) _) as [es|] eqn:He; [|discriminate]. destruct (all (refresh_tis _) _) as [ts|] eqn:Ht; [|discriminate]. intros [= <-].
    apply inv_same; auto; rewrite map_map; cbn; first [eapply all_proj in He; [exact He|] | eapply all_proj in Ht; [exact Ht|]]; intros a b Hab; first [apply refresh_e_same in Hab | apply refresh_t_same in Hab]; tauto.
  Qed.

  Lemma vget_same : forall (V V' : list vtx) i, length V = length V' -> vget V i <> None -> vget V' i <> None.
  Proof. intros V V' i H. unfold vget. destruct (i <? 0); [auto|]. rewrite !nth_error_Some. lia. Qed.
  Definition with_V (V : list vtx) (s : cutdata) : cutdata := mkCD (cd_ix s) V (cd_E s) (cd_F s) (cd_FE s) (cd_eis s) (cd_tis s) (cd_ptrs s) (cd_cross s) (cd_edges s) (cd_faces s).
  Lemma with_V_inv : forall V s, Inv s -> length V = length (cd_V s) -> Inv (with_V V s).
  Proof.
    intros V s I HL. symmetry in HL. destruct I. constructor; cbn; auto. intros P. destruct (i_ok0 P) as [H1 H2].
    split; [revert H1|revert H2]; apply Forall_impl; [intros [a b]; unfold okE; cbn; intros [? ?]; split|intros [[a b] c]; unfold okF; intros (? & ? & ?); repeat split]; eapply vget_same; eauto.
  Qed.

  (** clearing: everything is as if newly constructed *)
  Lemma clear_construct : forall s, Inv s -> cd_ptrs s = true -> clear s = construct (cd_ix s) (cd_V s) (cd_E s) (cd_F s) (cd_FE s).
  Proof.
    intros s I P. destruct (inv_refreshes I P) as (es & ts & He & Ht). unfold CutLife.clear, CutLife.construct. rewrite P, He, Ht.
    change (map (fun e => mkEis (ei_ends e) (ei_mask e) no_eres (ei_ix e)) es) with (map strip_e es).
    change (map (fun t => mkTis (ti_corners t) (ti_mask t) (ti_edges t) no_tres (ti_ix t)) ts) with (map strip_t ts).
    assert (Re : all (new_eis (cd_V s)) (numbered (cd_E s)) = Some (map strip_e es)).
    { unfold numbered. rewrite <- (i_eix I), <- (i_ends I), <- refresh_new_e, He. reflexivity. }
    assert (Rt : all (new_tis (cd_V s)) (numbered (combine (cd_F s) (cd_FE s))) = Some (map strip_t ts)).
    { unfold numbered. replace (length (combine (cd_F s) (cd_FE s))) with (length (cd_F s)) by (rewrite combine_length; pose proof (i_len I); lia).
      rewrite (combine_firstn (cd_F s) (cd_FE s)), <- (i_edges I), <- (i_tix I), <- (i_corners I), <- refresh_new_t, Ht. reflexivity. }
    destruct (cd_F s) as [|f F] eqn:EF.
    { destruct (i_nil I EF) as [E1 E2]. rewrite E1, E2 in *. cbn in Re, Rt. injection Re as <-. injection Rt as <-. reflexivity. }
    destruct (cd_V s) as [|v V] eqn:EV.
    { exfalso. destruct (i_ok I P) as [_ H]. rewrite EF, EV in H. inversion H as [|? ? Hf _]; subst. destruct f as [[a b] c]. destruct Hf as [Hf _]. unfold vget in Hf. destruct (a <? 0); [auto|]. destruct (Z.to_nat a); auto. }
    unfold CutLife.set_topology_EF, CutLife.set_vertices, CutLife.empty; cbn [cd_V cd_ix cd_E cd_F cd_FE cd_eis cd_tis cd_ptrs cd_cross cd_edges cd_faces].
    unfold CutLife.reset_intersections; cbn [cd_V cd_ix cd_E cd_F cd_FE cd_eis cd_tis cd_ptrs cd_cross cd_edges cd_faces].
    replace (match cd_FE s with [] => face_edges_of (f :: F) (cd_E s) | i :: l => i :: l end) with (cd_FE s).
    2:{ pose proof (i_len I) as L. rewrite EF in L. destruct (cd_FE s); [cbn in L; lia|reflexivity]. }
    pose proof (i_len I) as L. rewrite EF in L. destruct (Nat.ltb_spec (length (cd_FE s)) (length (f :: F))); [lia|]. rewrite Re, Rt. reflexivity.
  Qed.

  Lemma empty_inv : forall ix, Inv (empty ix).
  Proof. intros; constructor; cbn; auto. Qed.
  Lemma set_vertices_inv : forall V s, Inv s -> Inv (set_vertices V s).
  Proof.
    intros V s []. constructor; cbn; auto. destruct (cd_eis s) eqn:E1; [|discriminate]. destruct (cd_tis s) eqn:E2; [|discriminate].
    intros _. rewrite <- i_ends0, <- i_corners0. cbn. auto.
  Qed.
  Lemma topEF_inv : forall E F FEA s s', Inv s -> set_topology_EF E F FEA s = Some s' -> Inv s'.
  Proof.
    intros E F FEA s s' I. unfold CutLife.set_topology_EF. destruct (cd_V s) as [|v V]; [|destruct F as [|f F]; [discriminate|]]; intros H; apply reset_inv in H; cbn; auto. discriminate.
  Qed.
  Lemma topEF_ptrs : forall E F FEA s s', set_topology_EF E F FEA s = Some s' -> cd_ptrs s' = true.
  Proof.
    assert (R : forall s s', reset_intersections s = Some s' -> cd_ptrs s' = true).
    { intros s s'. unfold CutLife.reset_intersections. destruct (Nat.ltb _ _); [discriminate|]. destruct (all _ _); [|discriminate]. destruct (all _ _); [|discriminate]. intros [= <-]; reflexivity. }
    intros E F FEA s s'. unfold CutLife.set_topology_EF. destruct (cd_V s); [apply R|]. destruct F; [discriminate|apply R].
  Qed.
  Lemma bake_inv : forall g f s s', Inv s -> bake g f s = Some s' -> Inv s'.
  Proof.
    intros g f s s' I. unfold CutLife.bake. destruct (cd_ptrs s) eqn:P; [|discriminate].
    destruct (all (bake_eis _ _ _) _) as [es|] eqn:He; [|discriminate]. destruct (all (bake_tis _ _ _ _) _) as [ts|] eqn:Ht; [|discriminate]. intros [= <-].
    assert (X : forall a b, bake_eis edge_bake g (cd_V s) a = Some b -> ei_ends b = ei_ends a /\ ei_ix b = ei_ix a).
    { intros [[a b] m r i] e'; unfold CutLife.bake_eis; cbn. destruct (vget (cd_V s) a), (vget (cd_V s) b); try discriminate. intros [= <-]; auto. }
    assert (Y : forall rs a b, bake_tis tri_bake g (cd_V s) rs a = Some b -> ti_corners b = ti_corners a /\ ti_ix b = ti_ix a /\ ti_edges b = ti_edges a).
    { intros rs [[[a b] c] m fe r i] e'; unfold CutLife.bake_tis; cbn. destruct (vget (cd_V s) a), (vget (cd_V s) b), (vget (cd_V s) c); try discriminate. intros [= <-]; auto. }
    apply inv_same; auto; first [eapply all_proj in He; [exact He|] | eapply all_proj in Ht; [exact Ht|]]; intros a b Hab; first [apply X in Hab | apply Y in Hab]; tauto.
  Qed.
  Lemma updV_inv : forall V s s', Inv s -> update_vertices V s = Some s' -> Inv s'.
  Proof.
    intros V s s' I. unfold CutLife.update_vertices. destruct (Nat.eqb_spec (length V) (length (cd_V s))); [|discriminate].
    change (mkCD _ V _ _ _ _ _ _ _ _ _) with (with_V V s). destruct (clear (with_V V s)) as [s1|] eqn:E; [|discriminate].
    intros H. apply masks_inv in H; auto. apply clear_inv in E; auto. apply with_V_inv; auto.
  Qed.
  Lemma exec_inv : forall (o : op) s s', Inv s -> exec o s = Some s' -> Inv s'.
  Proof.
    intros [V|V|F|E F FEA|ix| | | | | |i t|g f] s s' I; cbn.
    - intros [= <-]. apply set_vertices_inv, I.
    - apply updV_inv, I.
    - unfold CutLife.set_topology. destruct F; [intros [= <-]; exact I|]. apply topEF_inv, I.
    - apply topEF_inv, I.
    - intros [= <-]. destruct I; constructor; cbn; auto.
    - apply clear_inv, I.
    - intros [= <-]. constructor; cbn; auto.
    - intros [= <-]. apply set_vertices_inv. constructor; cbn; auto.
    - intros H. apply reset_inv in H; auto. apply I.
    - apply masks_inv, I.
    - intros [= <-]. exact I.
    - apply bake_inv, I.
  Qed.
  Lemma run_inv : forall (os : list op) s s', Inv s -> run os s = Some s' -> Inv s'.
  Proof.
    induction os as [|o t IH]; intros s s' I; cbn [CutLife.run]; [intros [= <-]; exact I|]. destruct (exec o s) eqn:E; [|discriminate]. apply IH. eapply exec_inv; eauto.
  Qed.

  (** C93 (history): whatever was done to a CutData before, as long as its triangles and edges do not refer to vertices that set_vertices took away (cd_ptrs),
      clear() leaves exactly the object that the constructor builds from the current vertices, edges and triangles *)
  Theorem c93_history : forall ix os s,
    run os (empty ix) = Some s -> cd_ptrs s = true ->
    exists d, clear s = Some d /\ construct (cd_ix s) (cd_V s) (cd_E s) (cd_F s) (cd_FE s) = Some d.
  Proof.
    intros ix os s H P. assert (I : Inv s) by (eapply run_inv; [apply empty_inv|exact H]).
    rewrite <- (clear_construct I P). destruct (inv_refreshes I P) as (es & ts & He & Ht). unfold CutLife.clear. rewrite P, He, Ht. eauto.
  Qed.

  Lemma refresh_again_e : forall V es es', all (refresh_eis V) es = Some es' -> all (refresh_eis V) (map strip_e es') = Some (map strip_e es').
  Proof.
    intros V; induction es as [|[[a b] m r i] t IH]; intros es'; cbn; [intros [= <-]; reflexivity|].
    unfold CutLife.refresh_eis at 1; cbn. destruct (vget V a) eqn:Ea; [|discriminate]. destruct (vget V b) eqn:Eb; [|discriminate]. destruct (all _ t) as [t'|] eqn:Et; [|discriminate].
    intros [= <-]. cbn. unfold CutLife.refresh_eis at 1; cbn. rewrite Ea, Eb, (IH _ eq_refl). reflexivity.
  Qed.
  Lemma refresh_again_t : forall V es es', all (refresh_tis V) es = Some es' -> all (refresh_tis V) (map strip_t es') = Some (map strip_t es').
  Proof.
    intros V; induction es as [|[[[a b] c] m fe r i] t IH]; intros es'; cbn; [intros [= <-]; reflexivity|].
    unfold CutLife.refresh_tis at 1; cbn. destruct (vget V a) eqn:Ea; [|discriminate]. destruct (vget V b) eqn:Eb; [|discriminate]. destruct (vget V c) eqn:Ec; [|discriminate]. destruct (all _ t) as [t'|] eqn:Et; [|discriminate].
    intros [= <-]. cbn. rewrite Ea, Eb, Ec. rewrite (IH _ eq_refl). reflexivity.
  Qed.
  Lemma map_strip_e : forall es, map strip_e (map strip_e es) = map strip_e es. Proof. intros; rewrite map_map; reflexivity. Qed.
  Lemma map_strip_t : forall es, map strip_t (map strip_t es) = map strip_t es. Proof. intros; rewrite map_map; reflexivity. Qed.
  Lemma clear_masks : forall s d, clear s = Some d -> update_topology_masks d = Some d /\ clear d = Some d.
  Proof.
    intros s d. unfold CutLife.clear. destruct (cd_ptrs s) eqn:P; [|discriminate].
    destruct (all (refresh_eis _) _) as [es|] eqn:He; [|discriminate]. destruct (all (refresh_tis _) _) as [ts|] eqn:Ht; [|discriminate]. intros [= <-].
    unfold CutLife.update_topology_masks; cbn.
    change (map (fun e => mkEis (ei_ends e) (ei_mask e) no_eres (ei_ix e)) es) with (map strip_e es).
    change (map (fun t => mkTis (ti_corners t) (ti_mask t) (ti_edges t) no_tres (ti_ix t)) ts) with (map strip_t ts).
    rewrite (refresh_again_e _ _ He), (refresh_again_t _ _ Ht). split; [reflexivity|].
    change (map (fun e => mkEis (ei_ends e) (ei_mask e) no_eres (ei_ix e)) (map strip_e es)) with (map strip_e (map strip_e es)).
    change (map (fun t => mkTis (ti_corners t) (ti_mask t) (ti_edges t) no_tres (ti_ix t)) (map strip_t ts)) with (map strip_t (map strip_t ts)).
    rewrite map_strip_e, map_strip_t. reflexivity.
  Qed.

  (** C93 (moving vertices): update_vertices with the same number of vertices gives the object newly constructed from the moved vertices;
      with any other number it is rejected *)
  Theorem c93_update_vertices : forall ix os s V,
    run os (empty ix) = Some s -> cd_ptrs s = true ->
    (length V = length (cd_V s) -> exists d, update_vertices V s = Some d /\ construct (cd_ix s) V (cd_E s) (cd_F s) (cd_FE s) = Some d)
    /\ (length V <> length (cd_V s) -> update_vertices V s = None).
  Proof.
    intros ix os s V H P. assert (I : Inv s) by (eapply run_inv; [apply empty_inv|exact H]). unfold CutLife.update_vertices.
    split; intros HL; destruct (Nat.eqb_spec (length V) (length (cd_V s))); try congruence.
    change (mkCD _ V _ _ _ _ _ _ _ _ _) with (with_V V s). assert (I' : Inv (with_V V s)) by (apply with_V_inv; auto).
    assert (P' : cd_ptrs (with_V V s) = true) by exact P. pose proof (clear_construct I' P') as C. cbn in C. rewrite <- C.
    destruct (inv_refreshes I' P') as (es & ts & He & Ht). destruct (clear (with_V V s)) as [d|] eqn:E.
    - exists d. split; [apply (clear_masks _ E)|reflexivity].
    - unfold CutLife.clear in E. rewrite P', He, Ht in E. discriminate.
  Qed.

  Lemma bake_total : forall g f d, Inv d -> cd_ptrs d = true -> exists d', bake g f d = Some d'.
  Proof.
    intros g f d I P. destruct (i_ok I P) as [H1 H2]. rewrite <- (i_ends I) in H1. rewrite <- (i_corners I) in H2. rewrite Forall_map_iff in H1, H2.
      unfold CutLife.bake. rewrite P.
      destruct (@all_some _ _ (bake_eis edge_bake g (cd_V d)) (cd_eis d)) as [es ->].
      { revert H1. apply Forall_impl. intros [[a b] m r i]; unfold okE, bake_eis; cbn. destruct (vget (cd_V d) a), (vget (cd_V d) b); intros [? ?]; congruence. }
      destruct (@all_some _ _ (bake_tis tri_bake g (cd_V d) (map (@ei_res _ _) es)) (cd_tis d)) as [ts ->]; [|eauto].
      revert H2. apply Forall_impl. intros [[[a b] c] m fe r i]; unfold okF, bake_tis; cbn. destruct (vget (cd_V d) a), (vget (cd_V d) b), (vget (cd_V d) c); intros (? & ? & ?); congruence.
  Qed.

  (** C93 (baking again): clear() then bake gives the result of the first bake on the newly built object, however often *)
  Theorem c93_rebake : forall ix os s g f,
    run os (empty ix) = Some s -> cd_ptrs s = true ->
    exists d d', construct (cd_ix s) (cd_V s) (cd_E s) (cd_F s) (cd_FE s) = Some d /\ clear s = Some d /\ bake g f d = Some d' /\
      forall g' f' d2, bake g' f' d = Some d2 -> clear d2 = Some d.
  Proof.
    intros ix os s g f H P. destruct (c93_history _ _ H P) as (d & C & D).
    assert (I : Inv s) by (eapply run_inv; [apply empty_inv|exact H]).
    assert (Id : Inv d) by (eapply clear_inv; eauto).
    assert (Pd : cd_ptrs d = true /\ cd_ix d = cd_ix s /\ cd_V d = cd_V s /\ cd_E d = cd_E s /\ cd_F d = cd_F s /\ cd_FE d = cd_FE s).
    { revert C. unfold CutLife.clear. rewrite P. destruct (all _ _); [|discriminate]. destruct (all _ _); [|discriminate]. intros [= <-]; cbn; auto 10. }
    destruct Pd as (Pd & E1 & E2 & E3 & E4 & E5).
    pose proof (bake_total g f Id Pd) as B.
    destruct B as [d' B]. exists d, d'. split; [exact D|]. split; [exact C|]. split; [exact B|].
    intros g' f' d2 B2. pose proof (bake_inv _ _ Id B2) as I2.
    assert (P2 : cd_ptrs d2 = true /\ cd_ix d2 = cd_ix d /\ cd_V d2 = cd_V d /\ cd_E d2 = cd_E d /\ cd_F d2 = cd_F d /\ cd_FE d2 = cd_FE d).
    { revert B2. unfold CutLife.bake. rewrite Pd. destruct (all _ _); [|discriminate]. destruct (all _ _); [|discriminate]. intros [= <-]; cbn; auto 10. }
    destruct P2 as (P2 & F1 & F2 & F3 & F4 & F5). rewrite (clear_construct I2 P2), F1, F2, F3, F4, F5, E1, E2, E3, E4, E5. exact D.
  Qed.

  (** C93 (fuse): the fuse flag of bake has no effect: the crossings are always fused *)
  Theorem c93_fuse_ignored : forall g s, bake g false s = bake g true s /\
    forall f s', bake g f s = Some s' -> cd_cross s' = crossings_of (cd_ix s) true (cd_V s) (map (fun e => ei_res e) (cd_eis s')) (map (fun t => ti_res t) (cd_tis s')).
  Proof.
    intros g s. split; [reflexivity|]. intros f s'. unfold CutLife.bake. destruct (cd_ptrs s); [|discriminate]. destruct (all _ _); [|discriminate]. destruct (all _ _); [|discriminate]. intros [= <-]. reflexivity.
  Qed.
  (** C93 (add_edge_isect): adding an intersection by hand has no effect *)
  Theorem c93_add_edge_isect_ignored : forall i t s, exec (OAdd vtx grid indexer i t) s = Some s.
  Proof. reflexivity. Qed.
  (** C93 (pointers): the vertex pointers are valid in a new object and after reset(), stay valid under every operation but set_vertices, and set_vertices keeps them valid on an object without edges and triangles *)
  Theorem c93_pointers_valid : forall ix os1 os2 V0 s, (forall V, ~ In (OSetV grid indexer emask V) os2) ->
    run os2 (empty ix) = Some s \/ run (OSetV grid indexer emask V0 :: os2) (empty ix) = Some s \/
    run (os1 ++ OReset vtx grid indexer emask :: os2) (empty ix) = Some s \/ run (os1 ++ OReset vtx grid indexer emask :: OSetV grid indexer emask V0 :: os2) (empty ix) = Some s -> cd_ptrs s = true.
  Proof.
    intros ix os1 os2 V0 s NS. assert (G : forall t, cd_ptrs t = true -> run os2 t = Some s -> cd_ptrs s = true).
    { revert NS. induction os2 as [|o os IH]; intros NS t P; cbn [CutLife.run]; [intros [= <-]; exact P|]. destruct (exec o t) as [t'|] eqn:E; [|discriminate]. apply IH; [intros V I; apply (NS V); cbn; auto|].
      assert (CL : forall u u', clear u = Some u' -> cd_ptrs u' = true). { intros u u'. unfold CutLife.clear. destruct (cd_ptrs u); [|discriminate]. destruct (all _ _); [|discriminate]. destruct (all _ _); [|discriminate]. intros [= <-]. reflexivity. }
      assert (UM : forall u u', update_topology_masks u = Some u' -> cd_ptrs u' = true). { intros u u'. unfold CutLife.update_topology_masks. destruct (cd_ptrs u); [|discriminate]. destruct (all _ _); [|discriminate]. destruct (all _ _); [|discriminate]. intros [= <-]. reflexivity. }
      assert (RI : forall u u', reset_intersections u = Some u' -> cd_ptrs u' = true). { intros u u'. unfold CutLife.reset_intersections. cbv zeta. destruct (_ <? _)%nat; [discriminate|]. destruct (all _ _); [|discriminate]. destruct (all _ _); [|discriminate]. intros [= <-]. reflexivity. }
      assert (TE : forall E0 F0 FEA u u', set_topology_EF E0 F0 FEA u = Some u' -> cd_ptrs u' = true). { intros E0 F0 FEA u u'. unfold CutLife.set_topology_EF. destruct (cd_V u); [intros H; eapply RI; eauto|]. destruct F0; [discriminate|intros H; eapply RI; eauto]. }
      destruct o; cbn [CutLife.exec] in E.
      - exfalso. eapply NS. left. reflexivity.
      - revert E. unfold CutLife.update_vertices. destruct (_ =? _)%nat; [|discriminate]. destruct (CutLife.clear _ _ _ _ _ _) eqn:C; [|discriminate]. intros H. eapply UM; eauto.
      - revert E. unfold CutLife.set_topology. destruct F; [intros [= <-]; auto|]. intros H. eapply TE; eauto.
      - eapply TE; eauto.
      - injection E as <-. exact P.
      - eapply CL; eauto.
      - injection E as <-. reflexivity.
      - injection E as <-. reflexivity.
      - eapply RI; eauto.
      - eapply UM; eauto.
      - injection E as <-. exact P.
      - revert E. unfold CutLife.bake. destruct (cd_ptrs t); [|discriminate]. destruct (all _ _); [|discriminate]. destruct (all _ _); [|discriminate]. intros [= <-]. reflexivity. }
    assert (AP : forall a b t u, run (a ++ b) t = Some u -> exists w, run a t = Some w /\ run b w = Some u). { induction a as [|o a IH]; intros b t u; cbn [app CutLife.run]; [eauto|]. destruct (exec o t); [apply IH|discriminate]. }
    intros [H|[H|[H|H]]].
    - revert H. apply G. reflexivity.
    - cbn [CutLife.run CutLife.exec] in H. revert H. apply G. reflexivity.
    - apply AP in H as (w & _ & H). cbn [CutLife.run CutLife.exec] in H. revert H. apply G. reflexivity.
    - apply AP in H as (w & _ & H). cbn [CutLife.run CutLife.exec] in H. revert H. apply G. reflexivity.
  Qed.
  (** C93 (dangling): after set_vertices on an object with triangles, every operation that reads them is undefined until the topology is set again *)
  Theorem c93_set_vertices_invalidates : forall ix os s V,
    run os (empty ix) = Some s -> cd_F s <> [] ->
    let s1 := set_vertices V s in
    clear s1 = None /\ update_topology_masks s1 = None /\ (forall V', update_vertices V' s1 = None) /\ (forall g f, bake g f s1 = None).
  Proof.
    intros ix os s V H HF s1. assert (I : Inv s) by (eapply run_inv; [apply empty_inv|exact H]).
    assert (P : cd_ptrs s1 = false).
    { unfold s1; cbn. destruct (cd_eis s); [|reflexivity]. destruct (cd_tis s) eqn:E; [|reflexivity]. exfalso. apply HF. rewrite <- (i_corners I), E. reflexivity. }
    unfold CutLife.clear, CutLife.update_topology_masks, CutLife.update_vertices, CutLife.bake. rewrite P. repeat split; auto.
    intros V'. destruct (Nat.eqb (length V') (length (cd_V s1))); [|reflexivity].
    reflexivity.
  Qed.
  (** C93 (append): bake never removes the edges and faces already there; it adds the newly computed ones *)
  Theorem c93_bake_appends : forall g f s s', bake g f s = Some s' ->
    exists e fs, cd_edges s' = cd_edges s ++ e /\ cd_faces s' = cd_faces s ++ fs.
  Proof.
    intros g f s s'. unfold CutLife.bake. destruct (cd_ptrs s); [|discriminate]. destruct (all _ _); [|discriminate]. destruct (all _ _); [|discriminate]. intros [= <-]; cbn; eauto.
  Qed.
  (** C93 (baking twice), REFUTED that bake may be repeated: every triangle yields at least one face (as in the code, cutdata_impl.hpp:229-267), so a second bake
      without clear() leaves more faces than the first, the old ones among them *)
  Theorem c93_double_bake_refuted : (forall c l r, (length l <= length (cut_faces_of c l r))%nat) ->
    forall ix os s g f g' f' s1 s2, run os (empty ix) = Some s -> cd_F s <> [] -> bake g f s = Some s1 -> bake g' f' s1 = Some s2 ->
    (length (cd_faces s1) < length (cd_faces s2))%nat /\ (forall x, In x (cd_faces s1) -> In x (cd_faces s2)).
  Proof.
    intros HC ix os s g f g' f' s1 s2 H HF B1 B2. assert (I : Inv s) by (eapply run_inv; [apply empty_inv|exact H]). pose proof (bake_inv _ _ I B1) as I1.
    assert (HF1 : cd_F s1 = cd_F s). { revert B1. unfold CutLife.bake. destruct (cd_ptrs s); [|discriminate]. destruct (all _ _); [|discriminate]. destruct (all _ _); [|discriminate]. intros [= <-]; reflexivity. }
    revert B2. unfold CutLife.bake. destruct (cd_ptrs s1); [|discriminate]. destruct (all _ _) as [es|]; [|discriminate]. destruct (all _ _) as [ts|] eqn:Ht; [|discriminate]. intros [= <-]; cbn. split.
    - rewrite app_length. match goal with |- context [cut_faces_of ?c ?l ?r] => pose proof (HC c l r) as L end. rewrite map_length in L.
      assert (LT : length ts = length (cd_tis s1)). { apply all_proj with (p := fun _ => tt) (q := fun _ => tt) in Ht; [|reflexivity]. apply (f_equal (@length _)) in Ht. rewrite !map_length in Ht. exact Ht. }
      pose proof (f_equal (@length _) (i_corners I1)) as LF. rewrite map_length, HF1 in LF. destruct (cd_F s); [congruence|cbn in LF; lia].
    - intros x Hx. apply in_or_app. auto.
  Qed.
  (** C93 (stale): replacing the topology keeps the crossings, edges and faces of the previous bake *)
  Theorem c93_set_topology_keeps : forall F s s', set_topology F s = Some s' -> cd_cross s' = cd_cross s /\ cd_edges s' = cd_edges s /\ cd_faces s' = cd_faces s.
  Proof.
    intros F s s'. unfold CutLife.set_topology. destruct F; [intros [= <-]; auto|]. unfold CutLife.set_topology_EF. destruct (cd_V s); unfold CutLife.reset_intersections; cbn [cd_FE cd_F cd_E cd_V];
      repeat match goal with |- context [if ?b then _ else _] => destruct b; [discriminate|] end;
      (destruct (all _ _); [|discriminate]); (destruct (all _ _); [|discriminate]); intros [= <-]; cbn; auto.
  Qed.

  (* ---------------- SliceGenerator ---------------- *)
  Variables (point : Type) (local : list point -> point -> vtx) (grid_of : list point -> grid) (index_of : list point -> indexer) (ix0 : indexer) (local0 : point -> vtx).
  Notation slicer := (slicer vtx indexer emask eres tmask tres cross cedge cface point).
  Notation slicer_new := (@slicer_new vtx indexer emask eres tmask tres cross cedge cface edges_of_faces face_edges_of edge_mask tri_mask no_eres no_tres no_cross point ix0 local0).
  Notation slice := (@slice vtx grid indexer emask eres tmask tres cross cedge cface edge_mask tri_mask edge_bake tri_bake no_eres no_tres crossings_of cut_edges_of cut_faces_of no_cross point local grid_of index_of).
  Notation srun := (@srun vtx grid indexer emask eres tmask tres cross cedge cface edge_mask tri_mask edge_bake tri_bake no_eres no_tres crossings_of cut_edges_of cut_faces_of no_cross point local grid_of index_of).

  (** the topology a slicer was built with *)
  Record SInv (n : nat) (F : list itri) (s : slicer) : Prop := mkSI { si_inv : Inv (sl_data s); si_ptrs : cd_ptrs (sl_data s) = true; si_n : length (cd_V (sl_data s)) = n;
    si_E : cd_E (sl_data s) = match F with [] => [] | _ => edges_of_faces F end; si_F : cd_F (sl_data s) = F; si_FE : cd_FE (sl_data s) = match F with [] => [] | _ => face_edges_of F (edges_of_faces F) end }.
  Lemma slicer_new_inv : forall V F s, slicer_new V F = Some s -> (F = [] \/ V <> []) -> SInv (length V) F s /\ sl_V s = V.
  Proof.
    intros V F s H HF. unfold CutLife.slicer_new in H. destruct (set_topology F _) as [d|] eqn:E; [|discriminate]. injection H as <-. split; [|reflexivity].
    unfold CutLife.set_topology in E. destruct F as [|f F].
    - injection E as <-. constructor; cbn; auto; [|apply map_length]. apply set_vertices_inv, empty_inv.
    - destruct HF as [HF|HF]; [discriminate|]. assert (I : Inv d) by (eapply topEF_inv; [|exact E]; apply set_vertices_inv, empty_inv). revert E.
      unfold CutLife.set_topology_EF. destruct V as [|v V]; [congruence|]. cbn [CutLife.set_vertices cd_V map]. unfold CutLife.reset_intersections. cbn [cd_FE cd_F cd_E cd_V cd_ix].
      match goal with |- context [if ?b then _ else _] => destruct b; [discriminate|] end.
      destruct (all _ _); [|discriminate]. destruct (all _ _); [|discriminate]. intros [= <-]. constructor; cbn [sl_data cd_V cd_E cd_F cd_FE cd_ptrs]; auto.
      cbn. rewrite map_length. reflexivity.
  Qed.
  Lemma slice_inv : forall n F s, SInv n F s -> forall T,
    (length (sl_V s) = n -> exists d, construct (index_of (map T (sl_V s))) (map (local (map T (sl_V s))) (map T (sl_V s))) (cd_E (sl_data s)) (cd_F (sl_data s)) (cd_FE (sl_data s)) = Some d
       /\ slice T s = option_map (mkSl (sl_V s)) (bake (Some (grid_of (map T (sl_V s)))) false d))
    /\ (length (sl_V s) <> n -> slice T s = None).
  Proof.
    intros n F s [I P HN HE HFa HFE] T. unfold CutLife.slice. set (VT := map T (sl_V s)). set (V := map (local VT) VT).
    assert (LV : length V = length (sl_V s)) by (unfold V, VT; rewrite !map_length; reflexivity).
    set (sg := update_grid (index_of VT) (sl_data s)). assert (Ig : Inv sg) by (destruct I; constructor; cbn; auto). assert (Pg : cd_ptrs sg = true) by exact P.
    assert (LC : length (cd_V sg) = n) by exact HN. split; intros HL; unfold CutLife.update_vertices.
    - destruct (Nat.eqb_spec (length V) (length (cd_V sg))); [|congruence]. change (mkCD _ V _ _ _ _ _ _ _ _ _) with (with_V V sg).
      assert (I' : Inv (with_V V sg)) by (apply with_V_inv; auto). assert (P' : cd_ptrs (with_V V sg) = true) by exact Pg. pose proof (clear_construct I' P') as C. cbn in C. rewrite <- C.
      destruct (inv_refreshes I' P') as (es & ts & He & Ht). destruct (clear (with_V V sg)) as [d|] eqn:E.
      + exists d. split; [reflexivity|]. destruct (clear_masks _ E) as [-> ->]. reflexivity.
      + unfold CutLife.clear in E. rewrite P', He, Ht in E. discriminate.
    - destruct (Nat.eqb_spec (length V) (length (cd_V sg))); congruence.
  Qed.
  Lemma bake_keeps : forall g f d d', bake g f d = Some d' -> cd_ptrs d' = true /\ cd_V d' = cd_V d /\ cd_E d' = cd_E d /\ cd_F d' = cd_F d /\ cd_FE d' = cd_FE d.
  Proof. intros g f d d'. unfold CutLife.bake. destruct (cd_ptrs d); [|discriminate]. destruct (all _ _); [|discriminate]. destruct (all _ _); [|discriminate]. intros [= <-]; cbn; auto. Qed.
  Lemma sexec_inv : forall n F o s s', SInv n F s -> sexec edge_mask tri_mask edge_bake tri_bake no_eres no_tres crossings_of cut_edges_of cut_faces_of no_cross local grid_of index_of o s = Some s' -> SInv n F s'.
  Proof.
    intros n F [V|T] s s' S; cbn; [intros [= <-]; destruct S; constructor; auto|].
    unfold CutLife.slice. destruct (update_vertices _ _) as [d|] eqn:E1; [|discriminate]. destruct (clear d) as [d1|] eqn:E2; [|discriminate]. destruct (bake _ _ d1) as [d2|] eqn:E3; [|discriminate]. intros [= <-].
    destruct S as [I P HN HE HFa HFE].
    assert (K : forall a b, clear a = Some b -> cd_ptrs b = true /\ cd_V b = cd_V a /\ cd_E b = cd_E a /\ cd_F b = cd_F a /\ cd_FE b = cd_FE a).
    { intros a b. unfold CutLife.clear. destruct (cd_ptrs a); [|discriminate]. destruct (all _ _); [|discriminate]. destruct (all _ _); [|discriminate]. intros [= <-]; cbn; auto. }
    assert (I1 : Inv d). { eapply updV_inv; [|exact E1]. destruct I; constructor; cbn; auto. }
    assert (I2 : Inv d1) by (eapply clear_inv; eauto). assert (I3 : Inv d2) by (eapply bake_inv; eauto).
    apply bake_keeps in E3. apply K in E2. revert E1. unfold CutLife.update_vertices. destruct (Nat.eqb_spec (length (map (local (map T (sl_V s))) (map T (sl_V s)))) (length (cd_V (update_grid (index_of (map T (sl_V s))) (sl_data s))))) as [EL|]; [|discriminate].
    destruct (clear _) as [d0|] eqn:E0; [|discriminate]. destruct (clear_masks _ E0) as [-> _]. intros [= <-]. apply K in E0. cbn in E0. cbn in EL.
    destruct E0 as (A1 & A2 & A3 & A4 & A5), E2 as (B1 & B2 & B3 & B4 & B5), E3 as (C1 & C2 & C3 & C4 & C5).
    constructor; cbn; auto; try congruence.
  Qed.
  (** C93 (slices): the result of a slice depends only on the current vertices, the triangles and the plane, not on the slices and vertex changes before it:
      a slicer with any history gives what a new one would give; with another number of vertices than it was built with it is rejected *)
  Theorem c93_slice_stateless : forall V0 F s0 os s T,
    slicer_new V0 F = Some s0 -> (F = [] \/ V0 <> []) -> srun os s0 = Some s ->
    (length (sl_V s) = length V0 -> forall sn, slicer_new (sl_V s) F = Some sn -> slice T s = slice T sn /\ slice T s <> None)
    /\ (length (sl_V s) <> length V0 -> slice T s = None).
  Proof.
    intros V0 F s0 os s T H HF HR. destruct (slicer_new_inv H HF) as [S0 _].
    assert (S : SInv (length V0) F s).
    { clear H. revert s0 S0 HR. induction os as [|o t IH]; intros s0 S0; cbn [CutLife.srun]; [intros [= <-]; auto|].
      destruct (sexec _ _ _ _ _ _ _ _ _ _ _ _ _ o s0) as [s1|] eqn:E; [|discriminate]. apply IH. eapply sexec_inv; eauto. }
    split; intros HL.
    - intros sn Hn. assert (HF' : F = [] \/ sl_V s <> []) by (destruct HF as [|HV]; [auto|right; intros E0; rewrite E0 in HL; destruct V0; [congruence|discriminate]]).
      destruct (slicer_new_inv Hn HF') as [Sn Vn].
      destruct (slice_inv S T) as [A _]. destruct (A HL) as (d & D & ->). destruct (slice_inv Sn T) as [B _]. destruct B as (d' & D' & ->); [congruence|].
      rewrite Vn in D' |- *. destruct S as [I P HN HE HFa HFE], Sn as [I' P' HN' HE' HFa' HFE']. rewrite HE, HFa, HFE in D. rewrite HE', HFa', HFE' in D'. rewrite D in D'. injection D' as <-. split; [reflexivity|].
      assert (Id : Inv d /\ cd_ptrs d = true).
      { revert D. unfold CutLife.construct. destruct F as [|f F]; [intros [= <-]; split; [apply set_vertices_inv, empty_inv|reflexivity]|].
        intros D. split; [eapply topEF_inv; [|exact D]; apply set_vertices_inv, empty_inv|]. eapply topEF_ptrs, D. }
      destruct Id as [Id Pd]. destruct (bake_total (Some (grid_of (map T (sl_V s)))) false Id Pd) as [d' ->]. discriminate.
    - apply (slice_inv S T), HL.
  Qed.
End LifeProofs.

(** Non-vacuity: vertices are numbers, a mask is the sum of the corners, an edge is cut when its ends differ by more than the grid's number, a triangle keeps what it had *)
  Definition ex_run := @run Z Z Z Z (list Z) Z (list Z) (list Z) (Z * Z) (Z * Z * Z) (fun F => flat_map (fun '(a, b, c) => [(a, b); (b, c); (c, a)]) F) (fun F _ => map (fun _ => (0, 1, 2)) F)
    Z.add (fun a b c => a + b + c) (fun g m a b i => match g with Some k => if k <? Z.abs (a - b) then [a + b] else [] | None => [m] end)
    (fun g m p v rs fe i => p ++ [m; Z.of_nat (length (concat rs))]) [] [] (fun ix f V es ts => V ++ concat es ++ concat ts)
    (fun c es ts => map (fun '(e, _, _, _) => e) es) (fun c ts es => map (fun '(t, _, _, _) => t) ts) [].
  Definition ex_construct := @construct Z Z Z (list Z) Z (list Z) (list Z) (Z * Z) (Z * Z * Z) (fun F _ => map (fun _ => (0, 1, 2)) F) Z.add (fun a b c => a + b + c) [] [] [].
  Definition ex_empty := @empty Z Z Z (list Z) Z (list Z) (list Z) (Z * Z) (Z * Z * Z) [].
  Notation setv V := (OSetV Z Z Z V). Notation updv V := (OUpdV Z Z Z V). Notation top F := (OTop Z Z Z Z F). Notation bk := (OBake Z Z Z (Some 3) true). Notation clr := (OClear Z Z Z Z).
  (** a history with two bakes, a moved mesh and a replaced topology; then clear gives the newly built object *)
  Example c93_example : exists s d,
    ex_run [setv [0; 5; 7]; top [(0, 1, 2)]; bk; updv [0; 1; 9]; bk; bk; top [(0, 2, 1)]; bk; clr] (ex_empty 4) = Some d
    /\ ex_run [setv [0; 5; 7]; top [(0, 1, 2)]; bk; updv [0; 1; 9]; bk; bk; top [(0, 2, 1)]; bk] (ex_empty 4) = Some s
    /\ cd_ptrs s = true /\ ex_construct 4 [0; 1; 9] [(0, 2); (2, 1); (1, 0)] [(0, 2, 1)] [(0, 1, 2)] = Some d
    /\ cd_faces s = [(0, 1, 2); (0, 1, 2); (0, 2, 1)].
  Proof. eexists. eexists. vm_compute. repeat split. Qed.
  (** REFUTED that replacing the topology replaces the result: the face of the old triangle is still there after the next bake *)
  Example c93_stale_refuted : exists s, ex_run [setv [0; 5; 7]; top [(0, 1, 2)]; bk; top [(0, 2, 1)]; bk] (ex_empty 4) = Some s /\ cd_F s = [(0, 2, 1)] /\ In (0, 1, 2) (cd_faces s).
  Proof. eexists. vm_compute. repeat split. left. reflexivity. Qed.
  Example c93_dangling_example : ex_run [setv [0; 5; 7]; top [(0, 1, 2)]; bk; setv [0; 5; 7]; bk] (ex_empty 4) = None.
  Proof. reflexivity. Qed.
  Definition ex_srun := @srun Z Z Z Z (list Z) Z (list Z) (list Z) (Z * Z) (Z * Z * Z)
    Z.add (fun a b c => a + b + c) (fun g m a b i => match g with Some k => if k <? Z.abs (a - b) then [a + b] else [] | None => [m] end)
    (fun g m p v rs fe i => p ++ [m; Z.of_nat (length (concat rs))]) [] [] (fun ix f V es ts => V ++ concat es ++ concat ts)
    (fun c es ts => map (fun '(e, _, _, _) => e) es) (fun c ts es => map (fun '(t, _, _, _) => t) ts) [] Z (fun V x => x + Z.of_nat (length V)) (fun V => 3) (fun V => 4).
  Definition ex_snew := @slicer_new Z Z Z (list Z) Z (list Z) (list Z) (Z * Z) (Z * Z * Z) (fun F => flat_map (fun '(a, b, c) => [(a, b); (b, c); (c, a)]) F) (fun F _ => map (fun _ => (0, 1, 2)) F)
    Z.add (fun a b c => a + b + c) [] [] [] Z 1 (fun x => x).
  Example c93_slice_example : exists s0 s r, ex_snew [0; 5; 7] [(0, 1, 2)] = Some s0 /\ ex_srun [SSlice (Z.mul 2); SSet [1; 2; 3]; SSlice (Z.add 1)] s0 = Some s /\ sl_V s = [1; 2; 3]
    /\ ex_srun [SSlice (Z.mul 5)] s = Some r /\ cd_cross (sl_data r) <> [] /\ ex_srun [SSet [1; 2]; SSlice (Z.mul 5)] s = None.
  Proof. eexists. eexists. eexists. vm_compute. repeat split. discriminate. Qed.
