(** C152: the parameters of CutmeshGenerator_Imgui; C153: sessions of the cut-mesh window. *)
From Verif Require Import Base Num CoordMask SmallestEdge SmallestEdgeProofs Deform PropsDeform GuiSession.
Set Implicit Arguments.
Local Open Scope Z_scope.

(** ** specification *)
(** a box: as many minima as maxima, none above its maximum *)
Definition ordered (b : box) : Prop := Forall2 (fun a c => (a <= c)%Qc) (fst b) (snd b).
(** the smaller / larger of two numbers *)
Definition is_min (a b m : Qc) : Prop := ((a <= b)%Qc -> m = a) /\ ((b <= a)%Qc -> m = b).
Definition is_max (a b m : Qc) : Prop := ((a <= b)%Qc -> m = b) /\ ((b <= a)%Qc -> m = a).
Definition nothing_typed (f : frame) : Prop := fr_N f = None /\ fr_min f = None /\ fr_max f = None /\ fr_cube f = None /\ fr_level f = None.

Lemma gui_dirty_iff f : gui_dirty f = false <-> nothing_typed f.
Proof. unfold gui_dirty, nothing_typed. destruct f as [[] [] [] [] []]; cbn; split; try discriminate; try tauto; intros H; repeat (destruct H as [? H]; try discriminate). Qed.
Lemma qc_cases a b : (a < b)%Qc \/ (b <= a)%Qc.
Proof. destruct (qltb a b) eqn:E; [left; apply qltb_lt; auto|right; apply qltb_ge; auto]. Qed.
Lemma sel_min_spec mn mx : forall i a b, nth_error mn i = Some a -> nth_error mx i = Some b -> exists m, nth_error (sel_min mn mx) i = Some m /\ is_min a b m.
Proof.
  unfold sel_min. intros i a b H1 H2. rewrite nth_error_zipwith, H1, H2. eexists. split; [reflexivity|]. unfold is_min. destruct (qltb a b) eqn:E; [apply qltb_lt in E|apply qltb_ge in E].
  - split; auto. intros H. exfalso. exact (Qclt_not_le _ _ E H).
  - split; auto. intros H. apply Qcle_antisym; auto.
Qed.
Lemma sel_max_spec mn mx : forall i a b, nth_error mn i = Some a -> nth_error mx i = Some b -> exists m, nth_error (sel_max mn mx) i = Some m /\ is_max a b m.
Proof.
  unfold sel_max. intros i a b H1 H2. rewrite nth_error_zipwith, H1, H2. eexists. split; [reflexivity|]. unfold is_max. destruct (qltb b a) eqn:E; [apply qltb_lt in E|apply qltb_ge in E].
  - split; auto. intros H. exfalso. exact (Qclt_not_le _ _ E H).
  - split; auto. intros H. apply Qcle_antisym; auto.
Qed.
Lemma ordered_sel_min mn mx : length mn = length mx -> Forall2 (fun a c => (a <= c)%Qc) (sel_min mn mx) mx.
Proof.
  unfold sel_min. revert mx. induction mn as [|a mn IH]; intros [|b mx] E; try discriminate; cbn [zipwith]; constructor; [|apply IH; cbn in E; lia]. destruct (qltb a b) eqn:Q; [apply Qclt_le_weak, qltb_lt; auto|apply Qcle_refl].
Qed.
Lemma ordered_sel_max mn mx : length mn = length mx -> Forall2 (fun a c => (a <= c)%Qc) mn (sel_max mn mx).
Proof.
  unfold sel_max. revert mx. induction mn as [|a mn IH]; intros [|b mx] E; try discriminate; cbn [zipwith]; constructor; [|apply IH; cbn in E; lia]. destruct (qltb b a) eqn:Q; [apply Qcle_refl|apply qltb_ge; auto].
Qed.
Lemma F2_len (A B : Type) (R : A -> B -> Prop) l l' : Forall2 R l l' -> length l = length l'.
Proof. induction 1; cbn; lia. Qed.

(** ** C152 *)
(** a frame in which nothing is typed changes nothing and reports no change; otherwise a change is reported, the typed values are taken over, the typed minimum is cut at the
    maximum shown before, the typed maximum is raised to the minimum, and the generator gets the grid of the values now shown *)
Theorem c152_frame : forall from_bbox s f, let '(s', dirty) := gui from_bbox s f in
  (nothing_typed f -> s' = s /\ dirty = false) /\
  (~ nothing_typed f -> dirty = true /\ d_dirty (im_d s') = true /\ in_grid (d_in (im_d s')) = from_bbox (im_box s') (im_N s') (im_cube s')) /\
  im_N s' = match fr_N f with Some n => n | None => im_N s end /\ im_cube s' = match fr_cube f with Some c => c | None => im_cube s end /\ im_level s' = match fr_level f with Some l => l | None => im_level s end /\
  forall i a c, nth_error (fst (im_box s)) i = Some a -> nth_error (snd (im_box s)) i = Some c ->
    forall ta tc, nth_error (match fr_min f with Some m => m | None => fst (im_box s) end) i = Some ta -> nth_error (match fr_max f with Some m => m | None => snd (im_box s) end) i = Some tc ->
    exists a' c', nth_error (fst (im_box s')) i = Some a' /\ nth_error (snd (im_box s')) i = Some c' /\
      (match fr_min f with Some _ => is_min ta c a' | None => a' = a end) /\ (match fr_max f with Some _ => is_max a' tc c' | None => c' = c end).
Proof.
  intros from_bbox s f. unfold gui. set (s1 := mkIm _ _ _ _ _). assert (B : im_box (if gui_dirty f then update_grid from_bbox s1 else s1) = im_box s1) by (destruct (gui_dirty f); auto).
  assert (N : im_N (if gui_dirty f then update_grid from_bbox s1 else s1) = im_N s1) by (destruct (gui_dirty f); auto).
  assert (C : im_cube (if gui_dirty f then update_grid from_bbox s1 else s1) = im_cube s1) by (destruct (gui_dirty f); auto).
  assert (L : im_level (if gui_dirty f then update_grid from_bbox s1 else s1) = im_level s1) by (destruct (gui_dirty f); auto).
  split; [|split; [|split; [rewrite N; unfold s1; cbn; destruct (fr_N f); auto|split; [rewrite C; unfold s1; cbn; destruct (fr_cube f); auto|split; [rewrite L; unfold s1; cbn; destruct (fr_level f); auto|]]]]].
  - intros Q. assert (D := proj2 (gui_dirty_iff f) Q). rewrite D. split; auto. destruct Q as (Q1 & Q2 & Q3 & Q4 & Q5). unfold s1, gui_min, gui_max. rewrite Q1, Q2, Q3, Q4, Q5. destruct s; auto.
  - intros Q. destruct (gui_dirty f) eqn:D; [|exfalso; apply Q, gui_dirty_iff; auto]. cbn [update_grid with_d im_d step d_dirty d_in in_grid im_box im_N im_cube]. auto.
  - intros i a c Ha Hc ta tc Hta Htc. rewrite B. unfold s1, gui_min, gui_max. cbn [im_box]. destruct (im_box s) as [mn mx]. cbn [fst snd] in *. destruct (fr_min f) as [m|].
    + destruct (sel_min_spec _ _ _ Hta Hc) as (a' & Ea & Ma). destruct (fr_max f) as [m'|]; cbn [fst snd].
      * destruct (sel_max_spec _ _ _ Ea Htc) as (c' & Ec & Mc). eauto 6.
      * exists a', c. auto.
    + destruct (fr_max f) as [m'|]; cbn [fst snd].
      * destruct (sel_max_spec _ _ _ Ha Htc) as (c' & Ec & Mc). exists a, c'. auto.
      * exists a, c. auto.
Qed.
Section C152.
  Variables (from_bbox : box -> list Z -> bool -> grid) (bounding : list pt -> box) (expand : box -> Qc -> box) (fl : Qc -> Qc).
  (** what the history does to the grid and to the box *)
  Definition sets_box (o : iop) : Prop := match o with IGui f => ~ nothing_typed f | ISetBox _ _ | IVertsBox _ _ _ | IMeshBox _ _ _ _ | IUpdGrid => True | IVerts _ _ | IBake => False end.
  Definition good_op (o : iop) : Prop :=
    match o with
    | IGui f => (forall m, fr_min f = Some m -> length m = 3%nat) /\ (forall m, fr_max f = Some m -> length m = 3%nat)
    | ISetBox b _ => ordered b /\ length (fst b) = 3%nat
    | _ => True end.
  Lemma istep_grid s o : (sets_box o -> in_grid (d_in (im_d (istep from_bbox bounding expand fl s o))) = staggered_grid from_bbox (istep from_bbox bounding expand fl s o)) /\
    (~ sets_box o -> in_grid (d_in (im_d (istep from_bbox bounding expand fl s o))) = in_grid (d_in (im_d s)) /\ staggered_grid from_bbox (istep from_bbox bounding expand fl s o) = staggered_grid from_bbox s).
  Proof.
    destruct o as [f|b c|V c t|V F c t| |V t|]; cbn [sets_box istep]; try (split; [intros _; reflexivity|intros X; exfalso; apply X; exact I]).
    - assert (X := c152_frame from_bbox s f). destruct (gui from_bbox s f) as [s' dirty]. destruct X as (X1 & X2 & _). cbn [fst]. split; [intros T; apply X2; auto|]. intros T. destruct (gui_dirty f) eqn:D; [exfalso; apply T; rewrite <- gui_dirty_iff; congruence|]. destruct (X1 (proj1 (gui_dirty_iff f) D)) as [-> _]. auto.
    - split; [intros []|]. intros _. split; reflexivity.
    - split; [intros []|]. intros _. cbn. destruct (d_dirty (im_d s)); split; reflexivity.
  Qed.
  (** after any history of the object the generator works on the grid of the box, the counts and the cube flag shown, unless nothing set the box since construction; and always on the level shown *)
  Theorem c152_grid_shown : forall V F g gbox level thr os, let s := irun from_bbox bounding expand fl (construct fl V F g gbox level thr) os in
    ((exists o, In o os /\ sets_box o) -> in_grid (d_in (im_d s)) = from_bbox (im_box s) (im_N s) (im_cube s)) /\
    ((forall o, In o os -> ~ sets_box o) -> in_grid (d_in (im_d s)) = g) /\ in_level (d_in (im_d s)) = im_level s.
  Proof.
    intros V F g gbox level thr os. cbv zeta. unfold irun. induction os as [|o os IH] using rev_ind.
    - cbn. split; [intros (o & [] & _)|]. auto.
    - rewrite fold_left_app. cbn [fold_left]. set (s := fold_left _ os _) in *. destruct IH as (I1 & I2 & I3). destruct (istep_grid s o) as [G1 G2]. split; [|split].
      + intros (o' & H & T). apply in_app_iff in H as [H|[<-|[]]]; [|exact (G1 T)].
        assert (D : sets_box o \/ ~ sets_box o) by (destruct o as [f|b c|V' c t|V' F' c t| |V' t|]; cbn; auto; destruct (gui_dirty f) eqn:D; [left; rewrite <- gui_dirty_iff; congruence|right; intros X; apply X, gui_dirty_iff; auto]).
        destruct D as [D|D]; [exact (G1 D)|]. destruct (G2 D) as [-> E]. transitivity (staggered_grid from_bbox s); [apply I1; eauto|symmetry; exact E].
      + intros H. destruct (G2 (H o ltac:(apply in_app_iff; cbn; auto))) as [-> _]. apply I2. intros o' Ho. apply H, in_app_iff. auto.
      + destruct o as [f|b c|V' c t|V' F' c t| |V' t|]; cbn; auto; [|destruct (d_dirty (im_d s)); auto]. destruct (gui_dirty f), (fr_level f); cbn; auto.
  Qed.
  (** the box shown is never inside out, after any history *)
  Theorem c152_box_ordered : (forall a b, (a <= b)%Qc -> (fl a <= fl b)%Qc) -> (forall b c, ordered b -> length (fst b) = 3%nat -> ordered (expand b c) /\ length (fst (expand b c)) = 3%nat) ->
    (forall V, ordered (bounding V) /\ length (fst (bounding V)) = 3%nat) ->
    forall V F g gbox level thr os, ordered gbox -> length (fst gbox) = 3%nat -> (forall o, In o os -> good_op o) ->
    let s := irun from_bbox bounding expand fl (construct fl V F g gbox level thr) os in ordered (im_box s) /\ length (fst (im_box s)) = 3%nat.
  Proof.
    intros FL EX BV V F g gbox level thr os OG LG G. cbv zeta. unfold irun.
    assert (CAST : forall b, ordered b -> length (fst b) = 3%nat -> ordered (cast fl b) /\ length (fst (cast fl b)) = 3%nat).
    { intros [mn mx] O L. unfold ordered, cast in *. cbn [fst snd] in *. rewrite map_length. split; auto. clear L. induction O; constructor; auto. }
    assert (PAD : forall b, ordered b -> length (fst b) = 3%nat -> ordered (pad_box fl b) /\ length (fst (pad_box fl b)) = 3%nat).
    { intros [mn mx] O L. unfold ordered, pad_box in *. cbn [fst snd] in *. assert (LL := F2_len O). split; [|rewrite zipwith_length; lia]. clear L LL. induction O as [|a c mn mx H O IH]; cbn [zipwith]; constructor; auto. destruct (qltb (c - a) thin); auto. apply FL. unfold pad_amount. clear - H. assert (P : (0 <= Q2Qc (1 # 100))%Qc) by (vm_compute; discriminate). qc_lra. }
    induction os as [|o os IH] using rev_ind; [cbn; apply CAST; auto|]. rewrite fold_left_app. cbn [fold_left]. set (s := fold_left _ os _) in *. destruct IH as [O L]; [intros o' Ho; apply G, in_app_iff; auto|]. assert (GO : good_op o) by (apply G, in_app_iff; cbn; auto).
    destruct o as [f|b c|V' c t|V' F' c t| |V' t|]; cbn [istep good_op] in *; auto.
    - unfold gui. cbn [fst]. set (s1 := mkIm _ _ _ _ _). assert (B : im_box (if gui_dirty f then update_grid from_bbox s1 else s1) = im_box s1) by (destruct (gui_dirty f); auto). rewrite B. unfold s1. cbn [im_box]. destruct GO as [G1 G2]. destruct (im_box s) as [mn mx]. unfold ordered in *. cbn [fst snd] in *. assert (LL := F2_len O).
      unfold gui_min, gui_max. destruct (fr_min f) as [m|] eqn:E1, (fr_max f) as [m'|] eqn:E2; cbn [fst snd]; auto.
      + specialize (G1 _ eq_refl). specialize (G2 _ eq_refl). assert (LM : length (sel_min m mx) = 3%nat) by (unfold sel_min; rewrite zipwith_length; lia). split; auto. apply ordered_sel_max. lia.
      + specialize (G1 _ eq_refl). split; [apply ordered_sel_min; lia|unfold sel_min; rewrite zipwith_length; lia].
      + specialize (G2 _ eq_refl). split; auto. apply ordered_sel_max. lia.
    - destruct GO. apply EX; auto.
    - destruct (BV V') as [B1 B2]. destruct (CAST _ B1 B2) as [C1 C2]. destruct (EX _ (fl c) C1 C2). apply PAD; auto.
    - destruct (BV V') as [B1 B2]. destruct (CAST _ B1 B2) as [C1 C2]. destruct (EX _ (fl c) C1 C2). apply PAD; auto.
  Qed.
  (** refuted: that the box always has positive size. Typing the maximum (or anything larger) as minimum leaves a box of size zero *)
  Theorem c152_zero_size_refuted : forall s f m, ordered (im_box s) -> fr_min f = Some m -> fr_max f = None -> Forall2 (fun a c => (c <= a)%Qc) m (snd (im_box s)) ->
    let s' := fst (gui from_bbox s f) in fst (im_box s') = snd (im_box s').
  Proof.
    intros s f m O E1 E2 H. cbv zeta. unfold gui. cbn [fst]. set (s1 := mkIm _ _ _ _ _). assert (B : im_box (if gui_dirty f then update_grid from_bbox s1 else s1) = im_box s1) by (destruct (gui_dirty f); auto). rewrite B. unfold s1, gui_min, gui_max. cbn [im_box]. rewrite E1, E2. cbn [fst snd]. clear - H.
    unfold sel_min. induction H as [|a c l l' H _ IH]; auto. cbn [zipwith]. f_equal; auto. rewrite (proj2 (qltb_ge a c)); auto.
  Qed.
  (** with exact numbers the box of new vertices is padded to positive size in every axis *)
  Theorem c152_pad : (forall x, fl x = x) -> forall s V scale thr, ordered (expand (cast fl (bounding V)) (fl scale)) ->
    Forall2 (fun a c => (a < c)%Qc) (fst (im_box (update_vertices_and_bbox from_bbox bounding expand fl s V scale thr))) (snd (im_box (update_vertices_and_bbox from_bbox bounding expand fl s V scale thr))).
  Proof.
    intros FL s V scale thr O. unfold update_vertices_and_bbox, update_grid, with_d, set_box. cbn [im_box]. destruct (expand _ _) as [mn mx]. unfold ordered, pad_box in *. cbn [fst snd] in *. induction O as [|a c mn mx H O IH]; cbn [zipwith]; constructor; auto.
    assert (P : (0 < Q2Qc (1 # 100))%Qc) by (vm_compute; reflexivity). assert (T : (0 < thin)%Qc) by (vm_compute; reflexivity). destruct (qltb (c - a) thin) eqn:Q; [rewrite !FL; unfold pad_amount; clear - H P; qc_lra|]. apply qltb_ge in Q. clear - Q T. qc_lra.
  Qed.
  (** refuted for float: where the spacing of floats is above 0.02 the padding is rounded away *)
  Theorem c152_pad_refuted : forall s V scale thr x, (fl (x - Q2Qc (1 # 100)) = x)%Qc -> (fl (x + Q2Qc (1 # 100)) = x)%Qc -> expand (cast fl (bounding V)) (fl scale) = ([x; x; x], [x; x; x]) ->
    im_box (update_vertices_and_bbox from_bbox bounding expand fl s V scale thr) = ([x; x; x], [x; x; x]).
  Proof.
    intros s V scale thr x H1 H2 E. unfold update_vertices_and_bbox, update_grid, with_d, set_box. cbn [im_box]. rewrite E. unfold pad_box, pad_amount. cbn [zipwith fst snd]. replace (x - x)%Qc with 0%Qc by ring. assert (T : qltb 0 thin = true) by (vm_compute; reflexivity). rewrite T, H1, H2. auto.
  Qed.
End C152.

(** ** C153 *)
Definition is_box_event (e : event) : bool := match e with EvOffset _ | EvReset => true | _ => false end.
(** what the window shows of the parameters *)
Definition shown (M : Type) (w : viewer M) : box * list Z * bool * Z := (im_box (vw_im w), im_N (vw_im w), im_cube (vw_im w), im_level (vw_im w)).
Lemma Some_inj (A : Type) (a b : A) : Some a = Some b -> a = b.
Proof. congruence. Qed.
Section C153.
  Variables (from_bbox : box -> list Z -> bool -> grid) (bounding : list pt -> box) (expand : box -> Qc -> box) (fl : Qc -> Qc).
  Variables (M : Type) (gen : inputs -> M) (cut_edges : M -> list edge) (vmask : M -> Z -> mask) (has_faces : M -> bool).
  Variables (V : list pt) (F : list tri) (grid_box : grid -> box) (b0 : box).
  Let ev := vw_event from_bbox gen cut_edges vmask has_faces V.
  Let run := vw_run from_bbox gen cut_edges vmask has_faces V.
  Let init : viewer M := vw_init from_bbox bounding expand fl M V F grid_box b0.
  Let sg (s : imgui) : grid := staggered_grid from_bbox s.
  (** what holds between events *)
  Definition weak (s : imgui) : Prop := length (in_mV (d_in (im_d s))) = length V /\ in_F (d_in (im_d s)) = F /\ in_level (d_in (im_d s)) = im_level s.
  Definition fresh (s : imgui) : Prop := d_in (im_d s) = mkIn (sg s) (map (convert (sg s) dflt) V) F (im_level s) /\ d_origV (im_d s) = V /\ (d_dirty (im_d s) = false -> d_baked (im_d s) = d_in (im_d s)).
  Lemma fresh_weak s : fresh s -> weak s.
  Proof. intros (E & _). unfold weak. rewrite E. cbn. rewrite map_length. auto. Qed.
  Lemma update_fresh (w : viewer M) : weak (vw_im w) -> fresh (vw_im (vw_update from_bbox V w)) /\ shown (vw_update from_bbox V w) = shown w.
  Proof.
    intros (L & E1 & E2). unfold vw_update, fresh, sg, shown. split; [|auto]. split; [|split; [auto|discriminate]]. unfold update_grid, with_d, step, upd_v, gen_update_vertices, staggered_grid. cbn [vw_im im_d d_in d_origV d_dirty d_baked in_grid in_mV in_F in_level im_level im_box im_N im_cube]. rewrite E1, E2, skipn_same, app_nil_r by auto. reflexivity.
  Qed.
  Lemma gui_weak s f : weak s -> weak (fst (gui from_bbox s f)).
  Proof. intros (L & E1 & E2). unfold weak, gui. cbn [fst]. destruct (gui_dirty f), (fr_level f); cbn; auto. Qed.
  Lemma gui_same s f : snd (gui from_bbox s f) = false -> fst (gui from_bbox s f) = s.
  Proof.
    intros D. assert (X := c152_frame from_bbox s f). destruct (gui from_bbox s f) as [s' dirty] eqn:G. cbn in *. subst dirty. destruct X as (X1 & X2 & _). destruct (gui_dirty f) eqn:Q.
    - exfalso. assert (Y := f_equal snd G). unfold gui in Y. cbn in Y. congruence.
    - apply X1. apply gui_dirty_iff. auto.
  Qed.
  Lemma bake_fresh s : fresh s -> fresh (with_d s (step (im_d s) Bake)) /\ forall t, emit gen (step (im_d s) Bake) = emit gen (ctor V F (sg s) (im_level s) t).
  Proof.
    intros (E1 & E2 & E3). destruct (ctor_eq V F (sg s) (im_level s) None) as (C1 & C2 & C3 & _). split.
    - unfold fresh, sg. cbn [with_d im_d step im_level]. destruct (d_dirty (im_d s)) eqn:D; cbn [d_in d_origV d_dirty d_baked]; auto.
    - intros t. assert (CT : ctor V F (sg s) (im_level s) t = ctor V F (sg s) (im_level s) None) by reflexivity. rewrite CT. unfold emit. rewrite C1, C2, C3. cbn [step]. destruct (d_dirty (im_d s)) eqn:D; cbn [d_in d_origV d_dirty d_baked]; rewrite ?(E3 eq_refl), E1, E2; auto.
  Qed.
  Lemma update_edges_im (w w' : viewer M) : vw_update_edges w = Some w' -> vw_im w' = vw_im w /\ vw_ccm w' = vw_ccm w /\ vw_saved w' = vw_saved w /\ vw_choice w' = vw_choice w /\ vw_edges w' = vw_edges w /\ vw_mapped w' = vw_mapped w.
  Proof. unfold vw_update_edges. destruct (vw_ccm w); [|discriminate]. intros H. apply Some_inj in H. subst. auto 7. Qed.
  Lemma ev_fresh w e w' : fresh (vw_im w) -> ev w e = Some w' -> fresh (vw_im w').
  Proof.
    intros FR. unfold ev, vw_event. destruct e as [o| |f| |[|]|a b|]; intros H.
    - apply Some_inj in H. subst. apply update_fresh. apply fresh_weak. auto.
    - apply Some_inj in H. subst. apply update_fresh. apply fresh_weak. auto.
    - destruct (gui from_bbox (vw_im w) f) as [s dirty] eqn:G. apply Some_inj in H. subst. destruct dirty.
      + apply update_fresh. cbn [vw_im]. replace s with (fst (gui from_bbox (vw_im w) f)) by (rewrite G; auto). apply gui_weak, fresh_weak. auto.
      + cbn [vw_im]. replace s with (fst (gui from_bbox (vw_im w) f)) by (rewrite G; auto). rewrite gui_same by (rewrite G; auto). auto.
    - unfold vw_make in H. destruct (bake_fresh FR) as [B _]. destruct (has_faces _); [apply update_edges_im in H as (-> & _); auto|apply Some_inj in H; subst; auto].
    - apply Some_inj in H. subst. auto.
    - apply update_edges_im in H as (-> & _). auto.
    - destruct (vw_choice w) as [[x y]|]; [|apply Some_inj in H; subst; auto]. destruct (touched a || touched b); [|apply Some_inj in H; subst; auto]. destruct (vw_ccm w); [|discriminate]. apply update_edges_im in H as (-> & _). auto.
    - destruct (vw_ccm w); apply Some_inj in H; subst; auto.
  Qed.
  Lemma init_fresh : fresh (vw_im init).
  Proof. apply update_fresh. cbn [vw_im]. unfold create, construct, weak. cbn [im_d im_level]. rewrite (proj1 (ctor_eq _ _ _ _ _)). cbn. rewrite map_length. auto. Qed.
  Lemma run_app es : forall w es', run w (es ++ es') = match run w es with Some w' => run w' es' | None => None end.
  Proof. unfold run. induction es as [|e es IH]; intros w es'; auto. cbn [app vw_run]. destruct (vw_event _ _ _ _ _ _ w e); auto. Qed.
  Lemma run_fresh es : forall w w', fresh (vw_im w) -> run w es = Some w' -> fresh (vw_im w').
  Proof.
    unfold run. induction es as [|e es IH]; intros w w' FR H; cbn [vw_run] in H; [apply Some_inj in H; subst; auto|]. destruct (vw_event _ _ _ _ _ _ w e) as [w1|] eqn:E; [|discriminate]. eapply IH; [|exact H]. eapply ev_fresh; eauto.
  Qed.
  (** in every session, the mesh made is the one of a new constructor on the input mesh, the grid of the values shown and the level shown *)
  Theorem c153_make : forall es w w' t, run init es = Some w -> ev w EvMake = Some w' ->
    vw_ccm w' = Some (emit gen (ctor V F (from_bbox (im_box (vw_im w)) (im_N (vw_im w)) (im_cube (vw_im w))) (im_level (vw_im w)) t)) /\ shown w' = shown w.
  Proof.
    intros es w w' t H E. assert (FR := run_fresh _ _ init_fresh H). destruct (bake_fresh FR) as [_ B]. unfold ev, vw_event, vw_make in E. cbn [im_d with_d] in E. rewrite (B t) in E. destruct (has_faces _).
    - apply update_edges_im in E as (E1 & E2 & _). unfold shown. rewrite E1, E2. auto.
    - apply Some_inj in E. subst. auto.
  Qed.
  (** the values shown are those typed last: at first, the box (in float) and the vertex counts of a 5 x 5 x 5 grid around the box of the input grown by the factor 1.1, no cubes, level 0 *)
  Definition typed (A : Type) (get : frame -> option A) (e : event) : option A := match e with EvGui f => get f | _ => None end.
  Definition last_typed (A : Type) (get : frame -> option A) (start : A) (es : list event) : A := fold_left (fun a e => match typed get e with Some x => x | None => a end) es start.
  Theorem c153_parameters : forall es w, run init es = Some w ->
    let g0 := from_bbox (pad_box (fun x => x) (expand (bounding V) (Q2Qc (11 # 10)))) [5; 5; 5] false in
    im_N (vw_im w) = last_typed fr_N (gr_shape g0) es /\ im_cube (vw_im w) = last_typed fr_cube false es /\ im_level (vw_im w) = last_typed fr_level 0 es /\
    ((forall e, In e es -> typed fr_min e = None /\ typed fr_max e = None) -> im_box (vw_im w) = (map fl (fst (grid_box g0)), map fl (snd (grid_box g0)))).
  Proof.
    intros es w H g0. assert (UP : forall x : viewer M, im_box (vw_im (vw_update from_bbox V x)) = im_box (vw_im x) /\ im_N (vw_im (vw_update from_bbox V x)) = im_N (vw_im x) /\ im_cube (vw_im (vw_update from_bbox V x)) = im_cube (vw_im x) /\ im_level (vw_im (vw_update from_bbox V x)) = im_level (vw_im x)) by (intros; repeat split).
    assert (ST : forall x e x', ev x e = Some x' -> im_N (vw_im x') = pick (typed fr_N e) (im_N (vw_im x)) /\ im_cube (vw_im x') = pick (typed fr_cube e) (im_cube (vw_im x)) /\ im_level (vw_im x') = pick (typed fr_level e) (im_level (vw_im x)) /\ (typed fr_min e = None -> typed fr_max e = None -> im_box (vw_im x') = im_box (vw_im x))).
    { clear H w es. intros x e x' H. unfold ev, vw_event in H. destruct e as [o| |f| |[|]|a b|]; cbn [typed pick].
      - apply Some_inj in H. subst. destruct (UP (mkVw (vw_im x) (offset_box (vw_orig x) o) (vw_orig x) (vw_ccm x) (vw_choice x) (vw_edges x) (vw_mapped x) (vw_display x) (vw_saved x))) as (-> & -> & -> & ->). repeat split.
      - apply Some_inj in H. subst. destruct (UP (mkVw (vw_im x) (vw_orig x) (vw_orig x) (vw_ccm x) (vw_choice x) (vw_edges x) (vw_mapped x) (vw_display x) (vw_saved x))) as (-> & -> & -> & ->). repeat split.
      - assert (C := c152_frame from_bbox (vw_im x) f). assert (BX : fr_min f = None -> fr_max f = None -> im_box (fst (gui from_bbox (vw_im x) f)) = im_box (vw_im x)) by (intros E1 E2; unfold gui, gui_min, gui_max; rewrite E1, E2; cbn [fst]; destruct (gui_dirty f); reflexivity).
        destruct (gui from_bbox (vw_im x) f) as [s d]. destruct C as (_ & _ & C1 & C2 & C3 & _). cbn [fst] in BX. apply Some_inj in H. subst x'. destruct d.
        + match goal with |- context [vw_update from_bbox V ?y] => destruct (UP y) as (-> & -> & -> & ->) end. cbn [vw_im]. unfold pick. repeat split; auto.
        + cbn [vw_im]. unfold pick. repeat split; auto.
      - unfold vw_make in H. destruct (has_faces _); [apply update_edges_im in H as (-> & _)|apply Some_inj in H; subst]; repeat split.
      - apply Some_inj in H. subst. repeat split.
      - apply update_edges_im in H as (-> & _). repeat split.
      - destruct (vw_choice x) as [[i k]|]; [|apply Some_inj in H; subst; repeat split]. destruct (touched a || touched b); [|apply Some_inj in H; subst; repeat split]. destruct (vw_ccm x); [|discriminate]. apply update_edges_im in H as (-> & _). repeat split.
      - destruct (vw_ccm x); apply Some_inj in H; subst; repeat split. }
    assert (G : forall es x, run x es = Some w -> im_N (vw_im w) = last_typed fr_N (im_N (vw_im x)) es /\ im_cube (vw_im w) = last_typed fr_cube (im_cube (vw_im x)) es /\ im_level (vw_im w) = last_typed fr_level (im_level (vw_im x)) es /\
      ((forall e, In e es -> typed fr_min e = None /\ typed fr_max e = None) -> im_box (vw_im w) = im_box (vw_im x))).
    { clear es H. induction es as [|e es IH]; intros x H; unfold run in H; cbn [vw_run] in H; [apply Some_inj in H; subst; repeat split|]. destruct (vw_event from_bbox gen cut_edges vmask has_faces V x e) as [x1|] eqn:E; [|discriminate].
      destruct (ST x e x1 E) as (S1 & S2 & S3 & S4). destruct (IH x1 H) as (I1 & I2 & I3 & I4). rewrite I1, I2, I3, S1, S2, S3. repeat split. intros N. rewrite I4 by (intros; apply N; right; auto). destruct (N e (or_introl eq_refl)). auto. }
    exact (G es init H).
  Qed.
  (** "Boundingbox Offset" o scales the window's own box about its centre by 1 + o, always from the original box; "Reset BBox" returns that one *)
  Theorem c153_offset : forall es w, run init es = Some w -> vw_orig w = b0 /\
    (forall w', ev w EvReset = Some w' -> vw_box w' = b0) /\
    forall o w' i a c, ev w (EvOffset o) = Some w' -> nth_error (fst b0) i = Some a -> nth_error (snd b0) i = Some c ->
      exists a' c', nth_error (fst (vw_box w')) i = Some a' /\ nth_error (snd (vw_box w')) i = Some c' /\ (a' + c' = a + c)%Qc /\ (c' - a' = (1 + o) * (c - a))%Qc.
  Proof.
    intros es w H. assert (OR : forall x e x', ev x e = Some x' -> vw_orig x' = vw_orig x).
    { clear. intros x e x' H. assert (UE : forall y y' : viewer M, vw_update_edges y = Some y' -> vw_orig y' = vw_orig y) by (unfold vw_update_edges; intros y y' U; destruct (vw_ccm y); [apply Some_inj in U; subst; auto|discriminate]).
      unfold ev, vw_event in H. destruct e as [o| |f| |[|]|a b|]; try (apply Some_inj in H; subst; reflexivity).
      - destruct (gui _ _ _) as [s d]. apply Some_inj in H. subst. destruct d; reflexivity.
      - unfold vw_make in H. destruct (has_faces _); [apply UE in H; exact H|apply Some_inj in H; subst; reflexivity].
      - apply UE in H. exact H.
      - destruct (vw_choice x) as [[i k]|]; [|apply Some_inj in H; subst; auto]. destruct (touched a || touched b); [|apply Some_inj in H; subst; auto]. destruct (vw_ccm x); [|discriminate]. apply UE in H. exact H.
      - destruct (vw_ccm x); apply Some_inj in H; subst; auto. }
    assert (E : vw_orig w = b0). { revert H. change b0 with (vw_orig init). generalize init. induction es as [|e es IH]; intros x H; unfold run in H; cbn [vw_run] in H; [apply Some_inj in H; subst; auto|]. destruct (vw_event from_bbox gen cut_edges vmask has_faces V x e) as [x1|] eqn:E; [|discriminate]. rewrite (IH x1 H). apply (OR x e x1 E). }
    split; [exact E|]. split.
    - intros w' H'. unfold ev, vw_event in H'. apply Some_inj in H'. subst w'. cbn [vw_update vw_box]. exact E.
    - intros o w' i a c H' A C. unfold ev, vw_event in H'. apply Some_inj in H'. subst w'. cbn [vw_update vw_box]. rewrite E. unfold offset_box. cbn [fst snd].
      assert (ZW : forall (f : Qc -> Qc -> Qc) l l' x y, nth_error l i = Some x -> nth_error l' i = Some y -> nth_error (zipwith f l l') i = Some (f x y)).
      { clear. induction i as [|i IH]; intros f [|u l] [|v l'] x y X Y; cbn in *; try discriminate; [congruence|auto]. }
      exists ((a + c) * qhalf - (1 + o) * ((c - a) * qhalf))%Qc, ((a + c) * qhalf + (1 + o) * ((c - a) * qhalf))%Qc. assert (Z1 := ZW (fun a b => (a + b) * qhalf)%Qc _ _ _ _ A C). assert (Z2 := ZW (fun a b => (b - a) * qhalf)%Qc _ _ _ _ A C). cbv beta in Z1, Z2. split; [exact (ZW (fun c x => c - (1 + o) * x)%Qc _ _ _ _ Z1 Z2)|]. split; [exact (ZW (fun c x => c + (1 + o) * x)%Qc _ _ _ _ Z1 Z2)|].
      assert (HH : (qhalf + qhalf = 1)%Qc) by (apply Qc_is_canon; reflexivity). split.
      + transitivity ((a + c) * (qhalf + qhalf))%Qc; [ring|]. rewrite HH. ring.
      + transitivity ((1 + o) * (c - a) * (qhalf + qhalf))%Qc; [ring|]. rewrite HH. ring.
  Qed.
  (** refuted: that the bounding box controls of the window change the grid. Leaving out every use of "Boundingbox Offset" and "Reset BBox" gives the same parameters, meshes, display and files *)
  Definition alike (w w' : viewer M) : Prop := fresh (vw_im w) /\ fresh (vw_im w') /\ shown w = shown w' /\ vw_ccm w = vw_ccm w' /\ vw_choice w = vw_choice w' /\ vw_edges w = vw_edges w' /\ vw_mapped w = vw_mapped w' /\ vw_display w = vw_display w' /\ vw_saved w = vw_saved w'.
  Definition alike_opt (o o' : option (viewer M)) : Prop := match o, o' with Some w, Some w' => alike w w' | None, None => True | _, _ => False end.
  Lemma alike_update_edges w w' : alike w w' -> alike_opt (vw_update_edges w) (vw_update_edges w').
  Proof.
    intros (F1 & F2 & SH & C & CH & ED & MP & DI & SV). unfold vw_update_edges. rewrite <- C, <- CH, <- ED, <- MP. destruct (vw_ccm w) eqn:EC; [|exact I]. unfold alike_opt, alike, shown in *. cbn. repeat split; auto; try apply F1; try apply F2; try congruence.
  Qed.
  Lemma sg_shown (w w' : viewer M) : shown w = shown w' -> sg (vw_im w) = sg (vw_im w').
  Proof. unfold shown, sg, staggered_grid. intros H. apply pair_equal_spec in H as [H _]. apply pair_equal_spec in H as [H H3]. apply pair_equal_spec in H as [H1 H2]. rewrite H1, H2, H3. auto. Qed.
  Lemma alike_step w w' e : is_box_event e = false -> alike w w' -> alike_opt (ev w e) (ev w' e).
  Proof.
    intros NB A. assert (A0 := A). destruct A as (F1 & F2 & SH & C & CH & ED & MP & DI & SV). unfold ev, vw_event. destruct e as [o| |f| |[|]|a b|]; try discriminate.
    - destruct (gui from_bbox (vw_im w) f) as [s dirty] eqn:G, (gui from_bbox (vw_im w') f) as [s' dirty'] eqn:G'.
      assert (D : dirty = gui_dirty f) by (assert (Y := f_equal snd G); exact (eq_sym Y)). assert (D' : dirty' = gui_dirty f) by (assert (Y := f_equal snd G'); exact (eq_sym Y)). subst dirty dirty'.
      assert (SS : (im_box s, im_N s, im_cube s, im_level s) = (im_box s', im_N s', im_cube s', im_level s')).
      { assert (Y := f_equal fst G). assert (Y' := f_equal fst G'). cbn [fst gui] in Y, Y'. subst s s'. unfold shown in SH. apply pair_equal_spec in SH as [SH H4]. apply pair_equal_spec in SH as [SH H3]. apply pair_equal_spec in SH as [H1 H2]. destruct (gui_dirty f); cbn [update_grid with_d im_box im_N im_cube im_level]; rewrite H1, H2, H3, H4; auto. }
      destruct (gui_dirty f) eqn:Q.
      + assert (W : weak s) by (replace s with (fst (gui from_bbox (vw_im w) f)) by (rewrite G; auto); apply gui_weak, fresh_weak; auto). assert (W' : weak s') by (replace s' with (fst (gui from_bbox (vw_im w') f)) by (rewrite G'; auto); apply gui_weak, fresh_weak; auto).
        unfold alike_opt, alike. split; [apply update_fresh; auto|]. split; [apply update_fresh; auto|]. rewrite (proj2 (@update_fresh (mkVw s _ _ _ _ _ _ _ _) W)), (proj2 (@update_fresh (mkVw s' _ _ _ _ _ _ _ _) W')). unfold shown. cbn. auto 10.
      + assert (E := @gui_same (vw_im w) f). assert (E' := @gui_same (vw_im w') f). rewrite G in E. rewrite G' in E'. cbn in E, E'. rewrite (E eq_refl), (E' eq_refl). unfold alike_opt, alike, shown in *. cbn. auto 12.
    - destruct (bake_fresh F1) as [B1 B2]. destruct (bake_fresh F2) as [B1' B2']. unfold vw_make. cbn [im_d with_d]. rewrite (B2 None), (B2' None). rewrite (@sg_shown _ _ SH). assert (LV : im_level (vw_im w) = im_level (vw_im w')) by (unfold shown in SH; apply pair_equal_spec in SH as [_ SH]; auto). rewrite LV. set (em := emit gen _). destruct (has_faces (em_mesh em)).
      + apply alike_update_edges. unfold alike, shown in *. cbn [vw_im vw_ccm vw_choice vw_edges vw_mapped vw_display vw_saved with_d im_box im_N im_cube im_level]. auto 12.
      + unfold alike_opt, alike, shown in *. cbn [vw_im vw_ccm vw_choice vw_edges vw_mapped vw_display vw_saved with_d im_box im_N im_cube im_level]. auto 12.
    - unfold alike_opt, alike, shown in *. cbn. auto 12.
    - apply alike_update_edges. unfold alike, shown in *. cbn. auto 12.
    - rewrite <- CH. destruct (vw_choice w) as [[x y]|] eqn:CE; [|exact A0]. destruct (touched a || touched b); [|exact A0]. rewrite <- C. destruct (vw_ccm w) as [em|] eqn:CC; [|exact I]. apply alike_update_edges. unfold alike, shown in *. cbn. rewrite CC. auto 12.
    - rewrite <- C. destruct (vw_ccm w) as [em|] eqn:CC; [|exact A0]. unfold alike_opt, alike, shown in *. cbn. rewrite SV. auto 12.
  Qed.
  Lemma alike_box w w' e : is_box_event e = true -> alike w w' -> exists w1, ev w e = Some w1 /\ alike w1 w'.
  Proof.
    intros B (F1 & F2 & SH & C & CH & ED & MP & DI & SV). unfold ev, vw_event. destruct e as [o| |f| | |a b|]; try discriminate; (eexists; split; [reflexivity|]); unfold alike; (split; [apply update_fresh, fresh_weak; auto|]); (split; [auto|]);
    unfold shown in *; cbn; auto 10.
  Qed.
  Theorem c153_box_controls_refuted : forall es, let keep := filter (fun e => negb (is_box_event e)) es in
    match run init es, run init keep with
    | Some w, Some w' => shown w = shown w' /\ vw_ccm w = vw_ccm w' /\ vw_display w = vw_display w' /\ vw_saved w = vw_saved w'
    | None, None => True | _, _ => False end.
  Proof.
    intros es. cbv zeta. assert (G : forall es w w', alike w w' -> alike_opt (run w es) (run w' (filter (fun e => negb (is_box_event e)) es))).
    { clear es. unfold run. induction es as [|e es IH]; intros w w' A; [exact A|]. cbn [filter vw_run]. destruct (is_box_event e) eqn:B; cbn [negb].
      - destruct (alike_box _ B A) as (w1 & E & A1). unfold ev in E. rewrite E. auto.
      - cbn [vw_run]. assert (X := alike_step _ B A). unfold ev in X. destruct (vw_event _ _ _ _ _ _ w e), (vw_event _ _ _ _ _ _ w' e); cbn in X; try tauto; auto. }
    assert (X := G es init init). assert (FR := init_fresh). assert (A : alike init init) by (unfold alike; auto 12). specialize (X A). destruct (run init es), (run init _); cbn in X; auto. destruct X as (_ & _ & X1 & X2 & _ & _ & _ & X3 & X4). auto.
  Qed.
  (** the mesh at hand *)
  Lemma ev_ccm w e w' : ev w e = Some w' -> e <> EvMake -> vw_ccm w' = vw_ccm w.
  Proof.
    unfold ev, vw_event. destruct e as [o| |f| |[|]|a b|]; intros H NM; try congruence.
    - apply Some_inj in H. subst. auto.
    - apply Some_inj in H. subst. auto.
    - destruct (gui _ _ _) as [s dirty]. apply Some_inj in H. subst. destruct dirty; auto.
    - apply Some_inj in H. subst. auto.
    - apply update_edges_im in H as (_ & -> & _). auto.
    - destruct (vw_choice w) as [[x y]|]; [|apply Some_inj in H; subst; auto]. destruct (touched a || touched b); [|apply Some_inj in H; subst; auto]. destruct (vw_ccm w) eqn:C; [|discriminate]. apply update_edges_im in H as (_ & -> & _). auto.
    - destruct (vw_ccm w) eqn:C; apply Some_inj in H; subst; auto.
  Qed.
  Lemma make_ccm w w' : ev w EvMake = Some w' -> exists em, vw_ccm w' = Some em.
  Proof. unfold ev, vw_event, vw_make. destruct (has_faces _); intros H; [apply update_edges_im in H as (_ & -> & _); cbn; eauto|apply Some_inj in H; subst; cbn; eauto]. Qed.
  Lemma ccm_none es : forall w w', run w es = Some w' -> (vw_ccm w' = None <-> vw_ccm w = None /\ ~ In EvMake es).
  Proof.
    unfold run. induction es as [|e es IH]; intros w w' H; cbn [vw_run] in H; [apply Some_inj in H; subst; cbn; tauto|]. destruct (vw_event _ _ _ _ _ _ w e) as [w1|] eqn:E; [|discriminate]. rewrite (IH _ _ H). cbn [In].
    assert (D : e = EvMake \/ e <> EvMake) by (destruct e; auto; right; discriminate). destruct D as [->|N].
    - destruct (@make_ccm w w1 E) as (em & ->). split; [intros [X _]; discriminate|tauto].
    - rewrite (@ev_ccm w e w1 E N). tauto.
  Qed.
  (** a session goes wrong only by using the edge choice before any mesh was made, and there it always does *)
  Definition uses_mesh (w : viewer M) (e : event) : Prop := e = EvCheck false \/ exists a b, e = EvChoice a b /\ vw_choice w <> None /\ (a <> None \/ b <> None).
  Lemma ev_none w e : ev w e = None <-> vw_ccm w = None /\ uses_mesh w e.
  Proof.
    unfold ev, vw_event, uses_mesh. destruct e as [o| |f| |[|]|a b|].
    - split; [discriminate|]. intros (_ & [H|(a & b & H & _)]); discriminate.
    - split; [discriminate|]. intros (_ & [H|(a & b & H & _)]); discriminate.
    - destruct (gui _ _ _). split; [discriminate|]. intros (_ & [H|(a' & b' & H & _)]); discriminate.
    - unfold vw_make. split; [destruct (has_faces _); [unfold vw_update_edges; cbn|]; discriminate|]. intros (_ & [H|(a & b & H & _)]); discriminate.
    - split; [discriminate|]. intros (_ & [H|(a & b & H & _)]); discriminate.
    - unfold vw_update_edges. cbn [set_choice vw_ccm]. destruct (vw_ccm w); [|tauto]. split; [discriminate|]. intros [H _]. discriminate.
    - destruct (vw_choice w) as [[x y]|] eqn:C; [|split; [discriminate|]; intros (_ & [H|(a' & b' & H & X & _)]); [discriminate|congruence]].
      assert (T : touched a || touched b = true <-> a <> None \/ b <> None) by (destruct a, b; cbn; split; auto; try discriminate; try (intros _; left; discriminate); try (intros _; right; discriminate); intros [X|X]; congruence).
      destruct (touched a || touched b) eqn:Q.
      + destruct (vw_ccm w) eqn:CC.
        * unfold vw_update_edges. cbn [set_choice vw_ccm]. rewrite CC. split; [discriminate|]. intros [H _]. discriminate.
        * split; auto. intros _. split; auto. right. exists a, b. split; auto. split; [discriminate|]. apply T. auto.
      + split; [discriminate|]. intros (_ & [H|(a' & b' & H & _ & X)]); [discriminate|]. injection H as <- <-. apply T in X. discriminate.
    - destruct (vw_ccm w); (split; [discriminate|]); intros (_ & [H|(a & b & H & _)]); discriminate.
  Qed.
  Theorem c153_fail_refuted : forall es, run init es = None <-> exists pre e post w, es = pre ++ e :: post /\ run init pre = Some w /\ ~ In EvMake pre /\ uses_mesh w e.
  Proof.
    assert (G : forall es w0, run w0 es = None <-> exists pre e post w, es = pre ++ e :: post /\ run w0 pre = Some w /\ vw_ccm w = None /\ uses_mesh w e).
    { unfold run. induction es as [|e es IH]; intros w0; cbn [vw_run].
      - split; [discriminate|]. intros ([|? ?] & ? & ? & ? & E & _); discriminate.
      - destruct (vw_event _ _ _ _ _ _ w0 e) as [w1|] eqn:E.
        + rewrite IH. split.
          * intros (pre & e' & post & w & -> & R & C & U). exists (e :: pre), e', post, w. cbn [app vw_run]. rewrite E. auto.
          * intros ([|e1 pre] & e' & post & w & X & R & C & U); cbn [app] in X; injection X as -> ->.
            -- cbn [vw_run] in R. apply Some_inj in R. subst w. exfalso. assert (Y := proj2 (ev_none w0 e') (conj C U)). unfold ev in Y. congruence.
            -- cbn [vw_run] in R. rewrite E in R. eauto 8.
        + split; auto. intros _. apply (ev_none w0 e) in E as [C U]. exists [], e, es, w0. auto. }
    intros es. rewrite G. split; intros (pre & e & post & w & E & R & C & U); exists pre, e, post, w; split; auto; split; auto; split; auto.
    - apply (ccm_none _ _ R) in C. tauto.
    - apply (ccm_none _ _ R). split; auto.
  Qed.
  (** every file written is the mesh of the last "Make CCM" before the save *)
  Lemma ev_saved w e w' : ev w e = Some w' -> vw_saved w' = vw_saved w ++ match e, vw_ccm w with EvSave, Some em => [em] | _, _ => [] end.
  Proof.
    unfold ev, vw_event. destruct e as [o| |f| |[|]|a b|]; intros H; rewrite ?app_nil_r.
    - apply Some_inj in H. subst. auto.
    - apply Some_inj in H. subst. auto.
    - destruct (gui _ _ _) as [s dirty]. apply Some_inj in H. subst. destruct dirty; auto.
    - unfold vw_make in H. destruct (has_faces _); [apply update_edges_im in H as (_ & _ & -> & _); auto|apply Some_inj in H; subst; auto].
    - apply Some_inj in H. subst. auto.
    - apply update_edges_im in H as (_ & _ & -> & _). auto.
    - destruct (vw_choice w) as [[x y]|]; [|apply Some_inj in H; subst; auto]. destruct (touched a || touched b); [|apply Some_inj in H; subst; auto]. destruct (vw_ccm w) eqn:C; [|discriminate]. apply update_edges_im in H as (_ & _ & -> & _). auto.
    - destruct (vw_ccm w); apply Some_inj in H; subst; cbn; rewrite ?app_nil_r; auto.
  Qed.
  Lemma last_make es : forall w em, run init es = Some w -> vw_ccm w = Some em -> exists pre mid w1, es = pre ++ EvMake :: mid /\ ~ In EvMake mid /\ run init (pre ++ [EvMake]) = Some w1 /\ vw_ccm w1 = Some em.
  Proof.
    induction es as [|e es IH] using rev_ind; intros w em R C; [unfold run in R; cbn in R; apply Some_inj in R; subst; discriminate|]. rewrite run_app in R. destruct (run init es) as [w0|] eqn:R0; [|discriminate]. unfold run in R. cbn [vw_run] in R. destruct (vw_event _ _ _ _ _ _ w0 e) as [w1|] eqn:E; [|discriminate]. apply Some_inj in R. subst w1.
    assert (D : e = EvMake \/ e <> EvMake) by (destruct e; auto; right; discriminate). destruct D as [->|N].
    - exists es, [], w. split; auto. split; [intros []|]. split; auto. rewrite run_app, R0. unfold run. cbn [vw_run]. rewrite E. auto.
    - rewrite (@ev_ccm w0 e w E N) in C. destruct (IH _ _ eq_refl C) as (pre & mid & w1 & -> & NI & H). exists pre, (mid ++ [e]), w1. split; [rewrite <- app_assoc; auto|]. split; auto. intros I. apply in_app_iff in I as [I|[I|[]]]; auto.
  Qed.
  Theorem c153_saved : forall es w em, run init es = Some w -> In em (vw_saved w) ->
    exists pre mid post w1, es = pre ++ EvMake :: mid ++ EvSave :: post /\ ~ In EvMake mid /\ run init (pre ++ [EvMake]) = Some w1 /\ vw_ccm w1 = Some em.
  Proof.
    induction es as [|e es IH] using rev_ind; intros w em R I; [unfold run in R; cbn in R; apply Some_inj in R; subst; destruct I|]. rewrite run_app in R. destruct (run init es) as [w0|] eqn:R0; [|discriminate]. unfold run in R. cbn [vw_run] in R. destruct (vw_event _ _ _ _ _ _ w0 e) as [w1|] eqn:E; [|discriminate]. apply Some_inj in R. subst w1.
    rewrite (@ev_saved w0 e w E) in I. apply in_app_iff in I as [I|I].
    - destruct (IH _ _ eq_refl I) as (pre & mid & post & w1 & -> & H). exists pre, mid, (post ++ [e]), w1. rewrite <- !app_assoc. cbn [app]. rewrite <- app_assoc. auto.
    - destruct e; try (destruct I; fail). destruct (vw_ccm w0) as [em'|] eqn:C; [|destruct I]. destruct I as [<-|[]]. destruct (last_make _ R0 C) as (pre & mid & w1 & -> & H). exists pre, mid, [], w1. rewrite <- app_assoc. auto.
  Qed.
  Theorem c153_save_count : forall es w e w', run init es = Some w -> ev w e = Some w' -> length (vw_saved w') = (length (vw_saved w) + match e with EvSave => if existsb (fun x => match x with EvMake => true | _ => false end) es then 1 else 0 | _ => 0 end)%nat.
  Proof.
    intros es w e w' R E. rewrite (@ev_saved w e w' E), app_length. f_equal. destruct e; auto. assert (X := ccm_none _ _ R). destruct (existsb _ es) eqn:Q.
    - destruct (vw_ccm w); auto. exfalso. destruct (proj1 X eq_refl) as [_ N]. apply existsb_exists in Q as (x & I & T). destruct x; try discriminate. auto.
    - rewrite (proj2 X); auto. split; auto. intros I. assert (T : existsb (fun x => match x with EvMake => true | _ => false end) es = true) by (apply existsb_exists; exists EvMake; auto). congruence.
  Qed.
  (** the chosen plane is one of the mesh at hand *)
  Lemma zclamp_range v lo hi : lo <= hi -> lo <= zclamp v lo hi <= hi /\ (lo <= v <= hi -> zclamp v lo hi = v) /\ (v < lo -> zclamp v lo hi = lo) /\ (hi < v -> zclamp v lo hi = hi).
  Proof. unfold zclamp. destruct (Z.ltb_spec v lo), (Z.ltb_spec hi v); lia. Qed.
  Theorem c153_choice : forall w a b w', vw_choice w <> None -> (a <> None \/ b <> None) -> ev w (EvChoice a b) = Some w' ->
    exists em x y, vw_ccm w = Some em /\ vw_choice w' = Some (x, y) /\ 0 <= x <= 2 /\ (forall n, nth_error (gr_shape (em_grid em)) (Z.to_nat x) = Some n -> 1 <= n -> 0 <= y < n) /\
      (forall t, a = Some t -> (t < 0 -> x = 0) /\ (0 <= t <= 2 -> x = t) /\ (2 < t -> x = 2)) /\
      (forall t n, b = Some t -> nth_error (gr_shape (em_grid em)) (Z.to_nat x) = Some n -> 1 <= n -> (t < 0 -> y = 0) /\ (0 <= t < n -> y = t) /\ (n <= t -> y = n - 1)).
  Proof.
    intros w a b w' NC T H. unfold ev, vw_event in H. destruct (vw_choice w) as [[x y]|]; [|congruence]. assert (Q : touched a || touched b = true) by (destruct a, b; cbn; auto; destruct T; congruence). rewrite Q in H. destruct (vw_ccm w) as [em|]; [|discriminate]. apply update_edges_im in H as (_ & _ & _ & -> & _). cbn [vw_choice set_choice].
    set (x' := zclamp (pick a x) 0 2). set (n0 := nth (Z.to_nat x') (gr_shape (em_grid em)) 0). exists em, x', (zclamp (pick b y) 0 (n0 - 1)). split; auto. split; auto. split; [apply zclamp_range; lia|].
    assert (NN : forall n, nth_error (gr_shape (em_grid em)) (Z.to_nat x') = Some n -> n0 = n) by (intros n; apply nth_error_nth). split; [|split].
    - intros n Hn P. rewrite (NN n Hn). assert (Y := @zclamp_range (pick b y) 0 (n - 1)). lia.
    - intros t ->. unfold x'. cbn [pick]. assert (Y := @zclamp_range t 0 2). lia.
    - intros t n -> Hn Ht. rewrite (NN n Hn). cbn [pick]. assert (Y := @zclamp_range t 0 (n - 1)). lia.
  Qed.
  (** the edges listed under a plane are the cut edges with both ends in it *)
  Lemma planes_In m : forall i p k, In (p, k) (planes i m) <-> i <= p /\ nth_error m (Z.to_nat (p - i)) = Some (Some k).
  Proof.
    induction m as [|[v|] m IH]; intros i p k; cbn [planes In].
    - split; [intros []|]. intros [_ H]. destruct (Z.to_nat (p - i)); discriminate.
    - rewrite IH. destruct (Z.eq_dec p i) as [->|N].
      + rewrite Z.sub_diag. cbn. split; [intros [H|[H _]]; [injection H as ->; split; [lia|auto]|lia]|]. intros [_ H]. injection H as ->. auto.
      + split; [intros [H|[H1 H2]]; [injection H as -> _; lia|]|intros [H1 H2]]; [replace (Z.to_nat (p - i)) with (S (Z.to_nat (p - (i + 1)))) by lia; cbn; split; [lia|auto]|]. right. replace (Z.to_nat (p - i)) with (S (Z.to_nat (p - (i + 1)))) in H2 by lia. cbn in H2. split; [lia|auto].
    - rewrite IH. destruct (Z.eq_dec p i) as [->|N].
      + rewrite Z.sub_diag. cbn. split; [lia|intros [_ H]; discriminate].
      + split; intros [H1 H2]; (split; [lia|]); [replace (Z.to_nat (p - i)) with (S (Z.to_nat (p - (i + 1)))) by lia; auto|]. replace (Z.to_nat (p - i)) with (S (Z.to_nat (p - (i + 1)))) in H2 by lia. auto.
  Qed.
  Lemma mask_and_nth a b i k : nth_error (mask_and a b) i = Some (Some k) <-> nth_error a i = Some (Some k) /\ nth_error b i = Some (Some k).
  Proof.
    unfold mask_and. rewrite nth_error_zipwith. destruct (nth_error a i) as [[u|]|], (nth_error b i) as [[v|]|]; cbn; try (split; [discriminate|intros [? ?]; discriminate]). destruct (Z.eqb_spec u v) as [->|N]; (split; [|]).
    - intros H. split; congruence.
    - intros [H _]. congruence.
    - discriminate.
    - intros [H1 H2]. congruence.
  Qed.
  Lemma map_find_edge_dec (c c' : Z * Z) : {c = c'} + {c <> c'}.
  Proof. decide equality; apply Z.eq_dec. Qed.
  Definition has (r : emap2) (c : Z * Z) (e : edge) : Prop := exists l, map_find edge_cmp c r = Some l /\ In e l.
  Lemma add_plane_has e r c : ssorted edge_cmp (keys r) -> ssorted edge_cmp (keys (add_plane e r c)) /\ forall c' e', has (add_plane e r c) c' e' <-> has r c' e' \/ (c' = c /\ e' = e).
  Proof.
    intros S. unfold add_plane. split; [apply (map_set_sorted edge_total); auto|]. intros c' e'. unfold has. rewrite (map_find_set edge_total) by auto. destruct (edge_cmp c' c) eqn:Q.
    - apply (tc_eq edge_total) in Q. subst c'. destruct (map_find edge_cmp c r) as [l|].
      + split; [intros (l' & H & I); apply Some_inj in H; subst; apply in_app_iff in I as [I|[I|[]]]; [left; eauto|right; auto]|]. intros [(l' & H & I)|[_ ->]]; (eexists; split; [reflexivity|]); apply in_app_iff; [left; apply Some_inj in H; subst; auto|cbn; auto].
      + split; [intros (l' & H & I); apply Some_inj in H; subst; destruct I as [I|[]]; auto|]. intros [(l' & H & I)|[_ ->]]; [discriminate|]. eexists. split; [reflexivity|cbn; auto].
    - split; [auto|]. intros [H|[-> _]]; auto. rewrite (tc_refl edge_total) in Q. discriminate.
    - split; [auto|]. intros [H|[-> _]]; auto. rewrite (tc_refl edge_total) in Q. discriminate.
  Qed.
  Theorem c153_plane_edges : forall m, (forall i k e, 0 <= i -> (exists l, map_find edge_cmp (i, k) (mapped_edges cut_edges vmask m) = Some l /\ In e l) <->
      In e (cut_edges m) /\ nth_error (vmask m (fst e)) (Z.to_nat i) = Some (Some k) /\ nth_error (vmask m (snd e)) (Z.to_nat i) = Some (Some k)) /\
    forall e, In e (plane_edges cut_edges vmask m) <-> In e (cut_edges m) /\ exists i k, nth_error (vmask m (fst e)) i = Some (Some k) /\ nth_error (vmask m (snd e)) i = Some (Some k).
  Proof.
    intros m. assert (PE : forall e, In e (plane_edges cut_edges vmask m) <-> In e (cut_edges m) /\ exists i k, nth_error (vmask m (fst e)) i = Some (Some k) /\ nth_error (vmask m (snd e)) i = Some (Some k)).
    { intros e. unfold plane_edges. rewrite filter_In. assert (X : mask_active (edge_mask vmask m e) = true <-> exists i k, nth_error (vmask m (fst e)) i = Some (Some k) /\ nth_error (vmask m (snd e)) i = Some (Some k)); [|tauto]. unfold mask_active. rewrite existsb_exists. split.
      - intros (o & I & T). destruct o as [k|]; [|discriminate]. apply In_nth_error in I as (i & I). apply mask_and_nth in I. eauto.
      - intros (i & k & H). apply (mask_and_nth (vmask m (fst e)) (vmask m (snd e)) i k) in H. exists (Some k). split; auto. eapply nth_error_In; eauto. }
    split; [|exact PE]. intros i k e Hi. fold (has (mapped_edges cut_edges vmask m) (i, k) e). unfold mapped_edges.
    assert (IN : forall e cs r, ssorted edge_cmp (keys r) -> ssorted edge_cmp (keys (fold_left (add_plane e) cs r)) /\ forall c' e', has (fold_left (add_plane e) cs r) c' e' <-> has r c' e' \/ (In c' cs /\ e' = e)).
    { clear. intros e. induction cs as [|c cs IH]; intros r S; cbn [fold_left In]; [split; auto; intros; tauto|]. destruct (@add_plane_has e r c S) as [S1 H1]. destruct (IH _ S1) as [S2 H2]. split; auto. intros c' e'. rewrite H2, H1. split; [intros [[H|[-> ->]]|[H ->]]; auto|]. intros [H|[[<-|H] ->]]; auto. }
    assert (OUT : forall es r, ssorted edge_cmp (keys r) -> forall c' e', has (fold_left (fun r e => fold_left (add_plane e) (planes 0 (edge_mask vmask m e)) r) es r) c' e' <-> has r c' e' \/ (In e' es /\ In c' (planes 0 (edge_mask vmask m e')))).
    { induction es as [|x es IH]; intros r S c' e'; cbn [fold_left In]; [tauto|]. destruct (IN x (planes 0 (edge_mask vmask m x)) r S) as [S1 H1]. rewrite IH by auto. rewrite H1. split; [intros [[H|[H ->]]|[H1' H2]]; auto|]. intros [H|[[<-|H] H']]; auto. }
    rewrite OUT by constructor. rewrite PE, planes_In, Z.sub_0_r. unfold edge_mask. rewrite mask_and_nth. split.
    - intros [(l & H & _)|((I & _) & _ & H)]; [discriminate|auto].
    - intros (I & H). right. split; [split; eauto|]. split; auto.
  Qed.
  (** refuted: that the edges on display belong to the mesh at hand; a mesh without mesh faces leaves those of the mesh before *)
  Theorem c153_stale_display_refuted : forall w w' em, ev w EvMake = Some w' -> vw_ccm w' = Some em -> has_faces (em_mesh em) = false -> vw_edges w' = vw_edges w /\ vw_mapped w' = vw_mapped w /\ vw_display w' = vw_display w.
  Proof.
    intros w w' em H C N. unfold ev, vw_event, vw_make in H. destruct (has_faces _) eqn:Q; [|apply Some_inj in H; subst; auto]. exfalso. apply update_edges_im in H as (_ & E & _). rewrite C in E. cbn [vw_ccm] in E. apply Some_inj in E. subst em. congruence.
  Qed.
  (** otherwise the display shows the edges in the chosen plane, or all of them when there are none there *)
  Theorem c153_display : forall w w' em, ev w EvMake = Some w' -> vw_ccm w' = Some em -> has_faces (em_mesh em) = true ->
    forall l, vw_display w' = Some l -> l <> [] /\
      ((exists i k, vw_choice w = Some (i, k) /\ map_find edge_cmp (i, k) (mapped_edges cut_edges vmask (em_mesh em)) = Some l) \/ l = plane_edges cut_edges vmask (em_mesh em)).
  Proof.
    intros w w' em H C N l D. unfold ev, vw_event, vw_make in H. set (em0 := emit gen _) in H. clearbody em0. destruct (has_faces _) eqn:Q; [|apply Some_inj in H; subst; cbn in C; apply Some_inj in C; subst; congruence].
    assert (E := update_edges_im _ H). destruct E as (_ & E & _). rewrite C in E. cbn [vw_ccm] in E. apply Some_inj in E. unfold vw_update_edges in H. cbn [vw_ccm vw_choice vw_mapped vw_edges] in H. apply Some_inj in H. subst w'. cbn [vw_display] in D. rewrite <- E in D.
    destruct (vw_choice w) as [[i k]|].
    - destruct (map_find edge_cmp (i, k) (mapped_edges cut_edges vmask (em_mesh em))) as [[|x xs]|] eqn:MF.
      + destruct (plane_edges cut_edges vmask (em_mesh em)) eqn:P; [discriminate|]. apply Some_inj in D. subst l. split; [discriminate|auto].
      + apply Some_inj in D. subst l. split; [discriminate|]. left. exists i, k. auto.
      + destruct (plane_edges cut_edges vmask (em_mesh em)) eqn:P; [discriminate|]. apply Some_inj in D. subst l. split; [discriminate|auto].
    - destruct (plane_edges cut_edges vmask (em_mesh em)) eqn:P; [discriminate|]. apply Some_inj in D. subst l. split; [discriminate|auto].
  Qed.
End C153.
(** Example: a session that types a new minimum above the maximum, makes and saves a mesh, moves the window's box and saves again *)
Definition gx_from (b : box) (N : list Z) (c : bool) : grid := mkGrid (fst b) (zipwith (fun x n => x / Z2Qc (n - 1))%Qc (zipwith Qcminus (snd b) (fst b)) N) N.
Definition gx_bound (V : list pt) : box := ([0; 0; 0], [Z2Qc 8; Z2Qc 8; Z2Qc 8])%Qc.
Definition gx_expand (b : box) (s : Qc) : box := b.
Definition gx_id (x : Qc) : Qc := x.
Definition gx_frame : frame := mkFr (Some [3; 5; 9]) (Some [Z2Qc (-8); 0%Qc; Z2Qc 9]) None None (Some 2).
Definition gx_run (es : list event) : option (viewer grid) :=
  vw_run gx_from in_grid (fun _ => [(0, 1); (1, 2)]) (fun _ v => if v =? 2 then [None; None; Some 1] else [Some 0; Some v; None]) (fun _ => true) [[0; 0; 0]%Qc]
    (vw_init gx_from gx_bound gx_expand gx_id grid [[0; 0; 0]%Qc] [(0, 0, 0)] (fun _ => gx_bound []) (gx_bound [])) es.
Example c153_session : option_map (fun w => (map (fun em => map this (gr_dx (em_mesh em))) (vw_saved w), vw_display w, im_level (vw_im w))) (gx_run [EvSave; EvGui gx_frame; EvMake; EvSave; EvOffset (Z2Qc 3); EvCheck true; EvChoice (Some 7) (Some 0); EvMake; EvSave])
    = Some ([[8 # 1; 2 # 1; 0 # 1]; [8 # 1; 2 # 1; 0 # 1]]%Q, Some [(0, 1)], 2) /\
  gx_run [EvGui gx_frame; EvCheck true; EvChoice (Some 1) None] = None.
Proof. split; vm_compute; reflexivity. Qed.
(** Examples for C152: a typed minimum above the maximum; numbers rounded to multiples of 1/8 *)
Definition gx_s : imgui := construct gx_id [[0; 0; 0]%Qc] [(0, 0, 0)] (gx_from (gx_bound []) [5; 5; 5] false) (gx_bound []) 0 None.
Example c152_frame_ex : let '(s, dirty) := gui gx_from gx_s gx_frame in (map (map this) [fst (im_box s); snd (im_box s)], im_N s, im_level s, dirty, gr_shape (in_grid (d_in (im_d s))))
  = ([[- 8 # 1; 0; 8 # 1]; [8 # 1; 8 # 1; 8 # 1]]%Q, [3; 5; 9], 2, true, [3; 5; 9]) /\ good_op (IGui gx_frame) /\ sets_box (IGui gx_frame).
Proof. split; [vm_compute; reflexivity|]. split; [split; intros m H; [apply Some_inj in H; subst; auto|discriminate]|]. cbn. intros (H & _). discriminate. Qed.
Definition gx_round (x : Qc) : Qc := (Z2Qc (qfloor (x * Z2Qc 8 + qhalf)) / Z2Qc 8)%Qc.
Example c152_pad_ex : (gx_round (0 - Q2Qc (1 # 100)) = 0)%Qc /\ (gx_round (0 + Q2Qc (1 # 100)) = 0)%Qc /\
  im_box (update_vertices_and_bbox gx_from (fun _ => ([0; 0; 0], [0; 0; 0])%Qc) gx_expand gx_round gx_s [[0; 0; 0]%Qc] 1%Qc None) = ([0; 0; 0], [0; 0; 0])%Qc.
Proof. assert (H1 : (gx_round (0 - Q2Qc (1 # 100)) = 0)%Qc) by (apply Qc_is_canon; vm_compute; reflexivity). assert (H2 : (gx_round (0 + Q2Qc (1 # 100)) = 0)%Qc) by (apply Qc_is_canon; vm_compute; reflexivity). split; [exact H1|]. split; [exact H2|].
  apply c152_pad_refuted; auto. unfold gx_expand, cast. cbn [fst snd map]. assert (Z0 : gx_round 0 = 0%Qc) by (apply Qc_is_canon; vm_compute; reflexivity). rewrite Z0. auto. Qed.
