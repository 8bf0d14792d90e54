(** C156: sessions of the 2D viewer.  C157: the fluxes and the colours it shows. *)
From Verif Require Import Base Num CoordMask Vertex Grid SmallestEdge AdaptiveGrid Mesh ExteriorGrid ExteriorProofs PropsExterior Sparse Mesh2 PropsMesh2 PlCurve DrawCurve GuiSession PropsGui Viewer2D.
Set Implicit Arguments.
Local Open Scope Z_scope.

Lemma seq_all_some (A : Type) (l : list (option A)) r : seq_all l = Some r <-> l = map (@Some A) r.
Proof.
  revert r. induction l as [|[a|] l IH]; intros r; cbn [seq_all].
  - split; [intros [= <-]; auto|]. destruct r; [auto|discriminate].
  - destruct (seq_all l) as [t|].
    + split.
      * intros H. apply Some_inj in H as <-. cbn. f_equal. apply IH. auto.
      * destruct r as [|b r]; [discriminate|]. cbn. intros H. assert (E : a = b) by congruence. assert (Q : l = map (@Some A) r) by congruence. apply IH in Q. congruence.
    + split; [discriminate|]. destruct r as [|b r]; [discriminate|]. cbn. intros H. assert (Q : l = map (@Some A) r) by congruence. apply IH in Q. discriminate.
  - split; [discriminate|]. destruct r; discriminate.
Qed.
Lemma seq_all_ok (A : Type) (l : list (option A)) : (forall o, In o l -> o <> None) -> exists r, seq_all l = Some r.
Proof.
  induction l as [|o l IH]; intros H; cbn [seq_all]; eauto. destruct (IH (fun x I => H x (or_intror I))) as [r ->]. destruct o as [a|]; eauto. destruct (H None); cbn; auto.
Qed.
Lemma seq_all_nth (A : Type) (l : list (option A)) r i : seq_all l = Some r -> nth_error l i = option_map (@Some A) (nth_error r i).
Proof. intros H. apply seq_all_some in H. subst. apply nth_error_map. Qed.
Lemma seq_all_length (A : Type) (l : list (option A)) r : seq_all l = Some r -> length r = length l.
Proof. intros H. apply seq_all_some in H. subst. rewrite map_length. auto. Qed.
Lemma nth_map_opt (A B : Type) (g : A -> B) l i : nth_error (map g l) i = option_map g (nth_error l i).
Proof. apply nth_error_map. Qed.

(** ** C157: the fluxes *)
(** an edge of the mesh on the border of the domain; an edge that lies on one grid line *)
Definition on_border (e : cut_edge2) : Prop := exists b, e2_ext e = Some (-2, b).
Definition border_axes_ok (m : mesh2) : Prop := forall e, In e (m2_edges m) -> on_border e -> 0 <= unbound_axis (e2_mask e) < 2.
Lemma edge_flux_some m dir : border_axes_ok m -> exists us, seq_all (map (edge_flux dir) (m2_edges m)) = Some us.
Proof.
  intros B. apply seq_all_ok. intros o I. apply in_map_iff in I as (e & <- & I). unfold edge_flux. destruct (e2_ext e) as [[oc b]|] eqn:E; [|discriminate]. destruct (Z.eqb_spec oc (-2)) as [->|]; [|discriminate].
  destruct (B e I) as [L H]; [exists b; auto|]. destruct (Z.leb_spec 0 (unbound_axis (e2_mask e))); [|lia]. destruct (Z.ltb_spec (unbound_axis (e2_mask e)) 2); [|lia]. discriminate.
Qed.
(** one flux per edge of the mesh: 0 inside, +-(component of the direction) on the border of the domain *)
Theorem c157_flux : forall m dir u, flux m dir = Some u ->
  Z.of_nat (length u) = num_edges2 m /\
  (forall i e, is_edge m i e -> exists x, nth_error u (Z.to_nat i) = Some x /\ (~ on_border e -> x = 0%Qc) /\
     forall b, e2_ext e = Some (-2, b) -> exists a, unbound_axis (e2_mask e) = Z.of_nat a /\ (a < 2)%nat /\ x = ((if b then - (1) else 1) * axis2 dir a)%Qc) /\
  (forall k d p, nth_error (facets (m2_cells m) (m2_mask m)) k = Some (d, p) ->
     nth_error u (length (m2_edges m) + k) = Some (if is_boundary_facet p then axis2 dir d else 0%Qc)).
Proof.
  intros m dir u H. unfold flux in H. destruct (seq_all _) as [us|] eqn:E; [|discriminate]. cbn [option_map] in H. apply Some_inj in H as <-. assert (L := seq_all_length _ E). rewrite map_length in L. split; [|split].
  - rewrite app_length, map_length. unfold num_edges2, ext_facets, num_cutedges. lia.
  - intros i e [I0 I]. assert (LI : (Z.to_nat i < length (m2_edges m))%nat) by (apply nth_error_Some; congruence). rewrite nth_error_app1 by lia. assert (Q := seq_all_nth _ (Z.to_nat i) E). rewrite nth_error_map, I in Q. cbn [option_map] in Q.
    destruct (nth_error us (Z.to_nat i)) as [x|]; [|discriminate]. cbn [option_map] in Q. apply Some_inj in Q. exists x. split; auto. unfold edge_flux in Q. destruct (e2_ext e) as [[oc b]|] eqn:EX.
    + destruct (Z.eqb_spec oc (-2)) as [->|NE].
      * split; [intros N; destruct N; exists b; auto|]. intros b' Hb. assert (b' = b) by congruence. subst b'. destruct ((0 <=? unbound_axis (e2_mask e)) && (unbound_axis (e2_mask e) <? 2)) eqn:R; [|discriminate]. apply andb_true_iff in R as [R1 R2]. apply Z.leb_le in R1. apply Z.ltb_lt in R2.
        exists (Z.to_nat (unbound_axis (e2_mask e))). split; [lia|]. split; [lia|]. apply Some_inj in Q. auto.
      * split; [intros _; apply Some_inj in Q; auto|]. intros b' Hb. congruence.
    + split; [intros _; apply Some_inj in Q; auto|]. discriminate.
  - intros k d p N. rewrite nth_error_app2 by lia. replace (length (m2_edges m) + k - length us)%nat with k by lia. rewrite nth_error_map, N. reflexivity.
Qed.
(** the mask of an edge on one grid line of axis [a] *)
Definition on_line (a : nat) (e : cut_edge2) : Prop := length (e2_mask e) = 2%nat /\ (a < 2)%nat /\ (exists v, nth_error (e2_mask e) a = Some (Some v)) /\ nth_error (e2_mask e) (1 - a) = Some None.
Lemma on_line_unbound a e : on_line a e -> unbound_axis (e2_mask e) = Z.of_nat (1 - a).
Proof.
  intros (L & A & (v & H1) & H2). unfold unbound_axis. destruct (e2_mask e) as [|x [|y [|? ?]]]; try discriminate. destruct a as [|[|a]]; [| |lia]; cbn in *; injection H1 as ->; injection H2 as ->; auto.
Qed.
(** The flux through the border of the domain ought to be the component of the direction across it, as it is for the facets of the exterior grid.  A border edge of the mesh on a
    grid line of axis a gets the component along the line instead: the flux of a direction across the line is 0, and that of a direction along the line is not. *)
Theorem c157_tangential_refuted : forall m dir u i e a b, flux m dir = Some u -> is_edge m i e -> on_line a e -> e2_ext e = Some (-2, b) ->
  nth_error u (Z.to_nat i) = Some ((if b then - (1) else 1) * axis2 dir (1 - a))%Qc /\
  (forall k p, nth_error (facets (m2_cells m) (m2_mask m)) k = Some (a, p) -> is_boundary_facet p = true -> nth_error u (length (m2_edges m) + k) = Some (axis2 dir a)).
Proof.
  intros m dir u i e a b H I OL EX. destruct (c157_flux _ _ H) as (_ & F & G). split.
  - destruct (F i e I) as (x & N & _ & P). destruct (P b EX) as (a' & Ea & _ & ->). rewrite (on_line_unbound OL) in Ea. assert (a' = (1 - a)%nat) by lia. subst. auto.
  - intros k p N B. rewrite (G k a p N), B. auto.
Qed.
(** the right-hand side of a cell none of whose edges has a flux is 0: interior cells are not driven *)
Theorem c157_interior : forall m h dir b B u c x, rhs m h dir = Some b -> boundary2 m true = Some B -> flux m dir = Some u -> nth_error b (Z.to_nat c) = Some x -> 0 <= c ->
  (forall r v, In (r, c, v) B -> nth (Z.to_nat r) u 0%Qc = 0%Qc) -> x = 0%Qc.
Proof.
  intros m h dir b B u c x H HB HU HN HC Z0. unfold rhs in H. rewrite HB, HU in H. apply Some_inj in H as <-. rewrite nth_map_opt in HN. unfold zseq in HN. rewrite nth_map_opt in HN. destruct (nth_error (seq 0 (Z.to_nat (num_faces2 m))) (Z.to_nat c)) as [k|] eqn:K; [|discriminate]. cbn [option_map] in HN. apply Some_inj in HN as <-.
  assert (k = Z.to_nat c). { assert (LK := nth_error_nth _ _ 0%nat K). rewrite seq_nth in LK; [lia|]. rewrite <- (seq_length (Z.to_nat (num_faces2 m)) 0). apply nth_error_Some. congruence. } subst k. rewrite Z2Nat.id by auto.
  unfold divergence2, mulTv. apply lsum_0. intros [[r c'] v] I. unfold t_col, t_val, t_row. cbn [fst snd]. destruct (Z.eqb_spec c' c) as [->|]; auto. rewrite (Z0 r v I). ring.
Qed.

(** ** C157: the colours *)
Lemma positive_spec v : (0 <= positive v)%Qc /\ ((0 <= v)%Qc -> positive v = v) /\ ((v <= 0)%Qc -> positive v = 0%Qc).
Proof.
  unfold positive. destruct (qltb 0 v) eqn:E; [apply qltb_lt in E|apply qltb_ge in E].
  - split; [apply Qclt_le_weak; auto|]. split; auto. intros H. exfalso. exact (Qclt_not_le _ _ E H).
  - split; [apply Qcle_refl|]. split; auto. intros H. apply Qcle_antisym; auto.
Qed.
Definition shown_ok (c : color) : Prop := let '(r, g, b, a) := c in (0 <= r /\ 0 <= g /\ 0 <= b)%Qc /\ a = 1%Qc.
Lemma finish_ok c : shown_ok (finish c).
Proof. destruct c as [[[r g] b] a]. cbn. split; auto. split; [|split]; apply positive_spec. Qed.
Lemma max_abs_gen (l : list Qc) : forall a, (a <= fold_left (fun a v => let b := qabs v in if qltb a b then b else a) l a)%Qc /\ (forall v, In v l -> (qabs v <= fold_left (fun a v => let b := qabs v in if qltb a b then b else a) l a)%Qc).
Proof.
  induction l as [|x l IH]; intros a; cbn [fold_left]; [split; [apply Qcle_refl|intros v []]|]. cbv zeta. destruct (qltb a (qabs x)) eqn:E; [apply qltb_lt in E|apply qltb_ge in E].
  - destruct (IH (qabs x)) as [A B]. split; [eapply Qcle_trans; [apply Qclt_le_weak; exact E|exact A]|]. intros v [<-|I]; auto.
  - destruct (IH a) as [A B]. split; auto. intros v [<-|I]; auto. eapply Qcle_trans; [exact E|exact A].
Qed.
Lemma qabs_pos v : (v <= qabs v)%Qc /\ (- v <= qabs v)%Qc /\ (0 <= qabs v)%Qc.
Proof. unfold qabs. destruct (qltb v 0) eqn:E; [apply qltb_lt in E|apply qltb_ge in E]; (split; [|split]); qc_lra. Qed.
Lemma div_le_1 v M : (v <= M)%Qc -> (0 <= M)%Qc -> (v / M <= 1)%Qc.
Proof.
  intros H H0. apply Qcle_lt_or_eq in H0 as [P|<-]; [|replace (v / 0)%Qc with 0%Qc by (unfold Qcdiv; replace (/ 0)%Qc with 0%Qc by reflexivity; ring); discriminate].
  assert (N : M <> 0%Qc) by (intros ->; discriminate). destruct (Qclt_le_dec 1 (v / M)%Qc) as [L|L]; auto. exfalso. apply (Qcmult_lt_compat_r _ _ M) in L; auto. replace (v / M * M)%Qc with v in L by (field; auto). rewrite Qcmult_1_l in L. exact (Qclt_not_le _ _ L H).
Qed.
Lemma div_sign v M : (0 <= M)%Qc -> ((0 <= v)%Qc -> (0 <= v / M)%Qc) /\ ((v <= 0)%Qc -> (v / M <= 0)%Qc).
Proof.
  intros H0. apply Qcle_lt_or_eq in H0 as [P|<-].
  - assert (N : M <> 0%Qc) by (intros ->; discriminate). split; intros H.
    + destruct (Qclt_le_dec (v / M)%Qc 0) as [L|L]; auto. exfalso. apply (Qcmult_lt_compat_r _ _ M) in L; auto. replace (v / M * M)%Qc with v in L by (field; auto). rewrite Qcmult_0_l in L. exact (Qclt_not_le _ _ L H).
    + destruct (Qclt_le_dec 0 (v / M)%Qc) as [L|L]; auto. exfalso. apply (Qcmult_lt_compat_r _ _ M) in L; auto. replace (v / M * M)%Qc with v in L by (field; auto). rewrite Qcmult_0_l in L. exact (Qclt_not_le _ _ L H).
  - split; intros _; replace (v / 0)%Qc with 0%Qc by (unfold Qcdiv; replace (/ 0)%Qc with 0%Qc by reflexivity; ring); apply Qcle_refl.
Qed.
(** the colours of a solution: the positive part in red, the negative part in blue, scaled to at most 1 *)
Theorem c157_scaled : forall x i v, nth_error x i = Some v ->
  exists M, (0 <= M)%Qc /\ (forall w, In w x -> (qabs w <= M)%Qc) /\ (M <> 0%Qc -> exists w, In w x /\ qabs w = M) /\
  nth_error (map finish (scaled x)) i = Some (positive (v / M), 0, positive (- (v / M)), 1)%Qc /\ (positive (v / M) <= 1)%Qc /\ (positive (- (v / M)) <= 1)%Qc /\
  ((0 <= v)%Qc -> positive (- (v / M)) = 0%Qc) /\ ((v <= 0)%Qc -> positive (v / M) = 0%Qc).
Proof.
  intros x i v N. exists (max_abs x). assert (B := max_abs_gen x 0%Qc). fold (max_abs x) in B. destruct B as [B1 B2]. split; auto. split; auto. split.
  { unfold max_abs. clear. assert (G : forall (l : list Qc) a, fold_left (fun a v => let b := qabs v in if qltb a b then b else a) l a = a \/ exists w, In w l /\ qabs w = fold_left (fun a v => let b := qabs v in if qltb a b then b else a) l a).
    { induction l as [|y l IH]; intros a; cbn [fold_left]; auto. cbv zeta. destruct (qltb a (qabs y)); [destruct (IH (qabs y)) as [E|(w & I & E)]|destruct (IH a) as [E|(w & I & E)]]; auto.
      - right. exists y. cbn. auto.
      - right. exists w. cbn. auto.
      - right. exists w. cbn. auto. }
    intros NZ. destruct (G x 0%Qc) as [E|E]; [destruct NZ; exact E|auto]. }
  assert (I := nth_error_In _ _ N). assert (A := B2 v I). destruct (qabs_pos v) as (P1 & P2 & _). destruct (@div_sign v (max_abs x) B1) as [S1 S2]. split.
  { unfold scaled. rewrite !nth_map_opt, N. cbn [option_map finish]. f_equal. }
  split; [|split; [|split]].
  - unfold positive. destruct (qltb 0 _); [apply div_le_1; auto; eapply Qcle_trans; eauto|discriminate].
  - replace (- (v / max_abs x))%Qc with ((- v) / max_abs x)%Qc by (unfold Qcdiv; ring). unfold positive. destruct (qltb 0 _); [apply div_le_1; auto; eapply Qcle_trans; eauto|discriminate].
  - intros H. apply positive_spec. specialize (S1 H). revert S1. clear. generalize (v / max_abs x)%Qc. intros q S1. qc_lra.
  - intros H. apply positive_spec. auto.
Qed.

(** ** C157: every cell gets its colour *)
Definition regions_ok (m : mesh2) : Prop := Z.of_nat (length (regions2 m)) = num_faces2 m /\ Forall (fun r => 0 <= r) (regions2 m) /\ 0 < num_faces2 m.
Definition mesh_ok (m : mesh2) : Prop := incidence_ok m /\ border_axes_ok m /\ regions_ok m.
Lemma fold_max_ge (l : list Z) : forall a, a <= fold_left Z.max l a /\ forall x, In x l -> x <= fold_left Z.max l a.
Proof. induction l as [|y l IH]; intros a; cbn [fold_left]; [split; [lia|intros x []]|]. destruct (IH (Z.max a y)) as [A B]. split; [lia|]. intros x [<-|I]; [lia|auto]. Qed.
Section Colors.
  Variables (random_columns : Z -> list color) (solve : mesh2 -> list Qc -> list Qc) (hodge : mesh2 -> Z -> Qc).
  Hypothesis random_length : forall n, 0 <= n -> length (random_columns n) = Z.to_nat n.
  Hypothesis solve_length : forall m b, length (solve m b) = length b.
  Lemma rhs_some m h dir : mesh_ok m -> exists b, rhs m h dir = Some b /\ Z.of_nat (length b) = num_faces2 m.
  Proof.
    intros (I & B & R). unfold rhs. destruct (c64_coefficients m true I) as (B0 & -> & _). unfold flux. destruct (edge_flux_some dir B) as [us ->]. cbn [option_map]. eexists. split; [reflexivity|]. rewrite map_length. unfold zseq. rewrite map_length, seq_length. destruct R as (_ & _ & R). lia.
  Qed.
  (** a colour for every cell, no component negative, opaque, in every mode; two cells of one region get the same region colour, and cells are told apart by region only *)
  Theorem c157_colors : forall m k dir, mesh_ok m -> exists cols, update_colors random_columns solve hodge m k dir = Some cols /\
    Z.of_nat (length cols) = num_faces2 m /\ Forall shown_ok cols /\
    (k = CRegions -> forall i r, nth_error (regions2 m) i = Some r -> exists c, nth_error cols i = Some (finish c) /\ nth_error (random_columns (fold_left Z.max (regions2 m) 0 + 1)) (Z.to_nat r) = Some c).
  Proof.
    intros m k dir OK. unfold update_colors. destruct k.
    - cbn [option_map]. eexists. split; [reflexivity|]. destruct OK as (_ & _ & _ & _ & NF). split; [rewrite map_length, random_length by lia; lia|]. split; [apply Forall_forall; intros c I; apply in_map_iff in I as (c' & <- & _); apply finish_ok|discriminate].
    - destruct OK as (_ & _ & RL & RP & NF). unfold region_colors. destruct (regions2 m) as [|r t] eqn:ER; [cbn in RL; lia|].
      assert (MX : fold_left Z.max (r :: t) 0 = fold_left Z.max t r). { cbn [fold_left]. rewrite Z.max_r; auto. inversion_clear RP. auto. }
      assert (GE : forall x, In x (r :: t) -> 0 <= x <= fold_left Z.max t r). { intros x I. split; [rewrite Forall_forall in RP; auto|]. destruct (fold_max_ge t r) as [A B]. destruct I as [<-|I]; auto. }
      destruct (seq_all_ok (map (fun i => if i <? 0 then None else nth_error (random_columns (fold_left Z.max t r + 1)) (Z.to_nat i)) (r :: t))) as [cs E].
      { intros o I. apply in_map_iff in I as (x & <- & I). destruct (GE x I) as [P Q]. destruct (Z.ltb_spec x 0); [lia|]. apply nth_error_Some. rewrite random_length by lia. lia. }
      rewrite E. cbn [option_map]. eexists. split; [reflexivity|]. assert (LE := seq_all_length _ E). rewrite map_length in LE. split; [rewrite map_length; lia|]. split; [apply Forall_forall; intros c I; apply in_map_iff in I as (c' & <- & _); apply finish_ok|].
      intros _ i x N. assert (Q := seq_all_nth _ i E). rewrite nth_map_opt, N in Q. cbn [option_map] in Q. destruct (GE x (nth_error_In _ _ N)) as [P _]. destruct (Z.ltb_spec x 0); [lia|]. rewrite nth_map_opt, MX.
      destruct (nth_error cs i) as [c|] eqn:C; [|discriminate]. cbn [option_map] in *. apply Some_inj in Q. exists c. auto.
    - destruct (rhs_some (hodge m) dir OK) as (b & -> & L). cbn [option_map]. eexists. split; [reflexivity|]. split; [unfold scaled; rewrite !map_length, solve_length; auto|]. split; [apply Forall_forall; intros c I; apply in_map_iff in I as (c' & <- & _); apply finish_ok|discriminate].
    - destruct (rhs_some (hodge m) dir OK) as (b & -> & L). cbn [option_map]. eexists. split; [reflexivity|]. split; [unfold scaled; rewrite !map_length; auto|]. split; [apply Forall_forall; intros c I; apply in_map_iff in I as (c' & <- & _); apply finish_ok|discriminate].
  Qed.
End Colors.

(** ** C156 *)
Lemma cell2_some m i : 0 <= i < num_faces2 m -> cell2 m i <> None.
Proof.
  intros H. unfold cell2. destruct (Z.ltb_spec i (num_cutfaces m)).
  - destruct (Z.ltb_spec i 0); [lia|]. destruct (nth_error (m2_faces m) (Z.to_nat i)) eqn:E; [discriminate|]. apply nth_error_None in E. unfold num_cutfaces in *. lia.
  - unfold num_faces2 in H. destruct (Z.ltb_spec (i - num_cutfaces m) (ext_cells m)); [|lia]. destruct (nth_error (cell_coords _ _) _) eqn:E; [discriminate|]. apply nth_error_None in E. destruct (c33_index_bijection (m2_cells m) (m2_mask m)) as [L _]. unfold ext_cells in *. lia.
Qed.
Section Session.
  Variables (gen : box -> list Z -> list vtx -> list (Z * Z) -> option mesh2) (wn : list Z -> q2 -> Qc) (earclip : list (option q2) -> list Z -> list c3)
    (stack : list (option q2) -> list (list c3 * color) -> buffers) (random_columns : Z -> list color) (solve : mesh2 -> list Qc -> list Qc) (hodge : mesh2 -> Z -> Qc).
  Let step := step2 gen wn earclip stack random_columns solve hodge.
  Let run := run2 gen wn earclip stack random_columns solve hodge.
  Let faces := update_faces earclip stack random_columns solve hodge.
  (** *** the drawn curve *)
  (** "Reset Curve", and the start: the square ought to be closed, and is one open curve of four points and three sides, whatever was drawn before *)
  Theorem c156_reset_open_refuted : forall s, exists s' P, step s EReset = Some s' /\ s_cs s' = [(P, false)] /\ length P = 4%nat /\ edges (s_cs s') = [(0, 1); (1, 2); (2, 3)] /\
    option_map s_cs start = Some (s_cs s').
  Proof. intros s. eexists. eexists. split; [reflexivity|]. split; [reflexivity|]. split; [reflexivity|]. split; reflexivity. Qed.
  (** *** the mesh *)
  Lemma face_frame s i s' : update_face earclip s i = Some s' -> s_ccm s' = s_ccm s /\ s_browse s' = s_browse s /\ s_cs s' = s_cs s /\ s_box s' = s_box s /\ s_N s' = s_N s /\ s_face s' = s_face s /\ s_mode s' = s_mode s /\ s_dir s' = s_dir s /\ s_fill s' = s_fill s.
  Proof.
    unfold update_face. intros H. destruct (s_ccm s) as [m|] eqn:C; [|apply Some_inj in H as <-; repeat split; auto]. destruct (_ || _); [apply Some_inj in H as <-; repeat split; auto|].
    destruct (cell2 m i) as [[|d l]|]; [|destruct (length d <? 3)%nat|discriminate]; apply Some_inj in H as <-; cbn; repeat split; auto.
  Qed.
  Lemma faces_frame s s' : faces s = Some s' -> s_ccm s' = s_ccm s /\ s_browse s' = s_browse s /\ s_cs s' = s_cs s /\ s_box s' = s_box s /\ s_N s' = s_N s /\ s_face s' = s_face s /\ s_mode s' = s_mode s /\ s_dir s' = s_dir s /\ s_hlT s' = s_hlT s /\
    match s_ccm s with None => s' = s | Some m => exists FCs, s_fill s' = Some (stack (verts2 m) FCs) /\ s_hlV s' = fst (fst (stack (verts2 m) FCs)) end.
  Proof.
    unfold faces, update_faces. intros H. destruct (s_ccm s) as [m|] eqn:C; [|apply Some_inj in H as <-; repeat split; auto]. destruct (update_colors _ _ _ _ _ _) as [cols|]; [|discriminate].
    destruct (seq_all _) as [FCs|]; [|discriminate]. apply Some_inj in H as <-. cbn. repeat split; auto. exists FCs. auto.
  Qed.
  (** "Make CCM" shows the mesh generated from the box, the resolution and the curves of that moment; every other event leaves the mesh as it is *)
  Theorem c156_mesh : forall s e s', step s e = Some s' -> s_ccm s' = match e with EMake => gen (s_box s) (s_N s) (points (s_cs s)) (edges (s_cs s)) | _ => s_ccm s end.
  Proof.
    intros s e s' H. destruct e; cbn [step step2] in H; unfold step, step2 in H; cbn [with_cursor s_browse s_ccm s_face] in H.
    - destruct (s_browse s); [|apply Some_inj in H as <-; auto]. destruct (s_ccm s) as [m|] eqn:C; [|discriminate]. destruct (s_face s =? _); [apply Some_inj in H as <-; cbn; auto|]. apply face_frame in H. cbn in H. rewrite C in H. tauto.
    - destruct (s_browse s).
      + destruct (s_ccm s) as [m|] eqn:C; [|discriminate]. destruct (_ && _); [destruct (cell2 _ _); [|discriminate]|]; apply Some_inj in H as <-; auto.
      + destruct main; [|apply Some_inj in H as <-; auto]. destruct (do_op _ _); [|discriminate]. apply Some_inj in H as <-. auto.
    - apply Some_inj in H as <-. auto.
    - apply faces_frame in H. tauto.
    - apply Some_inj in H as <-. auto.
    - apply face_frame in H. cbn in H. tauto.
    - apply Some_inj in H as <-. auto.
    - apply Some_inj in H as <-. auto.
    - destruct (do_op _ _); [|discriminate]. apply Some_inj in H as <-. auto.
    - destruct (gen _ _ _ _) as [m|]; [|discriminate]. apply faces_frame in H. cbn in H. tauto.
    - destruct (do_op _ _); [|discriminate]. apply Some_inj in H as <-. auto.
    - destruct (reset_curve _); [|discriminate]. apply Some_inj in H as <-. auto.
    - apply faces_frame in H. tauto.
  Qed.
  (** *** no undefined behaviour before a file or Browse meets a missing mesh *)
  Definition generates : Prop := forall b n P E, exists m, gen b n P E = Some m /\ mesh_ok m.
  (** Browse is not chosen before the first "Make CCM" *)
  Fixpoint make_first (es : list event) : Prop := match es with [] => True | EMake :: _ => True | EMode true :: _ => False | _ :: t => make_first t end.
  Definition inv (s : st2) : Prop := match s_ccm s with Some m => mesh_ok m | None => s_browse s = false end.
  Hypothesis random_length : forall n, 0 <= n -> length (random_columns n) = Z.to_nat n.
  Hypothesis solve_length : forall m b, length (solve m b) = length b.
  Lemma face_safe s i : update_face earclip s i <> None.
  Proof.
    unfold update_face. destruct (s_ccm s) as [m|]; [|discriminate]. destruct (_ || _) eqn:R; [discriminate|]. apply orb_false_iff in R as [R1 R2]. apply Z.ltb_ge in R1. apply Z.leb_gt in R2.
    assert (C := @cell2_some m i ltac:(lia)). destruct (cell2 m i) as [[|d l]|]; [discriminate| |congruence]. destruct (_ <? _)%nat; discriminate.
  Qed.
  Lemma faces_safe s : match s_ccm s with Some m => mesh_ok m | None => True end -> faces s <> None.
  Proof.
    unfold faces, update_faces. destruct (s_ccm s) as [m|]; [|discriminate]. intros OK. destruct (@c157_colors random_columns solve hodge random_length solve_length m (s_mode s) (s_dir s) OK) as (cols & -> & L & _).
    destruct (seq_all_ok (map (cell_fill earclip m cols) (zseq (num_faces2 m)))) as [FCs ->]; [|discriminate]. intros o I. apply in_map_iff in I as (i & <- & I). unfold zseq in I. apply in_map_iff in I as (k & <- & I). apply in_seq in I.
    unfold cell_fill. assert (C := @cell2_some m (Z.of_nat k) ltac:(lia)). destruct (cell2 m (Z.of_nat k)) as [[|d l]|]; [discriminate| |congruence]. destruct (nth_error cols (Z.to_nat (Z.of_nat k))) eqn:N; [discriminate|]. apply nth_error_None in N. lia.
  Qed.
  Lemma safe_step s e : generates -> inv s -> make_first [e] \/ s_ccm s <> None -> exists s', step s e = Some s' /\ inv s' /\ (s_ccm s <> None -> s_ccm s' <> None) /\ (e = EMake -> s_ccm s' <> None).
  Proof.
    intros G I MF. assert (NN : step s e <> None).
    { destruct e; unfold step, step2; cbn [with_cursor s_browse s_ccm s_face]; try discriminate.
      - unfold inv in I. destruct (s_ccm s) as [m|]; [|rewrite I; discriminate]. destruct (s_browse s); [|discriminate]. destruct (_ =? _); [discriminate|]. apply face_safe.
      - unfold inv in I. destruct (s_ccm s) as [m|]; [|rewrite I; destruct main; cbn; discriminate]. destruct (s_browse s); [|destruct main; cbn; discriminate]. destruct (_ && _) eqn:R; [|discriminate]. apply andb_true_iff in R as [R1 R2]. apply Z.leb_le in R1. apply Z.ltb_lt in R2.
        assert (C := @cell2_some m _ (conj R1 R2)). destruct (cell2 _ _); [discriminate|congruence].
      - apply faces_safe. unfold inv in I. cbn. destruct (s_ccm s); auto.
      - apply face_safe.
      - destruct (G (s_box s) (s_N s) (points (s_cs s)) (edges (s_cs s))) as (m & -> & OK). apply faces_safe. cbn. auto.
      - apply faces_safe. unfold inv in I. cbn. destruct (s_ccm s); auto. }
    destruct (step s e) as [s'|] eqn:E; [|congruence]. exists s'. split; auto. assert (M := c156_mesh _ _ E). assert (BR : s_browse s' = match e with EMode b => b | _ => s_browse s end).
    { clear I MF NN M. destruct e; unfold step, step2 in E; cbn [with_cursor s_browse s_ccm s_face] in E.
      - destruct (s_browse s) eqn:B; [|apply Some_inj in E as <-; auto]. destruct (s_ccm s) as [m|] eqn:C; [|discriminate]. destruct (s_face s =? _); [apply Some_inj in E as <-; cbn; auto|]. apply face_frame in E. cbn in E. rewrite B in E. tauto.
      - destruct (s_browse s) eqn:B.
        + destruct (s_ccm s) as [m|] eqn:C; [|discriminate]. destruct (_ && _); [destruct (cell2 _ _); [|discriminate]|]; apply Some_inj in E as <-; auto.
        + destruct main; [|apply Some_inj in E as <-; auto]. destruct (do_op _ _); [|discriminate]. apply Some_inj in E as <-. auto.
      - apply Some_inj in E as <-. auto.
      - apply faces_frame in E. cbn in E. tauto.
      - apply Some_inj in E as <-. auto.
      - apply face_frame in E. cbn in E. tauto.
      - apply Some_inj in E as <-. auto.
      - apply Some_inj in E as <-. auto.
      - destruct (do_op _ _); [|discriminate]. apply Some_inj in E as <-. auto.
      - destruct (gen _ _ _ _) as [m|]; [|discriminate]. apply faces_frame in E. cbn in E. tauto.
      - destruct (do_op _ _); [|discriminate]. apply Some_inj in E as <-. auto.
      - destruct (reset_curve _); [|discriminate]. apply Some_inj in E as <-. auto.
      - apply faces_frame in E. cbn in E. tauto. }
    assert (NM : e <> EMake -> s_ccm s' = s_ccm s) by (intros N; rewrite M; destruct e; congruence). split; [|split].
    - unfold inv in *. destruct e; rewrite M; cbn [make_first] in MF; try (destruct (s_ccm s); congruence).
      + destruct (s_ccm s); [exact I|]. rewrite BR. destruct browse; auto. destruct MF; [tauto|congruence].
      + destruct (G (s_box s) (s_N s) (points (s_cs s)) (edges (s_cs s))) as (m & -> & OK). auto.
    - intros N. rewrite M. destruct e; auto. destruct (G (s_box s) (s_N s) (points (s_cs s)) (edges (s_cs s))) as (m & -> & OK). discriminate.
    - intros ->. rewrite M. destruct (G (s_box s) (s_N s) (points (s_cs s)) (edges (s_cs s))) as (m & -> & OK). discriminate.
  Qed.
  Theorem c156_safe : forall es s0, generates -> make_first es -> start = Some s0 -> exists s, run s0 es = Some s.
  Proof.
    intros es s0 G MF ST. assert (I : inv s0) by (unfold inv; vm_compute in ST; apply Some_inj in ST as <-; reflexivity). clear ST.
    assert (D : make_first es \/ s_ccm s0 <> None) by auto. clear MF. revert s0 I D. induction es as [|e es IH]; intros s0 I D; cbn [run run2]; [unfold run; cbn; eauto|]. unfold run. cbn [run2].
    destruct (@safe_step s0 e G I) as (s' & E & I' & K1 & K2).
    { destruct D as [D|D]; auto. left. destruct e; cbn in *; auto. destruct browse; auto. }
    fold step. rewrite E. apply IH; auto. destruct D as [D|D]; auto. destruct e; cbn in D; auto; try (right; apply K2; reflexivity). destruct browse; [destruct D|auto].
  Qed.
  (** Started with a file, or switched to Browse, before "Make CCM": the first mouse move, and the first click, read the mesh that is not there. *)
  Theorem c156_browse_refuted : forall s, s_ccm s = None -> s_browse s = true ->
    (forall p es, run s (EMove p :: es) = None) /\ (forall b es, run s (EPress b :: es) = None).
  Proof. intros s C B. split; intros x es; unfold run; cbn [run2]; unfold step2; cbn [with_cursor s_browse s_ccm]; rewrite B, C; auto. Qed.
  Theorem c156_file_refuted : forall cs s p es, start_file cs = Some s -> run s (EMove p :: es) = None.
  Proof.
    intros cs s p es H. assert (Q : s_ccm s = None /\ s_browse s = true); [|destruct Q; apply c156_browse_refuted; auto]. unfold start_file in H. cbv zeta in H. destruct (col_min (map fst (points cs))), (col_min (map snd (points cs))), (col_max (map fst (points cs))), (col_max (map snd (points cs))); try discriminate. apply Some_inj in H as <-. auto.
  Qed.
  (** *** the face index and the highlighted face *)
  (** typed: cut to the cells of the mesh (kept as typed when there is none); moving the mouse in Browse: the cell under the cursor *)
  Theorem c156_face : forall s i s', step s (EFace i) = Some s' ->
    match s_ccm s with
    | None => s_face s' = i
    | Some m => 0 < num_faces2 m -> 0 <= s_face s' < num_faces2 m /\ (0 <= i < num_faces2 m -> s_face s' = i) /\ (i < 0 -> s_face s' = 0) /\ (num_faces2 m <= i -> s_face s' = num_faces2 m - 1)
    end.
  Proof.
    intros s i s' H. unfold step, step2 in H. cbv zeta in H. apply face_frame in H. destruct H as (_ & _ & _ & _ & _ & H & _). cbn in H. destruct (s_ccm s) as [m|]; auto. intros P. rewrite H. unfold clampz. repeat split; lia.
  Qed.
  Theorem c156_cursor : forall s p s' m, s_browse s = true -> s_ccm s = Some m -> step s (EMove p) = Some s' -> s_face s' = cell_index2 wn m p /\ s_cursor s' = p.
  Proof.
    intros s p s' m B C H. unfold step, step2 in H. cbn [with_cursor s_browse s_ccm s_face] in H. rewrite B, C in H. destruct (Z.eqb_spec (s_face s) (cell_index2 wn m p)); [apply Some_inj in H as <-; auto|].
    unfold update_face in H. cbn [s_ccm with_cursor with_face] in H. rewrite C in H. destruct (_ || _); [apply Some_inj in H as <-; auto|]. destruct (cell2 _ _) as [[|d l]|]; [|destruct (_ <? _)%nat|discriminate]; apply Some_inj in H as <-; auto.
  Qed.
  (** the vertices the windows draw from are all those of the mesh in order: one for each of the (nx + 1)(ny + 1) grid points, then one for each cut vertex *)
  Theorem c156_vertices : forall m nx ny, m2_cells m = [nx; ny] -> 0 <= nx -> 0 <= ny ->
    Z.of_nat (length (verts2 m)) = (nx + 1) * (ny + 1) + Z.of_nat (length (m2_verts m)) /\
    forall i, 0 <= i < (nx + 1) * (ny + 1) + Z.of_nat (length (m2_verts m)) -> nth_error (verts2 m) (Z.to_nat i) = Some (vertex2 m i).
  Proof.
    intros m nx ny C X Y. assert (N : num_vertices2 m = (nx + 1) * (ny + 1) + Z.of_nat (length (m2_verts m))). { unfold num_vertices2, vshape2. rewrite C. cbn. nia. } split.
    - unfold verts2, zseq. rewrite !map_length, seq_length, N. nia.
    - intros i R. unfold verts2, zseq. rewrite !nth_error_map, N. rewrite (nth_error_nth' _ 0%nat) by (rewrite seq_length; lia). rewrite seq_nth by lia. cbn [option_map]. do 2 f_equal. lia.
  Qed.
  (** the triangles highlighted are those of the first loop of a cell of the mesh, over the vertices of that mesh *)
  Definition highlights (m : mesh2) (i : Z) (s : st2) : Prop := forall d l, cell2 m i = Some (d :: l) -> (3 <= length d)%nat -> s_hlV s = verts2 m /\ s_hlT s = Some (earclip (verts2 m) d).
  Theorem c156_highlight : forall s e s' m, s_ccm s = Some m -> step s e = Some s' -> 
    match e with EFace _ => True | EMove _ => s_browse s = true /\ s_face s <> s_face s' | _ => False end ->
    0 <= s_face s' < num_faces2 m -> highlights m (s_face s') s'.
  Proof.
    intros s e s' m C H K R d l CE LD. assert (G : forall t, s_ccm t = Some m -> update_face earclip t (s_face t) = Some s' -> s_face t = s_face s' -> s_hlV s' = verts2 m /\ s_hlT s' = Some (earclip (verts2 m) d)).
    { intros t CT U F. unfold update_face in U. rewrite CT, F in U. destruct (Z.ltb_spec (s_face s') 0); [lia|]. destruct (Z.leb_spec (num_faces2 m) (s_face s')); [lia|]. cbn [orb] in U. rewrite CE in U. destruct (Nat.ltb_spec (length d) 3); [lia|]. apply Some_inj in U as <-. auto. }
    destruct e; try destruct K; unfold step, step2 in H; cbn [with_cursor s_browse s_ccm s_face] in H.
    - rewrite H0, C in H. destruct (Z.eqb_spec (s_face s) (cell_index2 wn m p)) as [E|E]; [apply Some_inj in H as <-; cbn in H1; congruence|]. assert (Q := face_frame _ _ H). destruct Q as (_ & _ & _ & _ & _ & Q & _). cbn in Q.
      apply (G (with_face (with_cursor s p) (cell_index2 wn m p))); auto.
    - rewrite C in H. assert (Q := face_frame _ _ H). destruct Q as (_ & _ & _ & _ & _ & Q & _). cbn in Q. apply (G (with_face s (clampz i 0 (num_faces2 m - 1)))); auto.
  Qed.
  (** Choosing a colour type, turning the direction and making a new mesh leave the highlighted triangles as they are and put the vertices of the filled cells under them: the
      triangles number the vertices of the mesh they were made from, not those. *)
  Theorem c156_highlight_stale_refuted : forall s e s', step s e = Some s' -> match e with EColor _ | EDir _ | EMake => True | _ => False end -> s_ccm s' <> None ->
    s_hlT s' = s_hlT s /\ exists m FCs, s_ccm s' = Some m /\ s_hlV s' = fst (fst (stack (verts2 m) FCs)) /\ s_fill s' = Some (stack (verts2 m) FCs).
  Proof.
    intros s e s' H K N. assert (G : forall t, s_hlT t = s_hlT s -> faces t = Some s' -> s_hlT s' = s_hlT s /\ exists m FCs, s_ccm s' = Some m /\ s_hlV s' = fst (fst (stack (verts2 m) FCs)) /\ s_fill s' = Some (stack (verts2 m) FCs)).
    { intros t T F. apply faces_frame in F. destruct F as (E & _ & _ & _ & _ & _ & _ & _ & ET & F). split; [congruence|]. destruct (s_ccm t) as [m|] eqn:CT; [|congruence]. destruct F as (FCs & F1 & F2). exists m, FCs. auto. }
    destruct e; try destruct K; unfold step, step2 in H.
    - eapply G; [|exact H]. auto.
    - destruct (gen _ _ _ _) as [m|]; [|discriminate]. eapply G; [|exact H]. auto.
    - eapply G; [|exact H]. auto.
  Qed.
  (** when the cursor leaves every cell, the cell highlighted before stays highlighted *)
  Theorem c156_leave_refuted : forall s p s' m, s_browse s = true -> s_ccm s = Some m -> step s (EMove p) = Some s' -> cell_index2 wn m p < 0 -> s_hlT s' = s_hlT s /\ s_hlV s' = s_hlV s.
  Proof.
    intros s p s' m B C H L. unfold step, step2 in H. cbn [with_cursor s_browse s_ccm s_face] in H. rewrite B, C in H. destruct (_ =? _); [apply Some_inj in H as <-; auto|].
    unfold update_face in H. cbn [s_ccm with_cursor with_face] in H. rewrite C in H. destruct (Z.ltb_spec (cell_index2 wn m p) 0); [|lia]. apply Some_inj in H as <-. auto.
  Qed.
  (** *** the filled cells *)
  (** every cell is filled with the triangles of its first loop (a hole is filled too) in the colour of the cell *)
  Theorem c156_fill : forall s e s' m, step s e = Some s' -> match e with EColor _ | EDir _ | EMake => True | _ => False end -> s_ccm s' = Some m ->
    exists cols FCs, update_colors random_columns solve hodge m (s_mode s') (s_dir s') = Some cols /\ s_fill s' = Some (stack (verts2 m) FCs) /\ Z.of_nat (length FCs) = num_faces2 m /\
      forall i d l, 0 <= i < num_faces2 m -> cell2 m i = Some (d :: l) -> exists c, nth_error cols (Z.to_nat i) = Some c /\ nth_error FCs (Z.to_nat i) = Some (earclip (verts2 m) d, c).
  Proof.
    intros s e s' m H K C. assert (G : forall t, faces t = Some s' -> exists cols FCs, update_colors random_columns solve hodge m (s_mode s') (s_dir s') = Some cols /\ s_fill s' = Some (stack (verts2 m) FCs) /\ Z.of_nat (length FCs) = num_faces2 m /\
      forall i d l, 0 <= i < num_faces2 m -> cell2 m i = Some (d :: l) -> exists c, nth_error cols (Z.to_nat i) = Some c /\ nth_error FCs (Z.to_nat i) = Some (earclip (verts2 m) d, c)).
    { intros t F. assert (Q := faces_frame _ F). destruct Q as (Q1 & _ & _ & _ & _ & _ & Q2 & Q3 & _). unfold faces, update_faces in F. rewrite <- Q1, C, <- Q2, <- Q3 in F.
      destruct (update_colors _ _ _ m _ _) as [cols|]; [|discriminate]. destruct (seq_all (map (cell_fill earclip m cols) _)) as [FCs|] eqn:E; [|discriminate]. exists cols, FCs. split; auto. split; [|split].
      - apply Some_inj in F as <-. auto.
      - apply seq_all_length in E. rewrite E, map_length. unfold zseq. rewrite map_length, seq_length. apply Z2Nat.id. unfold num_faces2, ext_cells, num_cutfaces. destruct (c33_index_bijection (m2_cells m) (m2_mask m)) as [L _]. lia.
      - intros i d l R CE. assert (Q := seq_all_nth _ (Z.to_nat i) E). rewrite nth_map_opt in Q. unfold zseq in Q. rewrite nth_map_opt in Q.
        assert (K1 : nth_error (seq 0 (Z.to_nat (num_faces2 m))) (Z.to_nat i) = Some (Z.to_nat i)). { rewrite (nth_error_nth' _ 0%nat) by (rewrite seq_length; lia). rewrite seq_nth by lia. auto. }
        rewrite K1 in Q. cbn [option_map] in Q. rewrite Z2Nat.id in Q by lia. unfold cell_fill in Q. rewrite CE in Q. destruct (nth_error FCs (Z.to_nat i)) as [x|]; [|discriminate]. cbn [option_map] in Q. apply Some_inj in Q. destruct (nth_error cols (Z.to_nat i)) as [c|]; [|discriminate]. exists c. split; [reflexivity|]. cbn [option_map] in Q. rewrite <- Q. reflexivity. }
    destruct e; try destruct K; unfold step, step2 in H.
    - eapply G; exact H.
    - destruct (gen _ _ _ _) as [m'|]; [|discriminate]. eapply G; exact H.
    - eapply G; exact H.
  Qed.
  (** *** the box *)
  Definition typed_ok (e : event) : Prop := match e with EMin v | EMax v => length v = 2%nat | _ => True end.
  Lemma box_step s e s' : step s e = Some s' -> s_box s' = match e with EMin v => (sel_min v (snd (s_box s)), snd (s_box s)) | EMax v => (fst (s_box s), sel_max (fst (s_box s)) v) | _ => s_box s end.
  Proof.
    intros H. destruct e; unfold step, step2 in H; cbn [with_cursor s_browse s_ccm s_face] in H.
    - destruct (s_browse s); [|apply Some_inj in H as <-; auto]. destruct (s_ccm s) as [m|] eqn:C; [|discriminate]. destruct (s_face s =? _); [apply Some_inj in H as <-; cbn; auto|]. apply face_frame in H. cbn in H. tauto.
    - destruct (s_browse s).
      + destruct (s_ccm s) as [m|] eqn:C; [|discriminate]. destruct (_ && _); [destruct (cell2 _ _); [|discriminate]|]; apply Some_inj in H as <-; auto.
      + destruct main; [|apply Some_inj in H as <-; auto]. destruct (do_op _ _); [|discriminate]. apply Some_inj in H as <-. auto.
    - apply Some_inj in H as <-. auto.
    - apply faces_frame in H. cbn in H. tauto.
    - apply Some_inj in H as <-. auto.
    - apply face_frame in H. cbn in H. tauto.
    - apply Some_inj in H as <-. auto.
    - apply Some_inj in H as <-. auto.
    - destruct (do_op _ _); [|discriminate]. apply Some_inj in H as <-. auto.
    - destruct (gen _ _ _ _) as [m|]; [|discriminate]. apply faces_frame in H. cbn in H. tauto.
    - destruct (do_op _ _); [|discriminate]. apply Some_inj in H as <-. auto.
    - destruct (reset_curve _); [|discriminate]. apply Some_inj in H as <-. auto.
    - apply faces_frame in H. cbn in H. tauto.
  Qed.
  Definition plane_box (b : box) : Prop := length (fst b) = 2%nat /\ ordered b.
  Theorem c156_box : forall es s s', plane_box (s_box s) -> Forall typed_ok es -> run s es = Some s' -> plane_box (s_box s').
  Proof.
    induction es as [|e es IH]; intros s s' B T H; unfold run in H; cbn [run2] in H; [apply Some_inj in H as <-; auto|]. inversion_clear T as [|? ? T1 T2]. fold step in H. destruct (step s e) as [s1|] eqn:E; [|discriminate]. apply (IH s1); auto.
    rewrite (box_step _ _ E). destruct B as [L O]. assert (L2 := F2_len O). destruct e; try (split; auto; fail); cbn in T1; unfold plane_box, ordered; cbn [fst snd].
    - split; [unfold sel_min; rewrite zipwith_length; lia|]. apply ordered_sel_min. lia.
    - split; auto. apply ordered_sel_max. lia.
  Qed.
End Session.
Lemma col_min_le (l : list Qc) m : col_min l = Some m -> In m l /\ forall x, In x l -> (m <= x)%Qc.
Proof.
  destruct l as [|a t]; [discriminate|]. cbn [col_min]. intros H. apply Some_inj in H as <-. revert a. induction t as [|b t IH]; intros a; cbn [fold_left].
  - split; [left; auto|]. intros x [<-|[]]. apply Qcle_refl.
  - assert (E : (if qltb b a then b else a) = a /\ (a <= b)%Qc \/ (if qltb b a then b else a) = b /\ (b <= a)%Qc).
    { destruct (qltb b a) eqn:E; [right|left]; split; auto; [apply qltb_lt in E; qc_lra|apply qltb_ge in E; auto]. }
    destruct (IH (if qltb b a then b else a)) as [I1 I2]. split.
    + destruct I1 as [I1|I1]; [rewrite <- I1; destruct (qltb b a); cbn; auto|cbn; auto].
    + assert (Z0 := I2 _ (or_introl eq_refl)). intros x [<-|[<-|I]]; [| |apply I2; right; auto]; destruct E as [[E ?]|[E ?]]; rewrite E in Z0 |- *; qc_lra.
Qed.
Lemma col_max_ge (l : list Qc) m : col_max l = Some m -> In m l /\ forall x, In x l -> (x <= m)%Qc.
Proof.
  destruct l as [|a t]; [discriminate|]. cbn [col_max]. intros H. apply Some_inj in H as <-. revert a. induction t as [|b t IH]; intros a; cbn [fold_left].
  - split; [left; auto|]. intros x [<-|[]]. apply Qcle_refl.
  - assert (E : (if qltb a b then b else a) = a /\ (b <= a)%Qc \/ (if qltb a b then b else a) = b /\ (a <= b)%Qc).
    { destruct (qltb a b) eqn:E; [right|left]; split; auto; [apply qltb_lt in E; qc_lra|apply qltb_ge in E; auto]. }
    destruct (IH (if qltb a b then b else a)) as [I1 I2]. split.
    + destruct I1 as [I1|I1]; [rewrite <- I1; destruct (qltb a b); cbn; auto|cbn; auto].
    + assert (Z0 := I2 _ (or_introl eq_refl)). intros x [<-|[<-|I]]; [| |apply I2; right; auto]; destruct E as [[E ?]|[E ?]]; rewrite E in Z0 |- *; qc_lra.
Qed.
Lemma qlow_le a b : (qlow a b <= a)%Qc /\ (qlow a b <= b)%Qc.
Proof. unfold qlow. destruct (qltb b a) eqn:E; [apply qltb_lt in E|apply qltb_ge in E]; split; qc_lra. Qed.
Lemma qhigh_ge a b : (a <= qhigh a b)%Qc /\ (b <= qhigh a b)%Qc.
Proof. unfold qhigh. destruct (qltb a b) eqn:E; [apply qltb_lt in E|apply qltb_ge in E]; split; qc_lra. Qed.
Lemma tenth_pos : (0 < tenth)%Qc. Proof. unfold tenth. apply qltb_lt. vm_compute. reflexivity. Qed.
(** without a file the box is [-1,1]^2; with one it strictly contains [-1,1]^2 and every point of the curves *)
Theorem c156_start_box : (forall s, start = Some s -> s_box s = ([- (1); - (1)]%Qc, [1; 1]%Qc)) /\ forall cs s, start_file cs = Some s -> plane_box (s_box s) /\
  exists x0 y0 x1 y1, s_box s = ([x0; y0], [x1; y1]) /\ (x0 < - (1) /\ y0 < - (1) /\ 1 < x1 /\ 1 < y1)%Qc /\
    forall p, In p (points cs) -> (x0 < fst p < x1)%Qc /\ (y0 < snd p < y1)%Qc.
Proof.
  split.
  - intros s H. unfold start in H. destruct (reset_curve []); [|discriminate]. cbn [option_map] in H. apply Some_inj in H as <-. reflexivity.
  - intros cs s H. unfold start_file in H. destruct (col_min (map fst (points cs))) as [x0|] eqn:X0; [|discriminate]. destruct (col_min (map snd (points cs))) as [y0|] eqn:Y0; [|discriminate]. destruct (col_max (map fst (points cs))) as [x1|] eqn:X1; [|discriminate]. destruct (col_max (map snd (points cs))) as [y1|] eqn:Y1; [|discriminate].
    apply Some_inj in H as <-. cbn [s_box]. apply col_min_le in X0, Y0. apply col_max_ge in X1, Y1. assert (T := tenth_pos). destruct (qlow_le (- (1))%Qc x0), (qlow_le (- (1))%Qc y0), (qhigh_ge 1%Qc x1), (qhigh_ge 1%Qc y1).
    assert (O : (- (1) <= 1)%Qc) by (vm_compute; discriminate). split.
    + split; [reflexivity|]. unfold ordered. cbn [fst snd]. repeat constructor; qc_lra.
    + exists (qlow (- (1)) x0 - tenth)%Qc, (qlow (- (1)) y0 - tenth)%Qc, (qhigh 1 x1 + tenth)%Qc, (qhigh 1 y1 + tenth)%Qc. split; [reflexivity|]. split; [repeat split; qc_lra|].
      intros p I. assert (IX := in_map fst _ _ I). assert (IY := in_map snd _ _ I). destruct X0 as [_ X0], X1 as [_ X1], Y0 as [_ Y0], Y1 as [_ Y1]. specialize (X0 _ IX). specialize (X1 _ IX). specialize (Y0 _ IY). specialize (Y1 _ IY). repeat split; qc_lra.
Qed.
(** ** examples *)
Lemma sample2_ok : mesh_ok sample2.
Proof.
  split; [apply c64_nonvacuous|]. split.
  - intros e I _. cbn [sample2 m2_edges] in I. repeat (destruct I as [<-|I]; [vm_compute; split; [discriminate|reflexivity]|]). destruct I.
  - split; [reflexivity|]. split; [repeat constructor; discriminate|reflexivity].
Qed.
(** the left side of the domain, x = 0: a direction across it gets no flux, one along it does *)
Example c157_example : flux sample2 (1, 0)%Qc = Some ([0; 0; 1; 1]%Qc ++ map (facet_flux (1, 0)%Qc) (facets [2; 1] (m2_mask sample2))) /\
  on_line 0 (nth 0 (m2_edges sample2) (mkEdge2 [] (0, 0) (AxialEdge 0 0) None)) /\ option_map (fun u => nth 0 u 0%Qc) (flux sample2 (0, 1)%Qc) = Some 1%Qc /\
  map (fun c : color => let '(r, g, b, a) := c in (this r, this g, this b)) (map finish (scaled [1 + 1; - (1); 0]%Qc)) = [(1, 0, 0); (0, 0, 1 # 2); (0, 0, 0)]%Q.
Proof.
  split; [vm_compute; reflexivity|]. split; [|split; vm_compute; reflexivity]. split; [reflexivity|]. split; [lia|]. split; [exists 0|]; reflexivity.
Qed.
Definition ex_gen (b : box) (n : list Z) (P : list vtx) (E : list (Z * Z)) : option mesh2 := Some sample2.
Definition ex_clip (V : list (option q2)) (l : list Z) : list c3 := match l with a :: b :: c :: _ => [(a, b, c)] | _ => [] end.
Definition ex_stack (V : list (option q2)) (FCs : list (list c3 * color)) : buffers := (V ++ V, flat_map fst FCs, map snd FCs).
Definition ex_random (n : Z) : list color := repeat (1, 1, 1, 1)%Qc (Z.to_nat n).
Definition ex_run (es : list event) : option st2 := match start with Some s => run2 ex_gen sample_wn ex_clip ex_stack ex_random (fun _ b => b) (fun _ _ => 1%Qc) s es | None => None end.
(** a session: a point is drawn, the mesh made, a cell browsed (highlighted over the six vertices of the mesh), and another colour type chosen: twelve vertices under the same triangles *)
Example c156_example : let es := [EMove (qhalf, qhalf); EPress true; EMake; EMode true; EMove (qhalf, qhalf)] in
  make_first es /\ option_map (fun s => (s_face s, length (s_hlV s), s_hlT s)) (ex_run es) = Some (0, 6%nat, Some [(0, 2, 3)]) /\
  option_map (fun s => (length (s_hlV s), s_hlT s)) (ex_run (es ++ [EColor CRhs])) = Some (12%nat, Some [(0, 2, 3)]) /\
  option_map (fun s => (s_face s, s_hlT s)) (ex_run (es ++ [EMove (- (1), - (1))%Qc])) = Some (-2, Some [(0, 2, 3)]) /\
  ex_run [EMode true; EMove (qhalf, qhalf)] = None /\ option_map (fun s => length (s_cs s)) (ex_run es) = Some 1%nat /\
  generates ex_gen /\ plane_box ([- (1); - (1)]%Qc, [1; 1]%Qc) /\ exists s, start_file [([(0, 0); (1, 1 + 1)]%Qc, true)] = Some s.
Proof.
  split; [exact I|]. repeat (split; [vm_compute; reflexivity|]).
  split; [intros b n P E; exists sample2; split; [reflexivity|exact sample2_ok]|]. split; [split; [reflexivity|repeat constructor; vm_compute; discriminate]|]. eexists. reflexivity.
Qed.
