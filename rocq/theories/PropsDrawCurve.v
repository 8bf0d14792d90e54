(** C146: the drawn curves, their edges and lines, and what saving them preserves. *)
From Verif Require Import Base Num AdaptiveGrid VertexProofs PlCurve PropsPlCurve DrawCurve.
Local Open Scope Z_scope.

(** *** specification: point a of the drawing is followed by point b on the same curve *)
Definition follows (cs : list curve) (a b : Z) : Prop :=
  exists pre ps closed post i, cs = pre ++ (ps, closed) :: post /\ (i < length ps)%nat /\ a = Z.of_nat (length (points pre) + i) /\
    ((S i < length ps)%nat /\ b = a + 1 \/ closed = true /\ S i = length ps /\ b = Z.of_nat (length (points pre))).

Lemma curve_sides_In c a b : In (a, b) (curve_sides c) <-> exists i, (i < length (fst c))%nat /\ a = Z.of_nat i /\ ((S i < length (fst c))%nat /\ b = a + 1 \/ snd c = true /\ S i = length (fst c) /\ b = 0).
Proof.
  unfold curve_sides. rewrite in_map_iff. split.
  - intros (i & E & H). apply in_seq in H. unfold side_from in E. injection E as <- <-. unfold num_sides in H. exists i. destruct c as [[|p ps] cl]; cbn [fst snd length] in *; [lia|]. destruct cl.
    + split; [lia|]. split; auto. destruct (Nat.eq_dec i (length ps)) as [->|N]; [right; split; auto; split; auto; replace (Z.of_nat (length ps) + 1) with (Z.of_nat (S (length ps))) by lia; apply Z.mod_same; lia|]. left. split; [lia|]. apply Z.mod_small. lia.
    + split; [lia|]. split; auto. left. split; [lia|]. apply Z.mod_small. lia.
  - intros (i & Hi & -> & H). exists i. unfold side_from. assert (Hn : (i < num_sides c)%nat). { unfold num_sides. destruct c as [[|p ps] cl]; cbn [fst snd length] in *; [lia|]. destruct cl; [lia|]. destruct H as [[H _]|[H _]]; [lia|discriminate]. }
    split; [|apply in_seq; lia]. destruct H as [[H ->]|(_ & H & ->)]; f_equal; [apply Z.mod_small; lia|]. replace (Z.of_nat i + 1) with (Z.of_nat (length (fst c))) by lia. apply Z.mod_same. lia.
Qed.
Lemma edges_from_In cs : forall o a b, In (a, b) (edges_from o cs) <-> follows cs (a - o) (b - o).
Proof.
  induction cs as [|c cs IH]; intros o a b; cbn [edges_from].
  - split; [intros []|]. intros (pre & ps & cl & post & i & E & _). destruct pre; discriminate.
  - rewrite in_app_iff, IH, in_map_iff. split.
    + intros [((a' & b') & E & H)|H].
      * injection E as <- <-. apply curve_sides_In in H as (i & Hi & -> & H). destruct c as [ps cl]. exists [], ps, cl, cs, i. cbn [app points flat_map length Nat.add fst snd] in *. split; auto. split; auto. split; [lia|]. destruct H as [[H ->]|(H1 & H2 & ->)]; [left; lia|right; repeat split; auto; lia].
      * destruct H as (pre & ps & cl & post & i & E & Hi & Ha & H). exists (c :: pre), ps, cl, post, i. split; [rewrite E; reflexivity|]. split; auto. change (points (c :: pre)) with (fst c ++ points pre). rewrite app_length. split; [lia|]. destruct H as [[H Hb]|(H1 & H2 & Hb)]; [left; lia|right; repeat split; auto; lia].
    + intros (pre & ps & cl & post & i & E & Hi & Ha & H). destruct pre as [|c' pre]; cbn [app] in E; injection E as -> ->.
      * left. cbn in Ha, H. exists (Z.of_nat i, b - o). split; [f_equal; lia|]. apply curve_sides_In. exists i. cbn [fst snd]. split; auto. split; auto. destruct H as [[H Hb]|(H1 & H2 & Hb)]; [left; lia|right; repeat split; auto; lia].
      * right. exists pre, ps, cl, post, i. split; auto. split; auto. change (points (c' :: pre)) with (fst c' ++ points pre) in Ha, H. rewrite app_length in Ha, H. split; [lia|]. destruct H as [[H Hb]|(H1 & H2 & Hb)]; [left; lia|right; repeat split; auto; lia].
Qed.
(** edges() are exactly the steps along the curves, each listed once *)
Lemma curve_sides_NoDup c : NoDup (curve_sides c).
Proof. unfold curve_sides. apply FinFun.Injective_map_NoDup; [|apply seq_NoDup]. intros i j E. unfold side_from in E. injection E as E _. lia. Qed.
Lemma edges_fst cs : forall o, NoDup (map fst (edges_from o cs)) /\ forall a, In a (map fst (edges_from o cs)) -> o <= a.
Proof.
  induction cs as [|c cs IH]; intros o; cbn [edges_from]; [split; [constructor|intros ? []]|].
  destruct (IH (o + Z.of_nat (length (fst c)))) as [N B]. rewrite map_app. assert (E : map fst (map (fun '(a, b) => (a + o, b + o)) (curve_sides c)) = map (fun i => Z.of_nat i + o) (seq 0 (num_sides c))). { unfold curve_sides. rewrite !map_map. apply map_ext. intros i. reflexivity. }
  rewrite E. assert (NS : (num_sides c <= length (fst c))%nat). { unfold num_sides. destruct (fst c); [auto|]. destruct (snd c); lia. }
  split.
  - revert N B. generalize (map fst (edges_from (o + Z.of_nat (length (fst c))) cs)). intros l N B. assert (N1 : NoDup (map (fun i => Z.of_nat i + o) (seq 0 (num_sides c)))) by (apply FinFun.Injective_map_NoDup; [intros i j H; lia|apply seq_NoDup]).
    assert (D : forall x, In x (map (fun i => Z.of_nat i + o) (seq 0 (num_sides c))) -> ~ In x l). { intros x Hx Hl. apply in_map_iff in Hx as (i & <- & Hi). apply in_seq in Hi. apply B in Hl. lia. }
    revert N1 D. generalize (map (fun i => Z.of_nat i + o) (seq 0 (num_sides c))). induction l0 as [|x l0 IHl]; intros N1 D; auto. cbn. inversion N1 as [|? ? NI N2]; subst. constructor; [intros H; apply in_app_or in H as [H|H]; [contradiction|apply (D x); cbn; auto]|apply IHl; auto; intros; apply D; cbn; auto].
  - intros a H. apply in_app_or in H as [H|H]; [apply in_map_iff in H as (i & <- & _); lia|apply B in H; lia].
Qed.
Theorem c146_edges : forall cs, NoDup (edges cs) /\ forall a b, In (a, b) (edges cs) <-> follows cs a b.
Proof.
  intros cs. split; [apply (NoDup_map_inv fst), edges_fst|]. intros a b. unfold edges. rewrite edges_from_In, !Z.sub_0_r. tauto.
Qed.
(** every edge joins points of the drawing, no point starts two edges and none ends two *)
Theorem c146_indices : forall cs a b, In (a, b) (edges cs) -> 0 <= a < Z.of_nat (length (points cs)) /\ 0 <= b < Z.of_nat (length (points cs)).
Proof.
  intros cs a b H. apply c146_edges in H as (pre & ps & cl & post & i & -> & Hi & -> & H). unfold points in *. rewrite flat_map_app, app_length. cbn [flat_map fst]. rewrite app_length. destruct H as [[H ->]|(_ & H & ->)]; lia.
Qed.
Lemma split_unique (pre pre' : list curve) ps cl post ps' cl' post' i i' : pre ++ (ps, cl) :: post = pre' ++ (ps', cl') :: post' -> (i < length ps)%nat -> (i' < length ps')%nat ->
  (length (points pre) + i = length (points pre') + i')%nat -> pre = pre' /\ ps = ps' /\ cl = cl' /\ i = i'.
Proof.
  revert pre'. induction pre as [|c pre IH]; intros [|c' pre'] E Hi Hi' L; cbn [app] in E.
  - injection E as -> -> ->. cbn in L. auto.
  - injection E as <- E. cbn [points flat_map fst app] in L. rewrite app_length in L. cbn in L. lia.
  - injection E as -> E. cbn [points flat_map fst app] in L. rewrite app_length in L. cbn in L. lia.
  - injection E as <- E. cbn [points flat_map] in L. rewrite !app_length in L. destruct (IH pre' E Hi Hi') as (-> & ? & ? & ?); [unfold points; lia|auto].
Qed.
Theorem c146_degrees : forall cs a b c, (In (a, b) (edges cs) -> In (a, c) (edges cs) -> b = c) /\ (In (b, a) (edges cs) -> In (c, a) (edges cs) -> b = c).
Proof.
  intros cs a b c. split; intros H1 H2; apply c146_edges in H1 as (pre & ps & cl & post & i & E & Hi & Ha & H); apply c146_edges in H2 as (pre' & ps' & cl' & post' & i' & E' & Hi' & Ha' & H').
  - destruct (split_unique pre pre' ps cl post ps' cl' post' i i') as (-> & -> & -> & ->); try exact (eq_trans (eq_sym E) E'); try lia.
  - assert (B : exists j, (j < length ps)%nat /\ a = Z.of_nat (length (points pre) + j)) by (destruct H as [[H Hb]|(H1 & H & Hb)]; [exists (S i)|exists 0%nat]; lia).
    assert (B' : exists j, (j < length ps')%nat /\ a = Z.of_nat (length (points pre') + j)) by (destruct H' as [[H' Hb]|(H1 & H' & Hb)]; [exists (S i')|exists 0%nat]; lia).
    destruct B as (j & Hj & B), B' as (j' & Hj' & B'). destruct (split_unique pre pre' ps cl post ps' cl' post' j j') as (-> & -> & -> & ->); try exact (eq_trans (eq_sym E) E'); try lia.
Qed.
(** lines() are the edges() drawn between points() *)
Theorem c146_lines : forall cs, lines cs = map (fun '(a, b) => (at_pt (points cs) a, at_pt (points cs) b)) (edges cs).
Proof.
  intros cs. unfold edges. assert (G : forall cs pre, lines cs = map (fun '(a, b) => (at_pt (pre ++ points cs) a, at_pt (pre ++ points cs) b)) (edges_from (Z.of_nat (length pre)) cs)).
  { clear. induction cs as [|c cs IH]; intros pre; auto. cbn [lines flat_map edges_from]. rewrite map_app, map_map. f_equal.
    - apply map_ext_in. intros (a & b) H. apply curve_sides_In in H as (i & Hi & -> & H). assert (P : forall j, (j < length (fst c))%nat -> at_pt (pre ++ points (c :: cs)) (Z.of_nat j + Z.of_nat (length pre)) = at_pt (fst c) (Z.of_nat j)).
      { intros j Hj. unfold at_pt, points. cbn [flat_map]. rewrite app_nth2 by lia. rewrite app_nth1 by lia. f_equal. lia. }
      rewrite P by auto. f_equal. destruct H as [[H ->]|(_ & H & ->)]; [|symmetry; apply (P 0%nat); lia]. replace (Z.of_nat i + 1) with (Z.of_nat (S i)) by lia. rewrite P by lia. auto.
    - fold (lines cs). rewrite (IH (pre ++ fst c)). rewrite app_length, Nat2Z.inj_add. unfold points. cbn [flat_map]. rewrite app_assoc. auto. }
  apply (G cs []).
Qed.
(** number of edges: one less than the points on every open curve *)
Definition open_curves (cs : list curve) : list curve := filter (fun c => negb (snd c) && match fst c with [] => false | _ => true end) cs.
Theorem c146_count : forall cs, (length (edges cs) + length (open_curves cs) = length (points cs))%nat.
Proof.
  intros cs. unfold edges. generalize 0. induction cs as [|c cs IH]; intros o; auto. cbn [edges_from]. unfold open_curves, points. cbn [filter flat_map]. rewrite !app_length, map_length. unfold curve_sides. rewrite map_length, seq_length. specialize (IH (o + Z.of_nat (length (fst c)))). unfold open_curves, points in IH.
  destruct c as [[|p ps] [|]]; cbn [fst snd num_sides negb andb length] in *; lia.
Qed.
(** *** histories *)
Lemma on_last_app (A : Type) (g : A -> A) l x : on_last g (l ++ [x]) = l ++ [g x].
Proof. induction l as [|y l IH]; auto. cbn [app on_last]. destruct (l ++ [x]) eqn:E; [destruct l; discriminate|]. rewrite <- IH. auto. Qed.
Lemma last_case (A : Type) (l : list A) : l = [] \/ exists t x, l = t ++ [x].
Proof. destruct l as [|a l]; auto. right. destruct (exists_last (l := a :: l)) as (t & x & E); [discriminate|eauto]. Qed.
Lemma points_app a b : points (a ++ b) = points a ++ points b.
Proof. unfold points. apply flat_map_app. Qed.
Lemma edges_app a : forall o b, edges_from o (a ++ b) = edges_from o a ++ edges_from (o + Z.of_nat (length (points a))) b.
Proof.
  induction a as [|c a IH]; intros o b; cbn [app edges_from]; [cbn; f_equal; lia|]. rewrite IH, <- app_assoc. do 2 f_equal. unfold points. cbn [flat_map]. rewrite app_length. f_equal. lia.
Qed.
Lemma add_eq (t : list curve) (c : curve) p : do_op (AddPoint p) (t ++ [c]) = Some (t ++ [(fst c ++ [p], snd c)]).
Proof. cbn [do_op]. f_equal. destruct c as [ps b]. transitivity (on_last (fun '(ps, b) => (ps ++ [p], b)) (t ++ [(ps, b)])); [destruct t; auto|]. rewrite on_last_app. auto. Qed.
(** drawing a point appends it to the points; on an open curve the edges stay and one is appended from the previous point of that curve *)
Theorem c146_add_point : forall cs p cs', do_op (AddPoint p) cs = Some cs' -> points cs' = points cs ++ [p] /\
  (forall pre ps, cs = pre ++ [(ps, false)] -> edges cs' = edges cs ++ match ps with [] => [] | _ => let n := Z.of_nat (length (points cs)) in [(n - 1, n)] end).
Proof.
  intros cs p cs' H. destruct (last_case _ cs) as [-> | (t & [ps b] & ->)].
  - cbn in H. apply Some_inj in H. subst cs'. split; auto. intros pre ps E. destruct pre; discriminate.
  - rewrite add_eq in H. apply Some_inj in H. cbn [fst snd] in H. subst cs'. split.
    + rewrite !points_app. cbn. rewrite !app_nil_r, app_assoc. auto.
    + intros pre ps' E'. apply app_inj_tail in E' as [<- E']. injection E' as -> ->. rewrite points_app. unfold edges. rewrite !edges_app. cbn [edges_from points flat_map fst]. rewrite !app_nil_r, <- app_assoc. f_equal.
      unfold curve_sides, num_sides. cbn [fst snd]. rewrite !app_length. destruct ps' as [|q qs]; auto. cbn [app length]. replace (S (length qs) + 1 - 1)%nat with (length qs + 1)%nat by lia. replace (S (length qs) - 1)%nat with (length qs) by lia.
      rewrite seq_app, !map_app. cbn [seq map Nat.add]. f_equal.
      * rewrite !map_map. apply map_ext_in. intros i Hi. apply in_seq in Hi. unfold side_from. f_equal. f_equal. rewrite !Z.mod_small by lia. auto.
      * unfold side_from. rewrite Z.mod_small by lia. f_equal. f_equal; lia.
Qed.
(** taking the last point back undoes drawing it *)
Theorem c146_undo : forall cs p cs', do_op (AddPoint p) cs = Some cs' -> exists cs'', do_op PopPoint cs' = Some cs'' /\ points cs'' = points cs /\ edges cs'' = edges cs /\ (cs <> [] -> cs'' = cs).
Proof.
  intros cs p cs' H. destruct (last_case _ cs) as [-> | (t & [ps b] & ->)].
  - cbn in H. apply Some_inj in H. subst cs'. eexists. split; [reflexivity|]. cbn. split; auto. split; auto. congruence.
  - rewrite add_eq in H. apply Some_inj in H. cbn [fst snd] in H. subst cs'. cbn [do_op]. rewrite on_last_app. eexists. split; [reflexivity|]. rewrite removelast_last. auto.
Qed.
(** a freshly started curve is empty, drawing into it gives an open path and leaves the earlier curves alone *)
Theorem c146_new_curve : forall cs p ps, exists cs', do_ops (CreateCurve :: map AddPoint (p :: ps)) cs = Some cs' /\ points cs' = points cs ++ p :: ps /\
  forall a b, In (a, b) (edges cs') <-> In (a, b) (edges cs) \/ (Z.of_nat (length (points cs)) <= a /\ b = a + 1 /\ b < Z.of_nat (length (points cs')) ).
Proof.
  intros cs p ps. set (qs := p :: ps). assert (G : forall qs rs, do_ops (map AddPoint qs) (cs ++ [(rs, false)]) = Some (cs ++ [(rs ++ qs, false)])).
  { clear. induction qs as [|q qs IH]; intros rs; [cbn; rewrite app_nil_r; auto|]. cbn [map do_ops]. rewrite add_eq. cbn [fst snd]. rewrite IH, <- app_assoc. auto. }
  exists (cs ++ [(qs, false)]). split; [exact (G qs [])|]. assert (P : points (cs ++ [(qs, false)]) = points cs ++ qs) by (rewrite points_app; cbn; rewrite app_nil_r; auto). split; [exact P|].
  intros a b. rewrite P, app_length. unfold edges. rewrite edges_app, in_app_iff. cbn [edges_from]. rewrite app_nil_r. assert (X := c146_edges [(qs, false)]). unfold edges in X. cbn [edges_from] in X. rewrite app_nil_r in X. destruct X as [_ X].
  assert (Y : In (a, b) (map (fun '(a, b) => (a + (0 + Z.of_nat (length (points cs))), b + (0 + Z.of_nat (length (points cs))))) (curve_sides (qs, false))) <-> Z.of_nat (length (points cs)) <= a /\ b = a + 1 /\ b < Z.of_nat (length (points cs) + length qs)); [|tauto].
  rewrite in_map_iff. split.
  - intros ([u w] & E & I). apply curve_sides_In in I as (i & Hi & -> & I). cbn [fst snd] in *. apply pair_equal_spec in E as [<- <-]. destruct I as [[I ->]|(I & _)]; [lia|discriminate].
  - intros (A & B & C). exists (a - Z.of_nat (length (points cs)), b - Z.of_nat (length (points cs))). split; [f_equal; lia|]. apply curve_sides_In. cbn [fst snd]. exists (Z.to_nat (a - Z.of_nat (length (points cs)))). split; [lia|]. split; [lia|]. left. lia.
Qed.
(** clearing everything leaves nothing; clearing or removing the last curve leaves exactly the earlier ones *)
Theorem c146_clear : forall cs, do_op Clear cs = Some [] /\ forall c cs', do_op ClearCurve (cs ++ [c]) = Some cs' \/ do_op PopCurve (cs ++ [c]) = Some cs' -> points cs' = points cs /\ edges cs' = edges cs.
Proof.
  intros cs. split; auto. intros [ps b] cs' [H|H]; cbn [do_op] in H.
  - rewrite on_last_app in H. apply Some_inj in H. subst cs'. rewrite points_app. unfold edges. rewrite edges_app. cbn. rewrite !app_nil_r. auto.
  - assert (X : Some (removelast (cs ++ [(ps, b)])) = Some cs') by (rewrite <- H; destruct cs; auto). apply Some_inj in X. rewrite removelast_last in X. subst. auto.
Qed.
(** closing twice changes nothing, and closing changes no point *)
Theorem c146_toggle : forall cs cs' cs'', do_op ToggleClosed cs = Some cs' -> do_op ToggleClosed cs' = Some cs'' -> cs'' = cs /\ points cs' = points cs.
Proof.
  intros cs cs' cs'' H H'. cbn [do_op] in *. apply Some_inj in H, H'. subst. destruct (last_case _ cs) as [-> | (t & [ps b] & ->)]; auto. rewrite !on_last_app, negb_involutive. split; auto. rewrite !points_app. auto.
Qed.
(** the only operation of a session that can go wrong is removing a curve when there is none *)
Theorem c146_sessions : forall os cs, do_ops os cs = None -> exists pre post, os = pre ++ PopCurve :: post /\ do_ops pre cs = Some [].
Proof.
  induction os as [|o os IH]; intros cs H; [discriminate|]. cbn [do_ops] in H. destruct (do_op o cs) as [cs'|] eqn:E.
  - destruct (IH cs' H) as (pre & post & -> & HP). exists (o :: pre), post. split; auto. cbn [do_ops]. rewrite E. auto.
  - destruct o; cbn [do_op] in E; try discriminate. destruct cs; [|discriminate]. exists [], os. auto.
Qed.
(** *** saving: a drawing of closed curves is read back unchanged (coordinates up to the number format) *)
Definition as4 (e : Z * Z) : edge4 := (fst e, snd e, -1, -1).
Lemma pad_edges es : Forall2 (fun e e4 => pad e = Some e4) (map (fun '(a, b) => [a; b]) es) (map as4 es).
Proof. induction es as [|[a b] es IH]; constructor; auto. Qed.
Theorem c146_save_closed : forall tok fm rnd cs, fmt_ok tok fm rnd -> (forall ps b, In (ps, b) cs -> ps <> [] -> b = true) -> points cs <> [] ->
  (forall p, In p (points cs) -> rnd (fst p) = fst p /\ rnd (snd p) = snd p) ->
  read_plcurve fm (save fm cs) = Some (points cs, map as4 (edges cs)).
Proof.
  intros tok fm rnd cs OK C NE R. unfold save. assert (OC : open_curves cs = []).
  { unfold open_curves. destruct (filter _ cs) as [|[ps b] l] eqn:F; auto. assert (I : In (ps, b) (filter (fun c : list vtx * bool => negb (snd c) && match fst c with [] => false | _ :: _ => true end) cs)) by (rewrite F; cbn; auto). apply filter_In in I as [I T]. cbn in T. destruct ps; [rewrite andb_false_r in T; discriminate|]. rewrite (C _ _ I) in T by discriminate. discriminate. }
  assert (CT := c146_count cs). rewrite OC in CT. cbn in CT. rewrite Nat.add_0_r in CT. apply (c47_closed_round_trip tok fm rnd); auto.
  - apply pad_edges.
  - destruct (edges cs); [|discriminate]. destruct (points cs); [congruence|discriminate].
  - rewrite map_length. auto.
Qed.
(** refuted for open curves: whatever the file is read as, it is not the drawing *)
Theorem c146_save_open_refuted : forall tok fm rnd cs ps, fmt_ok tok fm rnd -> In (ps, false) cs -> ps <> [] -> edges cs <> [] ->
  forall V', read_plcurve fm (save fm cs) <> Some (V', map as4 (edges cs)).
Proof.
  intros tok fm rnd cs ps OK I NE EN. apply (c47_open_curve_refuted tok fm rnd); auto.
  - apply pad_edges.
  - destruct (edges cs); [congruence|discriminate].
  - rewrite map_length. assert (CT := c146_count cs). assert (O : open_curves cs <> []). { intros E. assert (X : In (ps, false) (open_curves cs)) by (apply filter_In; split; auto; cbn; destruct ps; congruence). rewrite E in X. destruct X. } destruct (open_curves cs); [congruence|]. cbn in CT. lia.
Qed.
(** refuted: that every edge joins two different points: a closed curve of one point has an edge from that point to itself *)
Theorem c146_degenerate_refuted : forall pre p post, In (Z.of_nat (length (points pre)), Z.of_nat (length (points pre))) (edges (pre ++ ([p], true) :: post)).
Proof. intros pre p post. apply c146_edges. exists pre, [p], true, post, 0%nat. split; auto. split; [cbn; lia|]. split; [lia|]. right. auto. Qed.
(** and that is the only way to get one *)
Theorem c146_degenerate : forall cs a, In (a, a) (edges cs) -> exists pre p post, cs = pre ++ ([p], true) :: post /\ a = Z.of_nat (length (points pre)).
Proof.
  intros cs a H. apply c146_edges in H as (pre & ps & cl & post & i & E & Hi & Ha & H). destruct H as [[_ H]|(-> & H1 & H2)]; [lia|]. assert (i = 0)%nat by lia. subst i. destruct ps as [|p [|]]; cbn in H1; try lia. exists pre, p, post. split; auto.
Qed.
(** Example: a session drawing a closed triangle and an open segment *)
Definition dp (x y : Z) : vtx := (Z2Qc x, Z2Qc y).
Definition session := [AddPoint (dp 0 0); AddPoint (dp 1 0); AddPoint (dp 0 1); ToggleClosed; CreateCurve; AddPoint (dp 5 5); AddPoint (dp 6 5); AddPoint (dp 7 7); PopPoint].
Example c146_session : option_map (fun cs => (edges cs, length (lines cs), length (points cs))) (do_ops session []) = Some ([(0, 1); (1, 2); (2, 0); (3, 4)], 4%nat, 5%nat).
Proof. vm_compute. reflexivity. Qed.
Example c146_saved : match do_ops (firstn 4 session) [] with Some cs => option_map snd (read_plcurve xfmt (save xfmt cs)) = Some (map as4 (edges cs)) /\ edges cs = [(0, 1); (1, 2); (2, 0)] | None => False end.
Proof. vm_compute. auto. Qed.
